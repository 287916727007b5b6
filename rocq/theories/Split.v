(** Taking compound tokens in pieces (C34). *)

From Coq Require Import String List Arith Bool NArith Lia.
From Verif Require Import Base Peresil Token Tokenizer TokenizerSpec TokenizerTop TokenizerWhole Schema Value Nt Grammar Points FileToks.
Import ListNotations.
Local Open Scope string_scope.
Local Open Scope list_scope.
Local Open Scope nat_scope.

(** [taken toks p ps q]: from point [p], the parser asks for the kinds of [ps]
    one after the other, gets their extents, and arrives at [q]. *)
Inductive taken (toks : list token) : point -> list (tkind * extent) -> point -> Prop :=
| Tk_nil p : taken toks p [] p
| Tk_cons p k err pm x q ps r :
    tok toks (MK k) err pm p = (pm, Success q (VExt x)) ->
    taken toks q ps r ->
    taken toks p ((k, x) :: ps) r.

(** How a token of kind [k] at [(s, e)] can be taken. *)
Definition ways (k : tkind) (s e : nat) : list (list (tkind * extent)) :=
  [(k, (s, e))] ::
  match k with
  | KDoubleLeftAngle => [[(KLeftAngle, (s, s + 1)); (KLeftAngle, (s + 1, e))]]
  | KDoubleRightAngle => [[(KRightAngle, (s, s + 1)); (KRightAngle, (s + 1, e))]]
  | KGreaterThanOrEquals => [[(KRightAngle, (s, s + 1)); (KEquals, (s + 1, e))]]
  | KDoublePipe => [[(KPipe, (s, s + 1)); (KPipe, (s + 1, e))]]
  | KDoubleAmpersand => [[(KAmpersand, (s, s + 1)); (KAmpersand, (s + 1, e))]]
  | KShiftRightEquals =>
      [[(KRightAngle, (s, s + 1)); (KGreaterThanOrEquals, (s + 1, e))];
       [(KRightAngle, (s, s + 1)); (KRightAngle, (s + 1, s + 2)); (KEquals, (s + 2, e))]]
  | _ => []
  end.

Section Split.
  Variable toks : list token.

  Lemma tok_success k err pm p q v :
    tok toks (MK k) err pm p = (pm, Success q v) ->
    exists t, nth_error toks (off p) = Some t /\
      ((q = mkPt (off p + 1) None /\
        exists c, match sub p with Some n => option_map snd (split t n) | None => Some t end = Some c /\
                  convert (MK k) c = Some v) \/
       (q = mkPt (off p) (Some (sub_rank (sub p))) /\
        exists a b, split t (sub_rank (sub p)) = Some (a, b) /\ convert (MK k) a = Some v)).
  Proof.
    unfold tok. destruct (nth_error toks (off p)) as [t|]; [|discriminate].
    destruct (match sub p with Some n => match split t n with Some (_, b) => Some b | None => None end
              | None => Some t end) as [c|] eqn:Ec; [|discriminate].
    intros H. exists t. split; [reflexivity|].
    destruct (convert (MK k) c) as [v'|] eqn:Ev.
    - left. injection H as <- <-. split; [reflexivity|]. exists c. split; [|exact Ev].
      destruct (sub p) as [n|]; [|exact Ec]. destruct (split t n) as [[a b]|]; [exact Ec|discriminate].
    - right. destruct (split t (sub_rank (sub p))) as [[a b]|]; [|discriminate].
      destruct (convert (MK k) a) as [v'|] eqn:Ea; [|discriminate].
      injection H as <- <-. split; [reflexivity|]. exists a, b. auto.
  Qed.

  Lemma taken_off p ps q : taken toks p ps q -> off p <= off q.
  Proof.
    induction 1 as [|p k err pm x q ps r H _ IH]; [lia|].
    destruct (tok_success _ _ _ _ _ _ H) as (t & _ & [[-> _]|[-> _]]); cbn [off] in IH; lia.
  Qed.

  Lemma taken_done p ps q : taken toks p ps q -> off p = off q -> sub p = None -> sub q = None -> ps = [].
  Proof.
    intros H. destruct H as [|p k err pm x q ps r H Ht]; [reflexivity|]. intros Ho Sp Sr.
    pose proof (taken_off _ _ _ Ht) as L.
    destruct (tok_success _ _ _ _ _ _ H) as (t & _ & [[-> _]|[-> _]]); cbn [off] in L; [lia|].
    exfalso. clear - Ht Ho Sr. remember (mkPt (off p) (Some (sub_rank (sub p)))) as p' eqn:E.
    assert (Hs : exists n, sub p' = Some n) by (subst; eexists; reflexivity).
    assert (Ho' : off p' = off r) by (subst; exact Ho). clear E Ho p.
    induction Ht as [p'|p' k err pm x q ps r H Ht IH]; [destruct Hs; congruence|].
    pose proof (taken_off _ _ _ Ht) as L.
    destruct (tok_success _ _ _ _ _ _ H) as (t & _ & [[-> _]|[-> _]]); cbn [off] in L; [lia|].
    apply IH; cbn [off sub]; eauto.
  Qed.

  Lemma convert_ext k t x : convert (MK k) t = Some (VExt x) -> t = Tk k x.
  Proof.
    destruct t as [k' x'|n]; cbn [convert]; [|discriminate].
    destruct (tkind_eqb k k') eqn:E; [|discriminate]. apply Points.tkind_eqb_eq in E. subst.
    intros [= ->]. reflexivity.
  Qed.

  Lemma taken_ways i k s e ps :
    nth_error toks i = Some (Tk k (s, e)) ->
    taken toks (mkPt i None) ps (mkPt (S i) None) -> In ps (ways k s e).
  Proof.
    intros Hn H.
    inversion H as [|? k1 ? ? x1 q1 ps1 ? H1 T1]; subst; [lia|].
    destruct (tok_success _ _ _ _ _ _ H1) as (t & Ht & [[-> (c & Ec & Cc)]|[-> (a & b & Es & Cc)]]);
      cbn [off sub sub_rank] in *; rewrite Hn in Ht; injection Ht as <-.
    - injection Ec as <-. apply convert_ext in Cc. injection Cc as <- <-.
      rewrite (taken_done _ _ _ T1); cbn [off sub]; try reflexivity; [|lia]. left. reflexivity.
    - apply convert_ext in Cc. subst a.
      inversion T1 as [|? k2 ? ? x2 q2 ps2 ? H2 T2]; subst.
      destruct (tok_success _ _ _ _ _ _ H2) as (t & Ht & [[-> (c & Ec & Cc)]|[-> (a & b' & Es' & Cc)]]);
        cbn [off sub sub_rank] in *; rewrite Hn in Ht; injection Ht as <-.
      + rewrite Es in Ec. injection Ec as <-. apply convert_ext in Cc. subst b.
        rewrite (taken_done _ _ _ T2); cbn [off sub]; try reflexivity; [|lia]. right.
        destruct k; try discriminate; cbn [split] in Es; injection Es as <- <- <- <-; left; reflexivity.
      + apply convert_ext in Cc. subst a.
        inversion T2 as [|? k3 ? ? x3 q3 ps3 ? H3 T3]; subst.
        destruct (tok_success _ _ _ _ _ _ H3) as (t & Ht & [[-> (c & Ec & Cc)]|[-> (a & b'' & Es'' & Cc)]]);
          cbn [off sub sub_rank] in *; rewrite Hn in Ht; injection Ht as <-;
          [|destruct k; discriminate].
        rewrite Es' in Ec. injection Ec as <-. apply convert_ext in Cc. subst b'.
        rewrite (taken_done _ _ _ T3); cbn [off sub]; try reflexivity; [|lia]. right.
        destruct k; try discriminate; cbn [split] in Es, Es'; injection Es as <- <- <-;
          injection Es' as <- <- <- <-; right; left; reflexivity.
  Qed.

  Lemma tok_take k err pm p t c x :
    nth_error toks (off p) = Some t ->
    match sub p with Some n => option_map snd (split t n) | None => Some t end = Some c ->
    c = Tk k x ->
    tok toks (MK k) err pm p = (pm, Success (mkPt (off p + 1) None) (VExt x)).
  Proof.
    intros H1 H2 ->. unfold tok. rewrite H1.
    assert (E : match sub p with Some n => match split t n with Some (_, b) => Some b | None => None end
                | None => Some t end = Some (Tk k x)).
    { destruct (sub p) as [n|]; [|exact H2]. destruct (split t n) as [[a b]|]; exact H2. }
    rewrite E. cbn [convert]. rewrite Points.tkind_eqb_refl. reflexivity.
  Qed.

  (** Where a point reached inside a token stands. *)
  Lemma taken_inside i k x ps q :
    nth_error toks i = Some (Tk k x) ->
    taken toks (mkPt i None) ps q -> off q = i ->
    match sub q with None => True | Some n => split (Tk k x) n <> None end.
  Proof.
    intros Hn H Hq. remember (mkPt i None) as p eqn:E.
    assert (Hp : off p = i /\ match sub p with None => True | Some n => split (Tk k x) n <> None end)
      by (subst; cbn; auto).
    clear E. induction H as [|p k1 err pm x1 q1 ps r H T IH]; [exact (proj2 Hp)|].
    destruct Hp as [Hp Sp]. pose proof (taken_off _ _ _ T) as L.
    destruct (tok_success _ _ _ _ _ _ H) as (t & Ht & [[-> (c & Ec & Cc)]|[-> (a & b & Es & Cc)]]);
      cbn [off sub] in *; [lia|].
    rewrite Hp, Hn in Ht. injection Ht as <-. apply IH; auto. split; auto. congruence.
  Qed.

  Lemma taken_resume i k x ps q :
    nth_error toks i = Some (Tk k x) ->
    taken toks (mkPt i None) ps q -> off q = i ->
    (forall m err pm w pm', tok toks m err pm q <> (pm', Abort w)) /\
    exists k' x', taken toks q [(k', x')] (mkPt (S i) None).
  Proof.
    intros Hn H Hq. pose proof (taken_inside _ _ _ _ _ Hn H Hq) as V. subst i. split.
    - intros m err pm w pm'. unfold tok. rewrite Hn. destruct (sub q) as [n|].
      + destruct (split (Tk k x) n) as [[a b]|]; [|congruence].
        destruct (convert m b); [discriminate|].
        destruct (split (Tk k x) (sub_rank (Some n))) as [[a' b']|]; [|discriminate].
        destruct (convert m a'); discriminate.
      + destruct (convert m (Tk k x)); [discriminate|].
        destruct (split (Tk k x) (sub_rank None)) as [[a' b']|]; [|discriminate].
        destruct (convert m a'); discriminate.
    - set (pm := mkMaster (mkFailures pt_zero []) Unambiguous : pm_t).
      assert (exists k' x', match sub q with Some n => option_map snd (split (Tk k x) n)
                            | None => Some (Tk k x) end = Some (Tk k' x')) as (k' & x' & E).
      { destruct (sub q) as [n|]; [|eauto].
        destruct x as [s e]. destruct k; cbn [split] in V |- *; try congruence;
          destruct n as [|[|n]]; try congruence; cbn [option_map snd]; eauto. }
      exists k', x'. econstructor.
      + exact (tok_take k' ExpectedIdent pm q _ _ x' Hn E eq_refl).
      + replace (off q + 1) with (S (off q)) by lia. constructor.
  Qed.
End Split.

(** Every position that [valid] admits (the invariant of all parsers) is
    reached by taking pieces. *)
Lemma valid_taken toks p : valid toks p -> exists ps, taken toks (mkPt (off p) None) ps p.
Proof.
  destruct p as [i [n|]]; intros (t & Hn & V); cbn [off sub] in *; [|exists []; constructor].
  destruct t as [k [s e]|]; [|exfalso; apply V; destruct n; reflexivity].
  set (pm := mkMaster (mkFailures pt_zero []) Unambiguous : pm_t).
  assert (T : forall k1 q x, tok toks (MK k1) ExpectedIdent pm (mkPt i None) = (pm, Success q (VExt x)) ->
              forall k2 r y, tok toks (MK k2) ExpectedIdent pm q = (pm, Success r (VExt y)) ->
              taken toks (mkPt i None) [(k1, x); (k2, y)] r).
  { intros. econstructor; [eassumption|]. econstructor; [eassumption|]. constructor. }
  assert (T1 : forall k1 q x, tok toks (MK k1) ExpectedIdent pm (mkPt i None) = (pm, Success q (VExt x)) ->
              taken toks (mkPt i None) [(k1, x)] q).
  { intros. econstructor; [eassumption|]. constructor. }
  destruct k; cbn [split] in V; try congruence; destruct n as [|[|n]]; try congruence; eexists;
  first
   [ apply (T1 KRightAngle); unfold tok; cbn [off sub]; rewrite Hn; reflexivity
   | apply (T1 KLeftAngle); unfold tok; cbn [off sub]; rewrite Hn; reflexivity
   | apply (T1 KPipe); unfold tok; cbn [off sub]; rewrite Hn; reflexivity
   | apply (T1 KAmpersand); unfold tok; cbn [off sub]; rewrite Hn; reflexivity
   | eapply (T KRightAngle);
     [unfold tok; cbn [off sub]; rewrite Hn; reflexivity|];
     instantiate (2 := KRightAngle); unfold tok; cbn [off sub]; rewrite Hn; reflexivity ].
Qed.

(** Where a symbol token stands in the text. *)
Lemma symbol_text X code ts k a b sp : xid_sane X -> tokenize X code = TokOk ts ->
  In (Tk k (a, b)) ts -> keyword_spelling k = None -> symbol_spelling k = Some sp ->
  exists pre rest, code = pre ++ str sp ++ rest /\ a = blen pre /\ b = a + blen (str sp).
Proof.
  intros XS T I K S. apply tokenize_iff in T; [|exact XS].
  assert (G : forall s off l, lexes X s off l -> In (Tk k (a, b)) l -> forall pre0, off = blen pre0 ->
    exists pre rest, pre0 ++ s = pre ++ str sp ++ rest /\ a = blen pre /\ b = a + blen (str sp)).
  { clear I T ts. intros s off l H. induction H as [off|s off t rest l NE T L IH]; intros I pre0 ->.
    - destruct I as [[= <- _ _]|[]]. discriminate.
    - destruct T as [k' w rest -> L'|n rest T].
      + destruct I as [[= -> <- <-]|I].
        * unfold lexical in L'. rewrite K, S in L'. destruct L' as (-> & _). eauto.
        * cbn [token_extent snd] in *. rewrite <- blen_app in IH.
          destruct (IH I (pre0 ++ w) eq_refl) as (pre & rest' & E & P). exists pre, rest'. now rewrite <- E, <- app_assoc.
      + destruct I as [I|I]; [discriminate|].
        destruct (number_token_inside _ _ _ _ _ T) as (w & -> & X1 & _). cbn [token_extent] in *. rewrite X1 in *. cbn [snd] in *.
        rewrite <- blen_app in IH.
        destruct (IH I (pre0 ++ w) eq_refl) as (pre & rest' & E & P). exists pre, rest'. now rewrite <- E, <- app_assoc. }
  exact (G _ _ _ T I [] eq_refl).
Qed.

Lemma pieces_text X code ts i k s e ps sp : xid_sane X -> tokenize X code = TokOk ts ->
  In (Tk k (s, e)) ts -> keyword_spelling k = None -> symbol_spelling k = Some sp ->
  nth_error (filter significant ts) i = Some (Tk k (s, e)) ->
  taken (filter significant ts) (mkPt i None) ps (mkPt (S i) None) ->
  contiguous s (map snd ps) e /\
  Forall (fun '(k', x) => exists sp', symbol_spelling k' = Some sp' /\ slice code x = Some (str sp')) ps.
Proof.
  intros XS T I K Sp N H. apply taken_ways with (1 := N) in H.
  destruct (symbol_text _ _ _ _ _ _ _ XS T I K Sp) as (pre & rest & -> & -> & ->).
  destruct H as [<-|H].
  - split; [cbn; auto|]. repeat constructor. exists sp. split; [auto|]. apply slice_app.
  - clear - H Sp. 
    assert (S1 : forall c w r, len_utf8 c = 1 -> slice (pre ++ (c :: w) ++ r) (blen pre, blen pre + 1) = Some [c]).
    { intros c w r L. pose proof (slice_app pre [c] (w ++ r)) as E. cbn [blen] in E. rewrite L in E. exact E. }
    assert (S2 : forall c w r, len_utf8 c = 1 ->
       slice (pre ++ (c :: w) ++ r) (blen pre + 1, blen pre + (1 + blen w)) = Some w).
    { intros c w r L. pose proof (slice_app (pre ++ [c]) w r) as E. rewrite blen_app in E. cbn [blen] in E.
      rewrite L, <- app_assoc in E. rewrite Nat.add_0_r, <- Nat.add_assoc in E. exact E. }
    destruct k; cbn [ways tl In] in H; try contradiction; cbn [symbol_spelling] in Sp; injection Sp as <-;
      repeat match goal with H : _ \/ _ |- _ => destruct H end; try contradiction; subst ps;
      (split; [cbn; auto|]); repeat apply Forall_cons; try apply Forall_nil;
      cbn [symbol_spelling]; eexists; (split; [reflexivity|]).
    all: try (apply (S1 62%N); reflexivity); try (apply (S1 60%N); reflexivity); try (apply (S1 124%N); reflexivity);
      try (apply (S1 38%N); reflexivity).
    all: try (apply (S2 62%N [62%N] rest); reflexivity); try (apply (S2 60%N [60%N] rest); reflexivity); try (apply (S2 124%N [124%N] rest); reflexivity);
      try (apply (S2 38%N [38%N] rest); reflexivity); try (apply (S2 62%N [61%N] rest); reflexivity);
      try (apply (S2 62%N [62%N; 61%N] rest); reflexivity).
    + pose proof (slice_app (pre ++ [62%N]) [62%N] (61%N :: rest)) as E. rewrite blen_app in E. 
      rewrite <- app_assoc in E. cbn [blen] in E. change (len_utf8 62%N) with 1 in E; change (len_utf8 61%N) with 1 in E; rewrite <- ?Nat.add_assoc in E; exact E.
    + pose proof (slice_app (pre ++ [62%N; 62%N]) [61%N] rest) as E. rewrite blen_app in E.
      rewrite <- app_assoc in E. cbn [blen] in E. change (len_utf8 62%N) with 1 in E; change (len_utf8 61%N) with 1 in E; rewrite <- ?Nat.add_assoc in E; exact E.
Qed.
