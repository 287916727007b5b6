(** Delimiters pair up in what the parser reads, and in what it leaves behind
    where it fails: induction on runs. *)

From Coq Require Import String List Arith Bool Lia.
From Verif Require Import Base Peresil Token Schema Value Nt Grammar Points Table Static Amb Typing Deriv Sem OutlineSpec UseSpec RustSpec NestedOk Inv DelimSpec.
Import ListNotations.
Local Open Scope string_scope.
Local Open Scope list_scope.
Local Open Scope nat_scope.

(** * Static check *)

Definition closer (k : tkind) : option tkind :=
  match k with KLeftParen => Some KRightParen | KLeftSquare => Some KRightSquare | KLeftCurly => Some KRightCurly | _ => None end.
Definition is_closer (k : tkind) : bool := match k with KRightParen | KRightSquare | KRightCurly => true | _ => false end.

(** The productions with a text that is only skipped. *)
Definition special (n : nt) : bool :=
  match n with N_attribute_literal | N_attribute_containing_literal | N_item_macro_call | N_expr_macro_call => true | _ => false end.

Definition right_curly (x : g) : bool := match x with GTok (MK KRightCurly) _ => true | _ => false end.
Definition curly_next (steps : list (pat * g)) : bool := match steps with (_, y) :: _ => right_curly y | [] => false end.

(** The open delimiters after a step. *)
Definition after (y : g) (st : list tkind) : option (list tkind) :=
  match y with
  | GTok (MK k) _ =>
      match closer k with
      | Some c => Some (c :: st)
      | None => if is_closer k then match st with c :: st' => if tkind_eqb c k then Some st' else None | [] => None end else Some st
      end
  | _ => Some st
  end.

(** Parsers that do not fail. *)
Definition never (x : g) : bool :=
  nofail x || match x with GSeq steps _ => forallb (fun s => nofail (snd s)) steps | _ => false end.

(** [PAll]: delimiters pair up in what was read; [FAll]: in what was read where
    the parser fails.  The weak forms say so unless the next token is not [}]. *)
Inductive mode : Type := PAll | PWeak | FAll | FWeak.

Section Walk.
  Variables gP gP2 gF : g -> bool.
  Definition passes (w : bool) (y : g) (rest : list (pat * g)) : bool :=
    match y with GTok _ _ => true | _ => gP y || (w && gP2 y && curly_next rest) end.
  Fixpoint walk (st : list tkind) (steps : list (pat * g)) : bool :=
    match steps with
    | [] => match st with [] => true | _ => false end
    | (_, y) :: rest => passes true y rest && match after y st with Some st' => walk st' rest | None => false end
    end.
  Fixpoint walkF (w : bool) (st : list tkind) (steps : list (pat * g)) : bool :=
    match steps with
    | [] => true
    | (_, y) :: rest =>
        (never y || match st with [] => gF y | _ => w && right_curly y end) &&
        (forallb (fun s => never (snd s)) rest ||
         passes w y rest && match after y st with Some st' => walkF w st' rest | None => false end)
    end.
End Walk.

Section Check.
  Variable nn : mode -> nt -> bool.

  Definition yard_nts : list nt := [N_expression_prefix_or_atom; N_expression_infix_or_postfix; N_operator_postfix_limited].

  Fixpoint pairs (m : mode) (x : g) {struct x} : bool :=
    match x with
    | GTok (MK k) _ =>
        match m with PAll | PWeak => match closer k with Some _ => false | None => negb (is_closer k) end | _ => true end
    | GTok MNumber _ | GPoint | GPeek _ => true
    | GNT n => nn m n
    | GSeq steps _ =>
        match m with
        | PAll => walk (pairs PAll) (pairs PWeak) [] steps
        | PWeak => walk (pairs PAll) (pairs PWeak) [] steps || match steps with [(_, y)] => pairs PWeak y | _ => false end
        | FAll => walkF (pairs PAll) (pairs PWeak) (pairs FAll) false [] steps
        | FWeak => walkF (pairs PAll) (pairs PWeak) (pairs FWeak) true [] steps
        end
    | GAlt gs =>
        match m with
        | PAll | PWeak => forallb (pairs m) gs
        | _ => (fix go (gs : list g) : bool := match gs with [] => true | y :: gs' => match gs' with [] => pairs m y | _ => go gs' end end) gs
        end
    | GOpt y | GMany y => match m with PAll | PWeak => pairs PAll y | _ => true end
    | GTailed _ s f =>
        match m with
        | PAll => pairs PAll s && pairs PAll f && pairs FAll s && pairs FAll f
        | PWeak => pairs PAll s && pairs PAll f && pairs FAll s && pairs FWeak f
        | _ => true
        end
    | GTailed1 s f =>
        match m with
        | PAll | PWeak => pairs PAll s && pairs PAll f && pairs FAll s && pairs FAll f
        | _ => pairs m f
        end
    | GImplicit s f | GResume s f =>
        match m with PAll | PWeak => pairs PAll s && pairs PAll f && pairs FAll s && pairs FAll f | _ => true end
    | GNested _ _ => match m with PAll | PWeak => false | _ => true end
    | GExt y | GMapErr y _ | GSimple y _ | GAmb _ y | GIfMax _ y => pairs m y
    | GIfAmb a b => pairs m a && pairs m b
    | GShunt _ => forallb (nn PAll) yard_nts && forallb (nn FAll) yard_nts
    end.
End Check.

Definition bits : Type := (list bool * list bool) * (list bool * list bool).
Definition read (l : bits) (m : mode) : nt -> bool :=
  lookup false (match m with PAll => fst (fst l) | PWeak => snd (fst l) | FAll => fst (snd l) | FWeak => snd (snd l) end).
Definition step (l : bits) : bits :=
  let one m := map (fun n => match m with PAll | PWeak => special n | _ => false end || read l m n && pairs (read l) m (table n)) all_nts in
  ((one PAll, one PWeak), (one FAll, one FWeak)).
Definition all_bits : bits := Eval vm_compute in
  Nat.iter 30 step (let t := map (fun _ => true) all_nts in ((t, t), (t, t))).
Definition nn : mode -> nt -> bool := read all_bits.


Lemma nn_ok m n : nn m n = true ->
  match m with PAll | PWeak => special n | _ => false end = true \/ pairs nn m (table n) = true.
Proof.
  assert (H : forall m, In m [PAll; PWeak; FAll; FWeak] -> forallb (fun n =>
    implb (nn m n) (match m with PAll | PWeak => special n | _ => false end || pairs nn m (table n))) all_nts = true).
  { apply forallb_forall with (f := fun m => forallb _ all_nts). vm_compute. reflexivity. }
  specialize (H m ltac:(destruct m; cbn; auto)). rewrite forallb_forall in H. specialize (H n (all_nts_complete n)).
  intros N. rewrite N in H. cbn [implb] in H. now apply orb_true_iff in H.
Qed.

(** * Paired tokens *)

Lemma paired_app a b : paired a -> paired b -> paired (a ++ b).
Proof.
  intros A B. induction A as [|t ts T A IH|o c t u a b0 I T U A1 IH1 A2 IH2|o c bang name t u a b0 I BN NM T U A1 A2 IH2|hash bang t u a b0 HS BN T U A1 A2 IH2].
  - exact B.
  - cbn [app]. now apply PR_other.
  - cbn [app]. rewrite <- app_assoc. cbn [app]. eapply PR_group; eauto.
  - cbn [app]. rewrite <- app_assoc. cbn [app]. rewrite <- app_assoc. cbn [app]. eapply PR_macro; eauto.
  - cbn [app]. rewrite <- app_assoc. cbn [app]. rewrite <- app_assoc. cbn [app]. eapply PR_attribute; eauto.
Qed.

Lemma closer_brackets o c : closer o = Some c -> In (o, c) brackets.
Proof. destruct o; cbn; intros H; try discriminate; injection H as <-; cbn; auto. Qed.

Lemma plain_kind k x : closer k = None -> is_closer k = false -> bracket (Tk k x) = false.
Proof. destruct k; cbn; try discriminate; reflexivity. Qed.

Lemma split_plain t n a b : split t n = Some (a, b) -> bracket t = false.
Proof. destruct t as [k [s e]|]; [|reflexivity]. destruct k; destruct n as [|[|n]]; cbn; try discriminate; reflexivity. Qed.

Section Slices.
  Variable toks : list token.

  Definition sl (i j : nat) : list token := firstn (j - i) (skipn i toks).

  Lemma sl_nil i : sl i i = [].
  Proof. unfold sl. now rewrite Nat.sub_diag. Qed.

  Lemma skipn_skipn' {A} (l : list A) : forall i j, skipn i (skipn j l) = skipn (j + i) l.
  Proof.
    intros i j. revert l. induction j as [|j IH]; intros l; [reflexivity|]. destruct l as [|x l]; [now rewrite !skipn_nil|]. cbn [skipn Nat.add]. apply IH.
  Qed.

  Lemma firstn_add {A} (l : list A) : forall n m, firstn (n + m) l = firstn n l ++ firstn m (skipn n l).
  Proof.
    intros n. revert l. induction n as [|n IH]; intros l m; [reflexivity|]. destruct l as [|x l]; cbn [firstn skipn Nat.add app]; [now rewrite firstn_nil|].
    now rewrite IH.
  Qed.

  Lemma sl_app i j k : i <= j -> j <= k -> sl i k = sl i j ++ sl j k.
  Proof.
    intros A B. unfold sl. replace (k - i) with ((j - i) + (k - j)) by lia. rewrite firstn_add. f_equal.
    rewrite skipn_skipn'. now replace (i + (j - i)) with j by lia.
  Qed.

  Lemma sl_one i t : nth_error toks i = Some t -> sl i (i + 1) = [t].
  Proof.
    unfold sl. replace (i + 1 - i) with 1 by lia. intros N.
    assert (X : exists l, skipn i toks = t :: l).
    { clear -N. revert i N. induction toks as [|u l IH]; intros [|i] N; try discriminate; cbn in *; [injection N as ->; eauto|now apply IH]. }
    destruct X as [l ->]. reflexivity.
  Qed.

  Definition reg (p q : point) : Prop := off p <= off q /\ paired (sl (off p) (off q)).
  Definition curly (q : point) : Prop := exists x, nth_error toks (off q) = Some (Tk KRightCurly x) /\ q = at_ (off q).
  Definition wreg (p q : point) : Prop := reg p q \/ ~ curly q.

  Lemma reg_refl p : reg p p.
  Proof. split; [lia|]. rewrite sl_nil. constructor. Qed.

  Lemma reg_trans p q r : reg p q -> reg q r -> reg p r.
  Proof. intros [A B] [C D]. split; [lia|]. rewrite (sl_app _ (off q)) by lia. now apply paired_app. Qed.

  Lemma wreg_trans p q r : reg p q -> wreg q r -> wreg p r.
  Proof. intros A [B|B]; [left; eapply reg_trans; eauto|now right]. Qed.

  (** [st]: the closing delimiters still to come. *)
  Fixpoint holds (st : list tkind) (i j : nat) : Prop :=
    match st with
    | [] => i <= j /\ paired (sl i j)
    | c :: st' => exists m o x, i <= m /\ m < j /\ nth_error toks m = Some (Tk o x) /\ closer o = Some c /\
        holds st' i m /\ paired (sl (m + 1) j)
    end.

  Lemma holds_ext st i j k : holds st i j -> j <= k -> paired (sl j k) -> holds st i k.
  Proof.
    destruct st as [|c st]; cbn [holds].
    - intros [A B] L P. split; [lia|]. rewrite (sl_app _ j) by lia. now apply paired_app.
    - intros (m & o & x & A & B & N & C & H & P) L P'. exists m, o, x. repeat split; auto; [lia|].
      rewrite (sl_app _ j) by lia. now apply paired_app.
  Qed.

  Lemma holds_open st i j o c x : holds st i j -> i <= j -> nth_error toks j = Some (Tk o x) -> closer o = Some c -> holds (c :: st) i (j + 1).
  Proof. intros H L N C. cbn [holds]. exists j, o, x. repeat split; auto; [lia|]. rewrite sl_nil. constructor. Qed.

  Lemma holds_close st i j c x : holds (c :: st) i j -> nth_error toks j = Some (Tk c x) -> holds st i (j + 1).
  Proof.
    cbn [holds]. intros (m & o & y & A & B & N & C & H & P) NJ. eapply holds_ext; [exact H|lia|].
    rewrite (sl_app _ (m + 1)) by lia. rewrite (sl_one _ _ N). rewrite (sl_app _ j) by lia. rewrite (sl_one _ _ NJ).
    cbn [app]. apply (PR_group o c _ _ _ _ (closer_brackets _ _ C)); [| |exact P|apply PR_nil]; cbn [token_is]; [now destruct o|now destruct c].
  Qed.

  Lemma holds_le st i j : holds st i j -> i <= j.
  Proof. destruct st; cbn [holds]; [tauto|]. intros (m & o & x & A & B & _). lia. Qed.

  (** ** Tokens *)

  Lemma tok_plain m err pm p pm' q v : tok toks m err pm p = (pm', Success q v) ->
    match m with MK k => closer k = None /\ is_closer k = false | MNumber => True end -> reg p q.
  Proof.
    unfold tok. destruct (nth_error toks (off p)) as [t|] eqn:N; [|discriminate]. intros T K.
    assert (Z : forall q', off q' = off p + 1 -> bracket t = false -> reg p q').
    { intros q' O B. split; [lia|]. rewrite O, (sl_one _ _ N). apply PR_other; [exact B|constructor]. }
    destruct (sub p) as [n|].
    - destruct (split t n) as [[a b]|] eqn:S; [|discriminate]. pose proof (split_plain _ _ _ _ S) as B.
      destruct (convert m b); [injection T as _ <- _; apply Z; [reflexivity|exact B]|].
      destruct (split t (sub_rank (Some n))) as [[a' b']|]; [|discriminate]. destruct (convert m a'); [|discriminate].
      injection T as _ <- _. split; [reflexivity|]. cbn [off]. rewrite sl_nil. constructor.
    - destruct (convert m t) as [w|] eqn:C.
      + injection T as _ <- _. apply Z; [reflexivity|]. destruct m as [k|], t as [k' x|]; try discriminate; [|reflexivity].
        cbn in C. destruct (tkind_eqb k k') eqn:E; [|discriminate]. apply tkind_eqb_eq in E. subst k'. now apply plain_kind.
      + destruct (split t (sub_rank None)) as [[a' b']|]; [|discriminate]. destruct (convert m a'); [|discriminate].
        injection T as _ <- _. split; [reflexivity|]. cbn [off]. rewrite sl_nil. constructor.
  Qed.

  Lemma tok_delim k err pm p pm' q v : bracket_kind k = true -> tok toks (MK k) err pm p = (pm', Success q v) ->
    p = at_ (off p) /\ off q = off p + 1 /\ exists x, nth_error toks (off p) = Some (Tk k x).
  Proof.
    intros K T. destruct (bracket_tok toks _ _ _ _ _ _ _ K T) as (A & -> & t & N & I). split; [exact A|]. split; [reflexivity|].
    destruct t as [k' x|]; [|discriminate]. cbn in I. apply tkind_eqb_eq in I. subst k'. eauto.
  Qed.

  Lemma tok_fail m err pm p pm' q er : tok toks m err pm p = (pm', Failure q er) -> q = p.
  Proof.
    unfold tok. intros T.
    repeat match type of T with
    | (match ?s with _ => _ end) = _ => destruct s; try discriminate
    end; injection T as _ <- _; reflexivity.
  Qed.

  Lemma curly_found err pm p pm' q v : tok toks (MK KRightCurly) err pm p = (pm', Success q v) -> curly p.
  Proof. intros T. destruct (tok_delim KRightCurly _ _ _ _ _ _ eq_refl T) as (A & _ & x & N). exists x. auto. Qed.

  Lemma curly_missed err pm p pm' q er : tok toks (MK KRightCurly) err pm p = (pm', Failure q er) -> q = p /\ ~ curly p.
  Proof.
    intros T. split; [eapply tok_fail; eauto|]. intros (x & N & A). unfold tok in T. rewrite N in T. rewrite A in T. cbn in T. discriminate.
  Qed.

  (** * Parsers *)

  Definition claim (m : mode) (p : point) (r : presult) : Prop :=
    match m, r with
    | PAll, Success q _ => reg p q
    | PWeak, Success q _ => wreg p q
    | FAll, Failure q _ => reg p q
    | FWeak, Failure q _ => wreg p q
    | _, _ => True
    end.

  Definition sat (m : mode) (f : gparser val) : Prop := forall pm p, claim m p (snd (f pm p)).

  Lemma sat_success f pm p pm' q v : sat PAll f -> f pm p = (pm', Success q v) -> reg p q.
  Proof. intros S E. specialize (S pm p). rewrite E in S. exact S. Qed.
  Lemma sat_failure f pm p pm' q er : sat FAll f -> f pm p = (pm', Failure q er) -> reg p q.
  Proof. intros S E. specialize (S pm p). rewrite E in S. exact S. Qed.

  Notation run := (run table toks).

  Section Seq.
    Variable n : nat.
    Hypothesis IH : forall x e m, pairs nn m x = true -> sat m (run n x e).
    Notation gP := (pairs nn PAll).
    Notation gP2 := (pairs nn PWeak).

    Definition J (w : bool) (st : list tkind) (i : nat) (p : point) (steps : list (pat * g)) : Prop :=
      holds st i (off p) \/ w = true /\ curly_next steps = true /\ ~ curly p.

    Lemma pass_ok w st st' i pt y rest e pm p pm1 q v : passes gP gP2 w y rest = true -> J w st i p ((pt, y) :: rest) ->
      run n y e pm p = (pm1, Success q v) -> after y st = Some st' -> J w st' i q rest.
    Proof.
      intros PS HJ R A.
      assert (NT : match y with GTok _ _ => False | _ => True end -> J w st' i q rest).
      { intros NT. assert (st' = st) as -> by (destruct y; try contradiction; cbn in A; congruence).
        destruct HJ as [H|(_ & C & _)]; [|destruct y; try contradiction; discriminate].
        assert (PS' : gP y || (w && gP2 y && curly_next rest) = true) by (destruct y; try contradiction; exact PS).
        apply orb_true_iff in PS' as [G|G].
        - left. pose proof (IH y e PAll G pm p) as RG. rewrite R in RG. destruct RG as [L P]. eapply holds_ext; eauto.
        - apply andb_true_iff in G as [G CN]. apply andb_true_iff in G as [W G].
          pose proof (IH y e PWeak G pm p) as RG. rewrite R in RG. destruct RG as [[L P]|NC]; [left; eapply holds_ext; eauto|].
          right. auto. }
      destruct y as [m err| | | | | | | | | | | | | | | | | | |]; try (apply NT; exact I). clear NT.
      apply tok_run in R. destruct HJ as [H|(_ & C & NC)].
      2: { exfalso. apply NC. destruct m as [k|]; [|discriminate]. destruct k; try discriminate. eapply curly_found; eauto. }
      left. pose proof (holds_le _ _ _ H) as LE. destruct m as [k|].
      - cbn [after] in A. destruct (closer k) as [c|] eqn:CK.
        + injection A as <-. assert (BK : bracket_kind k = true) by (clear -CK; destruct k; try discriminate; reflexivity).
          destruct (tok_delim _ _ _ _ _ _ _ BK R) as (_ & -> & x & N). eapply holds_open; eauto.
        + destruct (is_closer k) eqn:IC.
          * destruct st as [|c st0]; [discriminate|]. destruct (tkind_eqb c k) eqn:E; [|discriminate]. injection A as <-.
            apply Token.tkind_eqb_eq in E. subst c.
            assert (BK : bracket_kind k = true) by (clear -IC; destruct k; try discriminate; reflexivity).
            destruct (tok_delim _ _ _ _ _ _ _ BK R) as (_ & -> & x & N). eapply holds_close; eauto.
          * injection A as <-. destruct (tok_plain _ _ _ _ _ _ _ R (conj CK IC)) as [L P]. eapply holds_ext; eauto.
      - injection A as <-. destruct (tok_plain _ _ _ _ _ _ _ R I) as [L P]. eapply holds_ext; eauto.
    Qed.

    Lemma seq_ok b : forall steps st e pm p pm' q v i, walk gP gP2 st steps = true -> J true st i p steps ->
      run_steps toks (run n) steps b e pm p = (pm', Success q v) -> i <= off q /\ paired (sl i (off q)).
    Proof.
      induction steps as [|[pt y] steps IHs]; intros st e pm p pm' q v i W HJ R.
      - cbn [run_steps] in R. destruct (beval toks p e b); [|discriminate]. injection R as _ <- _.
        cbn [walk] in W. destruct st; [|discriminate]. destruct HJ as [H|(_ & C & _)]; [exact H|discriminate].
      - cbn [walk] in W. apply andb_true_iff in W as [PS W]. destruct (after y st) as [st'|] eqn:A; [|discriminate].
        apply steps_inv in R as (pm1 & q1 & v1 & e1 & R1 & _ & R). eapply IHs; [exact W| |exact R].
        eapply pass_ok; eauto.
    Qed.

    Lemma never_run x e pm p pm' q er : never x = true -> run n x e pm p = (pm', Failure q er) -> False.
    Proof.
      intros N R. unfold never in N. apply orb_true_iff in N as [N|N]; [eapply nofail_run; eauto|].
      destruct x as [| | |steps b| | | | | | | | | | | | | | | |]; try discriminate. destruct n as [|k]; [discriminate|].
      cbn [Grammar.run] in R. eapply nofail_steps; eauto.
    Qed.

    Lemma never_steps b : forall steps e pm p pm' q er, forallb (fun s => never (snd s)) steps = true ->
      run_steps toks (run n) steps b e pm p = (pm', Failure q er) -> False.
    Proof.
      induction steps as [|[pt y] steps IHs]; intros e pm p pm' q er N R; cbn [run_steps] in R.
      - destruct (beval toks p e b); discriminate.
      - cbn [forallb snd] in N. apply andb_true_iff in N as [N1 N2].
        destruct (run n y e pm p) as [pm1 [q1 v1|q1 er1|w1]] eqn:R1; [|eapply never_run; eauto|discriminate].
        destruct (bind_pat pt v1 e) as [e1|]; [|discriminate]. eapply IHs; eauto.
    Qed.

    Definition weak (m : mode) : bool := match m with FWeak => true | _ => false end.

    Lemma seq_fail b m : m = FAll \/ m = FWeak -> forall steps st e pm p pm' q er p0,
      walkF gP gP2 (pairs nn m) (weak m) st steps = true -> J (weak m) st (off p0) p steps ->
      run_steps toks (run n) steps b e pm p = (pm', Failure q er) -> claim m p0 (Failure q er).
    Proof.
      intros M. induction steps as [|[pt y] steps IHs]; intros st e pm p pm' q er p0 W HJ R; cbn [run_steps] in R.
      - destruct (beval toks p e b); discriminate.
      - cbn [walkF] in W. apply andb_true_iff in W as [W1 W2].
        destruct (run n y e pm p) as [pm1 [q1 v1|q1 er1|w1]] eqn:R1; [| |discriminate].
        + destruct (bind_pat pt v1 e) as [e1|]; [|discriminate].
          apply orb_true_iff in W2 as [W2|W2]; [exfalso; eapply never_steps; eauto|].
          apply andb_true_iff in W2 as [PS W2]. destruct (after y st) as [st'|] eqn:A; [|discriminate].
          eapply IHs; [exact W2| |exact R]. eapply pass_ok; eauto.
        + injection R as _ <- _. apply orb_true_iff in W1 as [W1|W1]; [exfalso; eapply never_run; eauto|].
          assert (RC : right_curly y = true -> m = FWeak -> claim m p0 (Failure q1 er)).
          { intros RC ->. destruct y as [mm err| | | | | | | | | | | | | | | | | | |]; try discriminate.
            destruct mm as [k|]; [|discriminate]. destruct k; try discriminate.
            destruct n as [|k]; [discriminate|]. cbn [Grammar.run] in R1. apply curly_missed in R1 as [-> NC]. right. exact NC. }
          destruct HJ as [H|(WM & C & NC)].
          * destruct st as [|c st].
            -- pose proof (IH y e m W1 pm p) as C. rewrite R1 in C. destruct M as [-> | ->]; cbn [snd claim] in C |- *.
               ++ eapply reg_trans; [exact H|exact C].
               ++ eapply wreg_trans; [exact H|exact C].
            -- apply andb_true_iff in W1 as [WM RY]. apply RC; [exact RY|]. destruct m; try discriminate; reflexivity.
          * apply RC; [exact C|]. destruct m; try discriminate; reflexivity.
    Qed.
  End Seq.

  (** ** Lists *)

  Lemma list_ok sep f m : sat PAll sep -> sat FAll sep -> sat PAll f ->
    (m = PAll /\ sat FAll f \/ m = PWeak /\ sat FWeak f) -> forall k l c b, sat m (tailed_loop k sep f l c b).
  Proof.
    intros SP SF FP FF k. induction k as [|k IH]; intros l c b pm p; cbn [tailed_loop]; [destruct FF as [[-> _]|[-> _]]; exact I|].
    destruct (f pm p) as [pm1 [q v|q er|w]] eqn:F.
    - pose proof (sat_success _ _ _ _ _ _ FP F) as R1. destruct (sep pm1 q) as [pm2 [q2 v2|q2 er2|w]] eqn:S.
      + pose proof (sat_success _ _ _ _ _ _ SP S) as R2. specialize (IH (l ++ [v]) (Datatypes.S c) true pm2 q2).
        destruct (tailed_loop k sep f (l ++ [v]) (Datatypes.S c) true pm2 q2) as [pm3 [q3 v3|q3 er3|w]];
          destruct FF as [[-> _]|[-> _]]; cbn [snd claim] in *; try exact I.
        * eapply reg_trans; [exact R1|]. eapply reg_trans; eauto.
        * eapply wreg_trans; [exact R1|]. eapply wreg_trans; eauto.
      + pose proof (sat_failure _ _ _ _ _ _ SF S) as R2. pose proof (reg_trans _ _ _ R1 R2) as R.
        destruct FF as [[-> _]|[-> _]]; cbn [snd claim]; [exact R|left; exact R].
      + destruct FF as [[-> _]|[-> _]]; exact I.
    - destruct FF as [[-> FF]|[-> FF]]; specialize (FF pm p); rewrite F in FF; exact FF.
    - destruct FF as [[-> _]|[-> _]]; exact I.
  Qed.

  Lemma list1_ok sep f k : sat PAll sep -> sat FAll sep -> sat PAll f -> sat FAll f -> sat PAll (tailed1 k sep f).
  Proof.
    intros SP SF FP FF pm p. unfold tailed1. destruct (f pm p) as [pm1 [q v|q er|w]] eqn:F; [|exact I..].
    pose proof (sat_success _ _ _ _ _ _ FP F) as R1. destruct (sep pm1 q) as [pm2 [q2 v2|q2 er2|w]] eqn:S; [| |exact I].
    - pose proof (sat_success _ _ _ _ _ _ SP S) as R2.
      pose proof (list_ok sep f PAll SP SF FP (or_introl (conj eq_refl FF)) k [v] 1 false pm2 q2) as H.
      destruct (tailed_loop k sep f [v] 1 false pm2 q2) as [pm3 [q3 v3|q3 er3|w]]; try exact I.
      cbn [snd claim] in *. eapply reg_trans; [exact R1|]. eapply reg_trans; eauto.
    - pose proof (sat_failure _ _ _ _ _ _ SF S) as R2. exact (reg_trans _ _ _ R1 R2).
  Qed.

  Lemma list1_fail sep f k m : m = FAll \/ m = FWeak -> sat m f -> sat m (tailed1 k sep f).
  Proof.
    intros M F pm p. specialize (F pm p). unfold tailed1. destruct (f pm p) as [pm1 [q v|q er|w]]; [|exact F|exact F].
    destruct (sep pm1 q) as [pm2 [q2 v2|q2 er2|w]]; try (destruct M as [-> | ->]; exact I).
    destruct (tailed_loop k sep f [v] 1 false pm2 q2) as [pm3 [q3 v3|q3 er3|w]] eqn:T; try (destruct M as [-> | ->]; exact I).
    exfalso. revert T. generalize [v], 1, false, pm2, q2. clear. induction k as [|k IH]; intros l c b pm p T; cbn [tailed_loop] in T; [discriminate|].
    destruct (f pm p) as [pm1 [q v|q er|w]]; try discriminate. destruct (sep pm1 q) as [pm2 [q2 v2|q2 er2|w]]; try discriminate. eauto.
  Qed.

  Lemma resume_ok sep f k : sat PAll sep -> sat FAll sep -> sat PAll f -> sat FAll f -> sat PAll (resume k sep f).
  Proof.
    intros SP SF FP FF pm p. unfold resume. destruct (sep pm p) as [pm1 [q v|q er|w]] eqn:S; [| |exact I].
    - pose proof (sat_success _ _ _ _ _ _ SP S) as R1. pose proof (list1_ok sep f k SP SF FP FF pm1 q) as H.
      destruct (tailed1 k sep f pm1 q) as [pm2 [q2 v2|q2 er2|w]]; [|apply reg_refl|exact I].
      cbn [snd claim] in H. destruct v2; try exact I. cbn [snd claim]. eapply reg_trans; eauto.
    - exact (sat_failure _ _ _ _ _ _ SF S).
  Qed.

  Lemma implicit_ok sep f : sat PAll sep -> sat FAll sep -> sat PAll f -> sat FAll f ->
    forall k l c b, sat PAll (implicit_loop k sep f l c b).
  Proof.
    intros SP SF FP FF k. induction k as [|k IH]; intros l c b pm p; cbn [implicit_loop]; [exact I|].
    destruct (f pm p) as [pm1 [q v|q er|w]] eqn:F; [|exact (sat_failure _ _ _ _ _ _ FF F)|exact I].
    pose proof (sat_success _ _ _ _ _ _ FP F) as R1.
    assert (Z : forall c b pm2 q2, reg q q2 -> claim PAll p (snd (implicit_loop k sep f (l ++ [v]) c b pm2 q2))).
    { intros c' b' pm2 q2 R2. specialize (IH (l ++ [v]) c' b' pm2 q2).
      destruct (implicit_loop k sep f (l ++ [v]) c' b' pm2 q2) as [pm3 [q3 v3|q3 er3|w]]; try exact I.
      cbn [snd claim] in *. eapply reg_trans; [exact R1|]. eapply reg_trans; eauto. }
    destruct (sep pm1 q) as [pm2 [q2 v2|q2 er2|w]] eqn:S; [| |exact I].
    - apply Z. exact (sat_success _ _ _ _ _ _ SP S).
    - pose proof (sat_failure _ _ _ _ _ _ SF S) as R2. destruct (is_implicit_separator v); [now apply Z|]. exact (reg_trans _ _ _ R1 R2).
  Qed.

  Lemma many_ok f k : sat PAll f -> forall pm p pm' q l, zero_or_more pt_lt recov k f pm p = (pm', Success q l) -> reg p q.
  Proof.
    intros F. induction k as [|k IH]; intros pm p pm' q l R; cbn [zero_or_more] in R; [discriminate|].
    destruct (f pm p) as [pm1 [q1 v1|q1 er1|w]] eqn:E; [| |discriminate].
    - pose proof (sat_success _ _ _ _ _ _ F E) as R1. destruct (zero_or_more pt_lt recov k f pm1 q1) as [pm2 [q2 l2|q2 er2|w]] eqn:E2; try discriminate.
      injection R as _ <- _. eapply reg_trans; eauto.
    - injection R as _ <- _. apply reg_refl.
  Qed.

  Lemma last_fails k e p : forall gs y cur pm pm' q er,
    alternate_from pt_lt recov cur (map (fun x => run k x e) (gs ++ [y])) pm p = (pm', Failure q er) ->
    exists pm1 pm2, run k y e pm1 p = (pm2, Failure q er).
  Proof.
    induction gs as [|z gs IH]; intros y cur pm pm' q er R; cbn [map app alternate_from] in R;
      (destruct cur as [q0 v0|q0 e0|w0]; cbn [recov] in R; try discriminate).
    - destruct (run k y e pm p) as [pm1 r] eqn:E. injection R as _ ->. eauto.
    - destruct (run k z e pm p) as [pm1 r] eqn:E. eapply IH; eauto.
  Qed.

  (** ** The shunting yard *)
  Section Yard.
    Variable G : point -> Prop.
    Definition cg {A} (c : car A) : Prop := G (c_spt c) /\ G (c_ept c).
    Definition yg (y : yard) : Prop := Forall cg (y_ops y) /\ Forall cg (y_res y).
    Definition ag_ {A} (Q : A -> Prop) (r : ares A) : Prop :=
      match r with AOk a => Q a | AErr p _ => G p | AAbort _ => True end.

    Lemma g_prefix res s e x attrs f : Forall cg res -> G s -> ag_ (Forall cg) (apply_prefix toks res s e x attrs f).
    Proof.
      intros R S. unfold apply_prefix, pop_expression. destruct res as [|c res]; [exact S|]. cbn [abind].
      inversion R as [|? ? Rc R']; subst. destruct Rc. destruct (pt_lt (c_ept c) s); [exact S|].
      destruct (ex toks s (c_ept c)); [|exact I]. cbn [a_of_b abind ag_]. constructor; [split; auto|auto].
    Qed.

    Lemma g_maybe_prefix res s e x attrs f : Forall cg res -> G s -> G e -> ag_ (Forall cg) (apply_maybe_prefix toks res s e x attrs f).
    Proof.
      intros R S E. unfold apply_maybe_prefix. destruct res as [|c res]; [|now apply g_prefix].
      destruct (ex toks s e); [|exact I]. cbn [a_of_b abind ag_]. constructor; [split; auto|constructor].
    Qed.

    Lemma g_infix res s e f : Forall cg res -> G s -> G e -> ag_ (Forall cg) (apply_infix toks res s e f).
    Proof.
      intros R S E. unfold apply_infix, pop_expression. destruct res as [|r [|l res]]; [exact E|exact S|]. cbn [abind].
      inversion R as [|? ? Rr R']; subst. inversion R' as [|? ? Rl R'']; subst. destruct Rr, Rl.
      destruct (ex toks (c_spt l) (c_ept r)); [|exact I]. cbn [a_of_b abind ag_]. constructor; [split; auto|auto].
    Qed.

    Lemma g_maybe_infix res s e f : Forall cg res -> G s -> G e -> ag_ (Forall cg) (apply_maybe_infix toks res s e f).
    Proof.
      intros R S E. unfold apply_maybe_infix. destruct (length res <=? 1); [|now apply g_infix].
      unfold pop_expression. destruct res as [|l res]; [exact E|]. cbn [abind]. inversion R as [|? ? Rr R']; subst. destruct Rr.
      destruct (ex toks (c_spt l) e); [|exact I]. cbn [a_of_b abind ag_]. constructor; [split; auto|auto].
    Qed.

    Lemma g_postfix res s e f : Forall cg res -> G s -> G e -> ag_ (Forall cg) (apply_postfix toks res s e f).
    Proof.
      intros R S E. unfold apply_postfix, pop_expression. destruct res as [|c res]; [exact S|]. cbn [abind].
      inversion R as [|? ? Rc R']; subst. destruct Rc. destruct (ex toks (c_spt c) e); [|exact I].
      cbn [a_of_b abind ag_]. constructor; [split; auto|auto].
    Qed.

    Lemma g_one res op s e : Forall cg res -> G s -> G e -> ag_ (Forall cg) (apply_one toks res op s e).
    Proof.
      intros R S E. destruct op as [v|v|v]; cbn [apply_one].
      - destruct v as [| | | | | | | | | |k fs|]; try exact I.
        destruct fs as [|x [|attrs [|op [|ws [|? ?]]]]]; try exact I; destruct x; try exact I; destruct op; try exact I.
        repeat match goal with |- context [if ?b then _ else _] => destruct b end; first [now apply g_prefix|now apply g_maybe_prefix].
      - destruct v; try exact I.
        repeat match goal with |- context [if ?b then _ else _] => destruct b end; first [now apply g_infix|now apply g_maybe_infix].
      - destruct v; try exact I.
        repeat match goal with |- context [if ?b then _ else _] => destruct b end; now apply g_postfix.
    Qed.

    Lemma g_precedence o : forall ops res, Forall cg ops -> Forall cg res -> ag_ yg (apply_precedence toks ops res o).
    Proof.
      induction ops as [|top ops IH]; intros res O R; cbn [apply_precedence]; [split; auto|].
      inversion O as [|? ? O1 O2]; subst. destruct (should_pop o (c_val top)); [|split; auto].
      destruct O1 as [B C]. pose proof (g_one res (c_val top) _ _ R B C) as H.
      destruct (apply_one toks res (c_val top) (c_spt top) (c_ept top)) as [res'| |]; cbn [abind ag_] in *; auto.
    Qed.

    Lemma g_all : forall ops res, Forall cg ops -> Forall cg res -> ag_ (Forall cg) (apply_all toks ops res).
    Proof.
      induction ops as [|top ops IH]; intros res O R; cbn [apply_all]; [exact R|].
      inversion O as [|? ? O1 O2]; subst. destruct O1 as [B C]. pose proof (g_one res (c_val top) _ _ R B C) as H.
      destruct (apply_one toks res (c_val top) (c_spt top) (c_ept top)) as [res'| |]; cbn [abind ag_] in *; auto.
    Qed.

    Lemma g_finish y p : yg y -> G p -> ag_ cg (finish_yard toks y p).
    Proof.
      intros [O R] P. unfold finish_yard. pose proof (g_all _ _ O R) as H.
      destruct (apply_all toks (y_ops y) (y_res y)) as [res| |]; cbn [abind ag_] in *; auto.
      destruct res as [|x [|]]; auto; [|exact I]. now inversion H.
    Qed.

    Lemma g_add y o s e : yg y -> G s -> G e -> ag_ yg (add_op toks y o s e).
    Proof.
      intros [O R] S E. unfold add_op. pose proof (g_precedence o _ _ O R) as H.
      destruct (apply_precedence toks (y_ops y) (y_res y) o) as [y1| |]; cbn [abind ag_] in *; auto.
      destruct H. split; [constructor; [split; auto|auto]|auto].
    Qed.

    Definition good (r : presult) : Prop := match r with Success q _ | Failure q _ => G q | Abort _ => True end.
  End Yard.

  Section Shunt.
    Variable p0 : point.
    Notation G := (reg p0).
    Notation yg := (yg G).
    Notation good := (good G).

    Lemma g_shunt pa ip pl stmt : sat PAll pa -> sat FAll pa -> sat PAll ip -> sat FAll ip -> sat PAll pl -> sat FAll pl ->
      forall k y s pm p, yg y -> G p -> good (snd (shunt_loop toks k pa ip pl stmt y s pm p)).
    Proof.
      intros PA1 PA2 IP1 IP2 PL1 PL2 k. induction k as [|k IH]; intros y s pm p Y OK; cbn [shunt_loop]; [exact I|].
      assert (ADD : forall (pm : pm_t) o next pt, reg p pt ->
        good (snd (match add_op toks y o p pt with
        | AOk y' => shunt_loop toks k pa ip pl stmt y' (adapt_state stmt y' next) pm pt
        | AErr p e => (pm, Failure p e)
        | AAbort w => (pm, Abort w)
        end))).
      { intros pm0 o next pt R. pose proof (reg_trans _ _ _ OK R) as Gp. pose proof (g_add G y o p pt Y OK Gp) as A.
        destruct (add_op toks y o p pt) as [y'| |]; cbn [ag_] in A; auto. }
      assert (FIN : forall (pm : pm_t) q, reg p q -> good (snd (finish_progress pm (finish_yard toks y q)))).
      { intros pm0 q R. pose proof (reg_trans _ _ _ OK R) as Gp. pose proof (g_finish G y q Y Gp) as A.
        destruct (finish_yard toks y q) as [c| |]; cbn [ag_ finish_progress] in *; auto. destruct A; auto. }
      assert (PRE : forall f : gparser val, sat PAll f -> sat FAll f ->
        good (snd (match f pm p with
        | (pm1, Success p0 (VVar _ "Prefix" op)) =>
            match add_op toks y (OpPrefix op) p p0 with
            | AOk y' => shunt_loop toks k pa ip pl stmt y' (adapt_state stmt y' SPrefix) pm1 p0
            | AErr p e => (pm1, Failure p e)
            | AAbort w => (pm1, Abort w)
            end
        | (pm1, Success p0 (VVar _ "Atom" v)) =>
            shunt_loop toks k pa ip pl stmt (add_expression y v p p0)
              (adapt_state stmt (add_expression y v p p0) SAtom) pm1 p0
        | (pm1, Success _ _) => (pm1, Abort IllTyped)
        | (pm1, Failure p _) => finish_progress pm1 (finish_yard toks y p)
        | (pm1, Abort w) => (pm1, Abort w)
        end))).
      { intros f F1 F2. destruct (f pm p) as [pm1 [r u|r er|w]] eqn:E; [|exact (FIN pm1 r (sat_failure _ _ _ _ _ _ F2 E))|exact I].
        pose proof (sat_success _ _ _ _ _ _ F1 E) as R. destruct u as [| | | | | | | | | | |en vn pv]; try exact I.
        repeat match goal with |- context [match ?s with _ => _ end] => is_var s; destruct s; try exact I end.
        - pose proof (reg_trans _ _ _ OK R) as Gp. apply IH; [|exact Gp]. destruct Y. split; [auto|]. constructor; [split; auto|auto].
        - apply ADD. exact R. }
      assert (INF : good (snd (match ip pm p with
        | (pm1, Success p0 (VVar _ "Infix" op)) =>
            match add_op toks y (OpInfix op) p p0 with
            | AOk y' => shunt_loop toks k pa ip pl stmt y' (adapt_state stmt y' (SInfix (is_range op))) pm1 p0
            | AErr p e => (pm1, Failure p e)
            | AAbort w => (pm1, Abort w)
            end
        | (pm1, Success p0 (VVar _ "Postfix" op)) =>
            match add_op toks y (OpPostfix op) p p0 with
            | AOk y' => shunt_loop toks k pa ip pl stmt y' (adapt_state stmt y' SPostfix) pm1 p0
            | AErr p e => (pm1, Failure p e)
            | AAbort w => (pm1, Abort w)
            end
        | (pm1, Success _ _) => (pm1, Abort IllTyped)
        | (pm1, Failure p _) => finish_progress pm1 (finish_yard toks y p)
        | (pm1, Abort w) => (pm1, Abort w)
        end))).
      { destruct (ip pm p) as [pm1 [r u|r er|w]] eqn:E; [|exact (FIN pm1 r (sat_failure _ _ _ _ _ _ IP2 E))|exact I].
        pose proof (sat_success _ _ _ _ _ _ IP1 E) as R. destruct u as [| | | | | | | | | | |en vn pv]; try exact I.
        repeat match goal with |- context [match ?s with _ => _ end] => is_var s; destruct s; try exact I end; (apply ADD; exact R). }
      destruct s as [|b| | |].
      - apply (PRE pa PA1 PA2).
      - destruct (is_ambiguous (m_state pm) && b); [|apply (PRE pa PA1 PA2)].
        apply (PRE (with_amb Maximum pa)).
        + intros pm1 q. unfold with_amb. pose proof (PA1 (set_amb pm1 Maximum) q) as H. destruct (pa (set_amb pm1 Maximum) q). exact H.
        + intros pm1 q. unfold with_amb. pose proof (PA2 (set_amb pm1 Maximum) q) as H. destruct (pa (set_amb pm1 Maximum) q). exact H.
      - exact INF.
      - exact INF.
      - destruct (pl pm p) as [pm1 [r u|r er|w]] eqn:E; [|exact (FIN pm1 r (sat_failure _ _ _ _ _ _ PL2 E))|exact I].
        apply ADD. exact (sat_success _ _ _ _ _ _ PL1 E).
    Qed.
  End Shunt.

  (** ** Skipped texts *)

  Lemma group_read o c e1 e2 pm p pm1 q1 v1 pm2 q2 v2 pm3 q3 v3 : bracket_kind o = true -> bracket_kind c = true ->
    tok toks (MK o) e1 pm p = (pm1, Success q1 v1) -> nested toks o c pm1 q1 = (pm2, Success q2 v2) ->
    tok toks (MK c) e2 pm2 q2 = (pm3, Success q3 v3) ->
    exists t a u, off p <= off q3 /\ sl (off p) (off q3) = t :: a ++ [u] /\ token_is o t = true /\ token_is c u = true /\ balanced o c a.
  Proof.
    intros KO KC T1 NS T2. destruct (tok_delim _ _ _ _ _ _ _ KO T1) as (_ & O1 & x & N1).
    destruct (tok_delim _ _ _ _ _ _ _ KC T2) as (_ & O3 & y & N2).
    unfold nested in NS. set (len := nested_skip o c 0 (skipn (off q1) toks)) in *.
    destruct (ex toks q1 (mkPt (off q1 + len) None)); [|discriminate]. injection NS as _ <- _. cbn [off] in *.
    assert (NK : nth_error (skipn (off q1) toks) len = Some (Tk c y)).
    { rewrite <- N2. generalize (off q1) len. clear. intros i len. revert i len. induction toks as [|w l IH]; intros i len.
      - destruct i; cbn; destruct len; reflexivity.
      - destruct i; [reflexivity|]. cbn [skipn Nat.add nth_error]. apply IH. }
    assert (EU : is_kind KEndOfFile (Tk c y) = false) by (clear -KC; now destruct c).
    destruct (skip_closes o c _ 0 _ NK EU) as [_ CL]. fold len in CL. cbn [closes] in CL.
    exists (Tk o x), (firstn len (skipn (off q1) toks)), (Tk c y). split; [lia|]. split.
    - rewrite (sl_app _ (off p + 1)) by lia. rewrite (sl_one _ _ N1). rewrite (sl_app _ (off q1 + len)) by lia. rewrite O3, (sl_one _ _ N2).
      cbn [app]. do 2 f_equal. unfold sl. rewrite O1. f_equal. lia.
    - cbn [token_is]. split; [now destruct o|]. split; [now destruct c|exact CL].
  Qed.

  Ltac one R := let pm := fresh "pm" in let q := fresh "q" in let v := fresh "v" in let e := fresh "e" in let R1 := fresh "R" in
    apply steps_inv in R as (pm & q & v & e & R1 & _ & R).

  Lemma steps_nil rn b e pm p pm' q v : run_steps toks rn [] b e pm p = (pm', Success q v) -> q = p.
  Proof. cbn [run_steps]. destruct (beval toks p e b); [|discriminate]. intros H. now injection H as _ <- _. Qed.

  Lemma attribute_pairs k e pm p pm' q v : run k (GNT N_attribute_literal) e pm p = (pm', Success q v) -> reg p q.
  Proof.
    intros R. apply nt_inv in R as (k1 & -> & R). cbn [table] in R. apply seq_inv in R as (k2 & -> & R).
    one R. apply point_inv in R0 as (-> & -> & _).
    one R. apply tok_run, tok_solid in R0 as (i & x & -> & N & -> & _); [|reflexivity].
    one R. one R. one R. apply steps_nil in R as ->. apply tok_run in R0. apply tok_run in R2.
    destruct k2 as [|k2]; [discriminate|]. cbn [Grammar.run] in R1.
    destruct (group_read KLeftSquare KRightSquare _ _ _ _ _ _ _ _ _ _ _ _ _ eq_refl eq_refl R0 R1 R2) as (t & a & u & L & SL & T & U & B).
    cbn [at_ off] in *. split; [cbn [at_ off]; lia|]. rewrite (sl_app _ (i + 1)) by (cbn [at_ off]; lia). cbn [at_ off]. rewrite (sl_one _ _ N), SL. cbn [app].
    apply (PR_attribute (Tk KHash x) [] t u a []); auto. constructor.
  Qed.

  Lemma attribute_containing_pairs k e pm p pm' q v : run k (GNT N_attribute_containing_literal) e pm p = (pm', Success q v) -> reg p q.
  Proof.
    intros R. apply nt_inv in R as (k1 & -> & R). cbn [table] in R. apply seq_inv in R as (k2 & -> & R).
    one R. apply point_inv in R0 as (-> & -> & _).
    one R. apply tok_run, tok_solid in R0 as (i & x & -> & N & -> & _); [|reflexivity].
    one R. apply tok_run, tok_solid in R0 as (j & y & EQ & N' & -> & _); [|reflexivity]. injection EQ as <-.
    one R. one R. one R. apply steps_nil in R as ->. apply tok_run in R0. apply tok_run in R2.
    destruct k2 as [|k2]; [discriminate|]. cbn [Grammar.run] in R1.
    destruct (group_read KLeftSquare KRightSquare _ _ _ _ _ _ _ _ _ _ _ _ _ eq_refl eq_refl R0 R1 R2) as (t & a & u & L & SL & T & U & B).
    cbn [at_ off] in *. split; [cbn [at_ off]; lia|]. cbn [at_ off]. rewrite (sl_app _ (i + 1)) by lia. rewrite (sl_one _ _ N).
    rewrite (sl_app _ (i + 1 + 1)) by lia. rewrite (sl_one _ _ N'), SL. cbn [app].
    apply (PR_attribute (Tk KHash x) [Tk KBang y] t u a []); auto; [|constructor]. right. eexists. split; reflexivity.
  Qed.

  Lemma ident_token k e pm i pm' q v : run k (GNT N_ident) e pm (at_ i) = (pm', Success q v) ->
    q = at_ (i + 1) /\ exists w, nth_error toks i = Some w /\ bracket w = false.
  Proof.
    intros R. apply nt_inv in R as (k1 & -> & R). cbn [table] in R. destruct k1 as [|k1]; [discriminate|]. cbn [Grammar.run] in R.
    match type of R with (match ?r with _ => _ end) = _ => destruct r as [pm1 [q1 v1|q1 er1|w1]] eqn:R1 end; try discriminate.
    injection R as _ -> _. apply seq_inv in R1 as (k2 & -> & R1). one R1. apply steps_nil in R1 as ->.
    destruct k2 as [|k2]; [discriminate|]. apply alt_inv in R as (j & x & pma & pmb & N & _ & R & _).
    assert (Z : forall kd er, x = GTok (MK kd) er -> existsb (tkind_eqb kd) pieces = false -> closer kd = None -> is_closer kd = false ->
      q0 = at_ (i + 1) /\ exists w, nth_error toks i = Some w /\ bracket w = false).
    { intros kd er -> P C1 C2. apply tok_run, tok_solid in R as (i' & y & EQ & N' & -> & _); [|exact P]. injection EQ as <-.
      split; [reflexivity|]. exists (Tk kd y). split; [exact N'|]. now apply plain_kind. }
    destruct j as [|[|[|[|[|j]]]]]; cbn in N; try (injection N as <-; eapply Z; reflexivity). destruct j; discriminate.
  Qed.

  Definition group (p q : point) : Prop := exists o c t a u b, off p <= off q /\ sl (off p) (off q) = t :: a ++ u :: b /\
    In (o, c) brackets /\ token_is o t = true /\ token_is c u = true /\ balanced o c a /\ paired b.

  Lemma arguments_group n o c k e pm p pm' q v : reads_arguments n o c -> In (o, c) brackets ->
    run k (GNT n) e pm p = (pm', Success q v) -> group p q.
  Proof.
    intros (KO & KC & e1 & e2 & steps & TB & ST) IN R. apply nt_inv in R as (k1 & -> & R). rewrite TB in R. apply seq_inv in R as (k2 & -> & R).
    one R. one R. one R. apply tok_run in R0. apply tok_run in R2. destruct k2 as [|k2]; [discriminate|]. cbn [Grammar.run] in R1.
    destruct (group_read o c _ _ _ _ _ _ _ _ _ _ _ _ _ KO KC R0 R1 R2) as (t & a & u & L & SL & T & U & B).
    destruct ST as [->|(es & ->)].
    - apply steps_nil in R as ->. exists o, c, t, a, u, []. repeat split; auto. constructor.
    - one R. apply steps_nil in R as ->. apply tok_run in R3. apply tok_plain in R3 as [L' P]; [|split; reflexivity].
      exists o, c, t, a, u, (sl (off q2) (off q3)). split; [lia|]. split; [|auto 6].
      rewrite (sl_app _ (off q2)) by lia. rewrite SL. cbn [app]. now rewrite <- app_assoc.
  Qed.

  Lemma macro_pairs n args k e pm p pm' q v b : 
    table n = GSeq [((PVar "spt"), GPoint); ((PVar "name"), (GNT N_pathed_ident)); ((PVar "_"), t_bang);
         ((PVar "arg"), (GOpt (GNT N_ident))); ((PVar "args"), (GNT args))] b ->
    (forall j e, j < k -> sat PAll (run j (GNT N_pathed_ident) e)) ->
    (forall j e pm p pm' q v, run j (GNT args) e pm p = (pm', Success q v) -> group p q) ->
    run k (GNT n) e pm p = (pm', Success q v) -> reg p q.
  Proof.
    intros TB PI AR R. apply nt_inv in R as (k1 & -> & R). rewrite TB in R. apply seq_inv in R as (k2 & -> & R).
    one R. apply point_inv in R0 as (-> & -> & _).
    one R. pose proof (sat_success _ _ _ _ _ _ (PI k2 _ ltac:(lia)) R0) as RP. eapply reg_trans; [exact RP|]. clear RP R0.
    one R. apply tok_run, tok_solid in R0 as (i & x & -> & N & -> & _); [|reflexivity].
    one R. one R. apply steps_nil in R as ->. apply AR in R1 as (o & c & t & a & u & bb & L & SL & IN & T & U & B & P).
    destruct k2 as [|k2]; [discriminate|]. cbn [Grammar.run] in R0. unfold map_p, optional in R0.
    match type of R0 with context [Grammar.run table toks k2 (GNT N_ident) ?a ?b ?c] => destruct (Grammar.run table toks k2 (GNT N_ident) a b c) as [pm6 [q6 v6|q6 er6|w6]] eqn:RI end; cbn [recov] in R0; [| |discriminate].
    - injection R0 as _ <- _. apply ident_token in RI as (-> & w & NW & BW). cbn [at_ off] in *.
      split; [cbn [at_ off]; lia|]. cbn [at_ off]. rewrite (sl_app _ (i + 1)) by lia. rewrite (sl_one _ _ N).
      rewrite (sl_app _ (i + 1 + 1)) by lia. rewrite (sl_one _ _ NW), SL. cbn [app].
      apply (PR_macro o c (Tk KBang x) [w] t u a bb); auto. right. eauto.
    - injection R0 as _ <- _. cbn [at_ off] in *. split; [cbn [at_ off]; lia|]. cbn [at_ off].
      rewrite (sl_app _ (i + 1)) by lia. rewrite (sl_one _ _ N), SL. cbn [app].
      apply (PR_macro o c (Tk KBang x) [] t u a bb); auto.
  Qed.

  Lemma alt3_group n a1 a2 a3 b1 b2 b3 v1 v2 v3 :
    table n = GAlt [GSeq [(v1, GNT a1)] b1; GSeq [(v2, GNT a2)] b2; GSeq [(v3, GNT a3)] b3] ->
    (forall y j e pm p pm' q v, In y [a1; a2; a3] -> run j (GNT y) e pm p = (pm', Success q v) -> group p q) ->
    forall j e pm p pm' q v, run j (GNT n) e pm p = (pm', Success q v) -> group p q.
  Proof.
    intros TB A j e pm p pm' q v R. apply nt_inv in R as (k1 & -> & R). rewrite TB in R. destruct k1 as [|k1]; [discriminate|].
    apply alt_inv in R as (i & x & pma & pmb & N & _ & R & _).
    destruct i as [|[|[|i]]]; cbn in N; try (injection N as <-); try (destruct i; discriminate);
      apply seq_inv in R as (k2 & -> & R); one R; apply steps_nil in R as ->; (eapply A; [|exact R0]; cbn; auto).
  Qed.

  Ltac readers := split; [reflexivity|split; [reflexivity|]]; do 3 eexists; (split; [reflexivity|]); (now left) || (right; eexists; reflexivity).

  Lemma special_pairs n k e pm p pm' q v : special n = true ->
    (forall j e, j < k -> sat PAll (run j (GNT N_pathed_ident) e)) ->
    run k (GNT n) e pm p = (pm', Success q v) -> reg p q.
  Proof.
    intros S PI R. destruct n; try discriminate.
    - eapply (macro_pairs N_item_macro_call N_item_macro_call_args); [reflexivity|exact PI| |exact R].
      eapply alt3_group; [reflexivity|]. intros y j e' pm0 p' pm0' q' v' [<-|[<-|[<-|[]]]] R'.
      + apply (arguments_group _ KLeftParen KRightParen) in R'; [exact R'|readers|cbn; auto].
      + apply (arguments_group _ KLeftSquare KRightSquare) in R'; [exact R'|readers|cbn; auto].
      + apply (arguments_group _ KLeftCurly KRightCurly) in R'; [exact R'|readers|cbn; auto].
    - eapply attribute_pairs; exact R.
    - eapply attribute_containing_pairs; exact R.
    - eapply (macro_pairs N_expr_macro_call N_expr_macro_call_args); [reflexivity|exact PI| |exact R].
      eapply alt3_group; [reflexivity|]. intros y j e' pm0 p' pm0' q' v' [<-|[<-|[<-|[]]]] R'.
      + apply (arguments_group _ KLeftParen KRightParen) in R'; [exact R'|readers|cbn; auto].
      + apply (arguments_group _ KLeftSquare KRightSquare) in R'; [exact R'|readers|cbn; auto].
      + apply (arguments_group _ KLeftCurly KRightCurly) in R'; [exact R'|readers|cbn; auto].
  Qed.

  (** * Runs *)

  Lemma claim_weaken p r : (claim PAll p r -> claim PWeak p r) /\ (claim FAll p r -> claim FWeak p r).
  Proof. destruct r; cbn [claim]; unfold wreg; auto. Qed.

  Theorem run_pairs n : forall x e m, pairs nn m x = true -> sat m (run n x e).
  Proof.
    induction n as [n IHn] using lt_wf_ind. intros x e m PX pm p. destruct n as [|n]; [destruct m; exact I|].
    assert (IH : forall x e m, pairs nn m x = true -> sat m (run n x e)) by (apply IHn; lia).
    assert (NF : nofail x = true -> m = FAll \/ m = FWeak -> claim m p (snd (run (S n) x e pm p))).
    { intros NF M. destruct (run (S n) x e pm p) as [pm' [q v|q er|w]] eqn:R; try (destruct M as [-> | ->]; exact I).
      exfalso. eapply nofail_run; eauto. }
    destruct x as [mt err|k| |steps b|gs|y|y|app sep f|sep f|sep f|sep f|o c'|y|y|y err|y err|l y|err y|a b|stmt].
    - clear NF. cbn [Grammar.run]. destruct (tok toks mt err pm p) as [pm' [q v|q er|w]] eqn:T; [| |destruct m; exact I].
      + assert (Z : m = PAll \/ m = PWeak -> reg p q).
        { intros M. eapply tok_plain; [exact T|]. destruct mt as [k|]; [|exact I]. cbn [pairs] in PX.
          destruct (closer k); [destruct M as [-> | ->]; discriminate|]. split; [reflexivity|].
          destruct (is_closer k); [destruct M as [-> | ->]; discriminate|reflexivity]. }
        destruct m; cbn [snd claim]; try exact I; [auto|left; auto].
      + apply tok_fail in T as ->. destruct m; cbn [snd claim]; try exact I; [|left]; apply reg_refl.
    - cbn [pairs] in PX. destruct (nn_ok m k PX) as [S|G].
      + destruct (run (Datatypes.S n) (GNT k) e pm p) as [pm' [q v|q er|w]] eqn:R; [|destruct m; try discriminate; exact I|destruct m; exact I].
        assert (reg p q). { eapply (special_pairs k (Datatypes.S n)); [destruct m; try discriminate; exact S| |exact R]. intros j e' L. apply IHn; [lia|reflexivity]. }
        destruct m; try discriminate; [assumption|left; assumption].
      + cbn [Grammar.run]. exact (IH _ _ _ G pm p).
    - cbn [Grammar.run]. destruct m; cbn [snd claim]; try exact I; [|left]; apply reg_refl.
    - clear NF. cbn [Grammar.run]. destruct (run_steps toks (run n) steps b e pm p) as [pm' [q v|q er|w]] eqn:R; [| |destruct m; exact I].
      + cbn [pairs] in PX.
        assert (Z : walk (pairs nn PAll) (pairs nn PWeak) [] steps = true -> reg p q).
        { intros W. eapply seq_ok; [exact IH|exact W| |exact R]. left. cbn [holds]. split; [lia|]. rewrite sl_nil. constructor. }
        destruct m; cbn [snd claim]; try exact I; [now apply Z|]. apply orb_true_iff in PX as [W|W]; [left; now apply Z|].
        destruct steps as [|[pt y] [|]]; try discriminate. one R. apply steps_nil in R as ->.
        pose proof (IH y e PWeak W pm p) as H. rewrite R0 in H. exact H.
      + assert (M : m = FAll \/ m = FWeak -> claim m p (Failure q er)).
        { intros M. eapply (seq_fail n IH b m M steps []); [| |exact R].
          - destruct M as [-> | ->]; exact PX.
          - left. cbn [holds]. split; [lia|]. rewrite sl_nil. constructor. }
        destruct m; try exact I; auto.
    - clear NF. destruct (run (Datatypes.S n) (GAlt gs) e pm p) as [pm' [q v|q er|w]] eqn:R; [| |destruct m; exact I].
      + apply alt_inv in R as (i & x & pm1 & pm2 & N & _ & R & _). pose proof (nth_error_In _ _ N) as IN. cbn [pairs] in PX.
        destruct m; try exact I; rewrite forallb_forall in PX; pose proof (IH x e _ (PX x IN) pm1 p) as H; rewrite R in H; exact H.
      + assert (M : m = FAll \/ m = FWeak -> claim m p (Failure q er)).
        { intros M. destruct (@exists_last _ gs) as (gs' & y & ->); [intros ->; discriminate|].
          assert (G : pairs nn m y = true).
          { cbn [pairs] in PX. destruct M as [-> | ->]; clear -PX; induction gs' as [|z gs' IH]; cbn [app] in PX; try exact PX;
              apply IH; destruct (gs' ++ [y]) eqn:E; try exact PX; destruct gs'; discriminate. }
          assert (Z : exists pm1 pm2, run n y e pm1 p = (pm2, Failure q er)).
          { cbn [Grammar.run] in R. destruct gs' as [|z gs']; cbn [map app alternate] in R.
            - destruct (run n y e pm p) as [pm1 r] eqn:E. cbn [alternate_from] in R. injection R as _ ->. eauto.
            - destruct (run n z e pm p) as [pm1 r]. eapply last_fails; eauto. }
          destruct Z as (pm1 & pm2 & Z). pose proof (IH y e m G pm1 p) as H. rewrite Z in H. exact H. }
        destruct m; try exact I; auto.
    - destruct m; try (solve [apply NF; [reflexivity|auto]]); cbn [Grammar.run]; unfold map_p, optional; cbn [pairs] in PX;
        (destruct (run n y e pm p) as [pm' [q v|q er|w]] eqn:R; cbn [recov snd claim]; [| |exact I]).
      + exact (sat_success _ _ _ _ _ _ (IH y e PAll PX) R).
      + apply reg_refl.
      + left. exact (sat_success _ _ _ _ _ _ (IH y e PAll PX) R).
      + left. apply reg_refl.
    - destruct m; try (solve [apply NF; [reflexivity|auto]]); cbn [Grammar.run]; unfold map_p; cbn [pairs] in PX;
        (destruct (zero_or_more pt_lt recov n (run n y e) pm p) as [pm' [q v|q er|w]] eqn:R; cbn [snd claim]; try exact I);
        [|left]; eapply many_ok; eauto.
    - destruct m; try (solve [apply NF; [reflexivity|auto]]); cbn [Grammar.run]; cbn [pairs] in PX;
        (destruct (beval toks p e app) as [u|]; [|exact I]; destruct u; try exact I);
        apply andb_true_iff in PX as [PX P4]; apply andb_true_iff in PX as [PX P3]; apply andb_true_iff in PX as [P1 P2]; apply list_ok; auto 8.
    - destruct m; cbn [Grammar.run]; cbn [pairs] in PX; try (apply list1_fail; auto; fail);
        apply andb_true_iff in PX as [PX P4]; apply andb_true_iff in PX as [PX P3]; apply andb_true_iff in PX as [P1 P2].
      + apply list1_ok; auto.
      + apply claim_weaken. apply list1_ok; auto.
    - destruct m; try (solve [apply NF; [reflexivity|auto]]); cbn [Grammar.run]; cbn [pairs] in PX;
        apply andb_true_iff in PX as [PX P4]; apply andb_true_iff in PX as [PX P3]; apply andb_true_iff in PX as [P1 P2].
      + apply resume_ok; auto.
      + apply claim_weaken. apply resume_ok; auto.
    - destruct m; try (solve [apply NF; [reflexivity|auto]]); cbn [Grammar.run]; cbn [pairs] in PX;
        apply andb_true_iff in PX as [PX P4]; apply andb_true_iff in PX as [PX P3]; apply andb_true_iff in PX as [P1 P2].
      + apply implicit_ok; auto.
      + apply claim_weaken. apply implicit_ok; auto.
    - destruct m; try discriminate; apply NF; auto.
    - clear NF. cbn [Grammar.run]. cbn [pairs] in PX. pose proof (IH y e m PX pm p) as H.
      destruct (run n y e pm p) as [pm1 [q v|q er|w]]; [|exact H|exact H]. destruct (ex toks p q); [exact H|destruct m; exact I].
    - clear NF. cbn [Grammar.run]. unfold map_p, peek. destruct (run n y e pm p) as [pm1 [q v|q er|w]]; destruct m; try exact I; try apply reg_refl; left; apply reg_refl.
    - clear NF. cbn [Grammar.run]. cbn [pairs] in PX. pose proof (IH y e m PX pm p) as H.
      destruct (run n y e pm p) as [pm1 [q v|q er|w]]; exact H.
    - clear NF. cbn [Grammar.run]. cbn [pairs] in PX. pose proof (IH y e m PX pm p) as H.
      destruct (run n y e pm p) as [pm1 [q v|q er|w]]; [|exact H|exact H].
      destruct v; try (destruct m; exact I). destruct (into_simple n0); [exact H|]. destruct m; try exact I; [|left]; apply reg_refl.
    - clear NF. cbn [Grammar.run]. cbn [pairs] in PX. unfold with_amb. pose proof (IH y e m PX (set_amb pm l) p) as H.
      destruct (run n y e (set_amb pm l) p) as [pm1 r]. exact H.
    - clear NF. cbn [Grammar.run]. cbn [pairs] in PX. destruct (is_maximum (m_state pm)); [|exact (IH y e m PX pm p)].
      destruct m; try exact I; [|left]; apply reg_refl.
    - clear NF. cbn [Grammar.run]. cbn [pairs] in PX. apply andb_true_iff in PX as [P1 P2].
      destruct (is_ambiguous (m_state pm)); [exact (IH a e m P1 pm p)|exact (IH b e m P2 pm p)].
    - clear NF. cbn [Grammar.run].
      assert (H : good (reg p) (snd (shunt_loop toks n (run n (GNT N_expression_prefix_or_atom) []) (run n (GNT N_expression_infix_or_postfix) [])
                (run n (GNT N_operator_postfix_limited) []) stmt (mkYard [] []) SPrefix pm p))).
      { apply g_shunt; try (apply IH; reflexivity); [split; constructor|apply reg_refl]. }
      match type of H with good (reg p) (snd ?r) => destruct r as [pm1 [q v|q er|w]] end; destruct m; try exact I; try exact H; left; exact H.
  Qed.
End Slices.
