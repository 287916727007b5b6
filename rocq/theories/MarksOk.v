(** Soundness of the analysis of [Marks]: the values of every derivation satisfy
    the tables of [MarkSpec]. *)

From Coq Require Import String List Arith Bool Lia.
From Verif Require Import Base Peresil Token Schema Value Nt Grammar Points Table Static Typing FileToks Split SpanSpec MarkSpec Deriv DerivMono SpansOk SpansDer Marks.
From Verif Require Spans.
Import ListNotations.
Local Open Scope string_scope.
Local Open Scope list_scope.
Local Open Scope nat_scope.

Lemma matcher_eqb_eq a b : matcher_eqb a b = true -> a = b.
Proof. destruct a as [k|], b as [k'|]; cbn; try discriminate; auto. intros H. apply tkind_eqb_eq in H. now subst. Qed.

Lemma mem_in m l : mem m l = true -> In m l.
Proof. unfold mem. intros H. apply existsb_exists in H as (x & I & E). apply matcher_eqb_eq in E. now subst. Qed.

Lemma in_mem m l : In m l -> mem m l = true.
Proof. intros I. apply existsb_exists. exists m. split; [auto|]. destruct m; cbn; auto. apply tkind_eqb_refl. Qed.

Lemma add_all_in m a b : In m (add_all a b) <-> In m a \/ In m b.
Proof.
  induction a as [|x a IH]; cbn [add_all fold_right]; [cbn; tauto|]. fold (add_all a b). destruct (mem x (add_all a b)) eqn:E.
  - apply mem_in in E. rewrite IH in *. cbn [In]. split; [tauto|]. intros [[->|H]|H]; tauto.
  - cbn [In]. rewrite IH. tauto.
Qed.

(** Being in a set. *)
Definition ins (m : matcher) (s : mset) : Prop := match s with None => True | Some l => In m l end.

Lemma union_l m a b : ins m a -> ins m (union a b).
Proof. destruct a as [a|], b as [b|]; cbn; auto. rewrite add_all_in. auto. Qed.
Lemma union_r m a b : ins m b -> ins m (union a b).
Proof. destruct a as [a|], b as [b|]; cbn; auto. rewrite add_all_in. auto. Qed.

Lemma subset_in a b m : subset a b = true -> ins m a -> ins m b.
Proof.
  destruct a as [a|], b as [b|]; cbn; auto; [|discriminate]. intros H I. rewrite forallb_forall in H. apply mem_in. auto.
Qed.

Lemma all_in_in l ms m : all_in l ms = true -> In m l -> In m ms.
Proof. unfold all_in. rewrite forallb_forall. intros H I. apply mem_in. auto. Qed.

Section MarksOk.
  Variable toks : list token.
  Hypothesis WF : wf_toks toks.
  Hypothesis NUM : forall i n, nth_error toks i = Some (TkNumber n) -> num_ord n.
  Notation valid := (valid toks).
  Notation sb := (sb toks).
  Notation teb := (teb toks).
  Notation eb := (eb toks).

  (** * Reading one token *)

  Definition tk (m : matcher) (p q : point) : Prop :=
    not_eof_matcher m = true /\ exists err (pm : pm_t) v, tok toks m err pm p = (pm, Success q v).

  Lemma tk_mono m p q : valid p -> tk m p q -> valid q /\ pos p < pos q.
  Proof.
    intros V (N & err & pm & v & T). pose proof (tok_ok _ WF m err pm p V N) as O. rewrite T in O. destruct O as [_ []]. auto.
  Qed.

  Lemma tk_whole m p q : valid p -> tk m p q -> whole_matcher m = true -> sub q = None.
  Proof.
    intros V (N & err & pm & v & T) W. pose proof (tok_ok _ WF m err pm p V N) as O. rewrite T in O. destruct O as [_ []]. now apply tks_whole.
  Qed.

  Lemma tk_place m p q : tk m p q -> (off q = off p + 1 /\ sub q = None) \/ (off q = off p /\ sub q <> None).
  Proof.
    intros (N & err & pm & v & T). apply tok_half in T as [T|(k & n & _ & T1 & T2 & _)]; auto. right. split; [auto|]. congruence.
  Qed.

  Lemma tk_number err (pm : pm_t) p q v : valid p -> tok toks MNumber err pm p = (pm, Success q v) ->
    exists n, v = VNum n /\ nth_error toks (off p) = Some (TkNumber n) /\ sub p = None /\ off q = off p + 1 /\ sub q = None.
  Proof.
    intros V T. unfold tok in T. destruct (nth_error toks (off p)) as [t|] eqn:Ht; [|discriminate].
    destruct (match sub p with Some n => match split t n with Some (_, b) => Some b | None => None end | None => Some t end) as [c|] eqn:C; [|discriminate].
    destruct (convert MNumber c) as [w|] eqn:CV.
    - injection T as <- <-. destruct c as [k x|n]; [discriminate|]. injection CV as <-. destruct (sub p) as [r|] eqn:S.
      + exfalso. destruct (split t r) as [[a b]|] eqn:Sp; [|discriminate]. injection C as ->.
        destruct (split_spec _ _ _ _ Sp) as (ka & kb & _ & K & _). discriminate.
      + injection C as ->. exists n. auto.
    - exfalso. destruct (split t (sub_rank (sub p))) as [[a b]|] eqn:Sp; [|discriminate].
      destruct (split_spec _ _ _ _ Sp) as (ka & kb & -> & _). discriminate.
  Qed.

  Lemma ways_readings k s e : ways k s e = readings k s e.
  Proof. reflexivity. Qed.

  Lemma taken_app p ps q : taken toks p ps q -> forall ps' r, taken toks q ps' r -> taken toks p (ps ++ ps') r.
  Proof. induction 1; intros; cbn [app]; auto. econstructor; eauto. Qed.

  Lemma tok_written k err (pm : pm_t) p q x : valid p -> tok toks (MK k) err pm p = (pm, Success q (VExt x)) -> written toks (MK k) x.
  Proof.
    intros V T. pose proof (Split.tok_success _ _ _ _ _ _ _ T) as (t & Ht & _).
    destruct (valid_taken _ _ V) as (ps0 & T0).
    assert (exists ps1, taken toks q ps1 (mkPt (S (off p)) None)) as (ps1 & T1).
    { pose proof T as T'. apply tok_half in T' as [[A B]|(k' & n & _ & A & B & _)].
      - exists []. replace q with (mkPt (S (off p)) None); [constructor|]. destruct q as [o s]. cbn [off sub] in *. subst. f_equal. lia.
      - destruct t as [kt xt|nt].
        + destruct (taken_resume toks (off p) kt xt (ps0 ++ [(k, x)]) q Ht) as (_ & k2 & x2 & R); eauto.
          eapply taken_app; [exact T0|]. econstructor; [exact T|constructor].
        + exfalso. unfold tok in T. rewrite Ht in T. destruct V as (t' & Ht' & Vs). rewrite Ht in Ht'. injection Ht' as <-.
          destruct (sub p) as [r|]; [destruct r; cbn [split] in Vs; congruence|]. cbn [convert split sub_rank] in T. discriminate. }
    assert (In (k, x) (ps0 ++ (k, x) :: ps1)) as I by (apply in_app_iff; right; now left).
    assert (taken toks (mkPt (off p) None) (ps0 ++ (k, x) :: ps1) (mkPt (S (off p)) None)) as T2.
    { eapply taken_app; [exact T0|]. econstructor; eauto. }
    destruct t as [kt [s e]|nt].
    - exists kt, s, e, (ps0 ++ (k, x) :: ps1). split; [eapply nth_error_In; eauto|]. split; [|auto]. rewrite <- ways_readings. eapply taken_ways; eauto.
    - exfalso. unfold tok in T. rewrite Ht in T. destruct V as (t' & Ht' & Vs). rewrite Ht in Ht'. injection Ht' as <-.
      destruct (sub p) as [r|]; [destruct r; cbn [split] in Vs; congruence|]. cbn [convert split sub_rank] in T. discriminate.
  Qed.

  Lemma tok_ext k err (pm : pm_t) p q v : valid p -> not_eof_matcher (MK k) = true -> tok toks (MK k) err pm p = (pm, Success q v) ->
    exists x, v = VExt x /\ fst x = sb p /\ snd x = teb q /\ ex toks p q = BOk x.
  Proof.
    intros V N T. pose proof (tok_ok _ WF (MK k) err pm p V N) as O. rewrite T in O. destruct O as [_ O]. destruct O.
    inversion tks_typed as [x| | | | | | | | | | | |]; subst. exists x. split; [auto|]. specialize (tks_start _ eq_refl). split; [auto|].
    destruct (ex_ok _ WF p q V tks_valid ltac:(lia)) as (y & Y & _). pose proof (ex_end _ WF _ _ _ V tks_valid ltac:(lia) Y) as (F & _ & E).
    assert (snd x = teb q) as S.
    { pose proof (Split.tok_success _ _ _ _ _ _ _ T) as (t & Ht & [[Q (c & C1 & C2)]|[Q (a & b & C1 & C2)]]); subst q.
      - unfold SpansOk.teb, prev_end. cbn [sub off]. replace (off p + 1) with (S (off p)) by lia. rewrite Ht.
        apply convert_ext in C2. subst c. destruct (sub p) as [r|]; [|now injection C1 as ->].
        destruct (split t r) as [[a b]|] eqn:Sp; [|discriminate]. cbn [option_map snd] in C1. injection C1 as ->.
        destruct (split_spec _ _ _ _ Sp) as (ka & kb & _ & K & _). injection K as _ ->. reflexivity.
      - unfold SpansOk.teb. cbn [sub]. apply convert_ext in C2. subst a.
        destruct (split_spec _ _ _ _ C1) as (ka & kb & K & _). injection K as _ ->. unfold Points.sb. cbn [off sub sub_rank]. rewrite Ht. cbn [snd]. lia. }
    split; [auto|]. rewrite Y. f_equal. apply injective_projections; [lia|]. rewrite S.
    apply tok_half in T as [[A B]|(k' & n & _ & A & B & _)].
    - destruct E as [[_ E]|(A' & _)]; [|lia]. rewrite E. unfold SpansOk.eb, SpansOk.teb. rewrite B. cbn [sub_rank]. lia.
    - destruct E as [[A' _]|(_ & E & _)]; [lia|]. rewrite E. unfold SpansOk.teb. now rewrite B.
  Qed.

  Lemma tk_written m p q : valid p -> tk m p q -> exists y, written toks m y /\ fst y = sb p /\ snd y = teb q.
  Proof.
    intros V (N & err & pm & v & T). destruct m as [k|].
    - destruct (tok_ext _ _ _ _ _ _ V N T) as (x & -> & A & B & _). exists x. split; [eapply tok_written; eauto|auto].
    - destruct (tk_number _ _ _ _ _ V T) as (n & -> & Ht & S & A & B). exists (n_extent n). split.
      + exists n. split; [eapply nth_error_In; eauto|auto].
      + unfold Points.sb, SpansOk.teb, prev_end. rewrite Ht, S, B, A. replace (off p + 1) with (Datatypes.S (off p)) by lia. rewrite Ht. cbn [token_extent sub_rank]. lia.
  Qed.

  Lemma tk_ex m p q x : valid p -> tk m p q -> ex toks p q = BOk x -> written toks m x.
  Proof.
    intros V T X. destruct (tk_mono _ _ _ V T) as [Vq L]. destruct (tk_written _ _ _ V T) as (y & W & A & B).
    assert (y = x) as <-; [|auto]. destruct (ex_end _ WF _ _ _ V Vq ltac:(lia) X) as (F & _ & E).
    apply injective_projections; [lia|]. rewrite B. apply tk_place in T as [[O S]|[O S]].
    - destruct E as [[_ E]|(A' & _)]; [|lia]. rewrite E. unfold SpansOk.eb, SpansOk.teb. rewrite S. cbn [sub_rank]. lia.
    - destruct E as [[A' _]|(_ & E & _)]; [lia|]. rewrite E. unfold SpansOk.teb. destruct (sub q); [auto|congruence].
  Qed.

  (** * First and last tokens *)

  Definition first_in (s : mset) (p q : point) : Prop :=
    match s with None => True | Some l => exists m p', In m l /\ tk m p p' /\ pos p' <= pos q end.
  Definition last_in (s : mset) (p q : point) : Prop :=
    match s with None => True | Some l => exists m q', In m l /\ valid q' /\ pos p <= pos q' /\ tk m q' q end.
  Definition sem (s : fl) (p q : point) : Prop :=
    (nul s = true /\ q = p) \/ (first_in (fi s) p q /\ last_in (la s) p q).

  Lemma first_sub a b p q : (forall m, ins m a -> ins m b) -> (a = None -> b = None) -> first_in a p q -> first_in b p q.
  Proof.
    intros H N. destruct a as [a|], b as [b|]; cbn; auto; [|specialize (N eq_refl); discriminate].
    intros (m & p' & I & R). exists m, p'. split; [exact (H m I)|auto].
  Qed.
  Lemma last_sub a b p q : (forall m, ins m a -> ins m b) -> (a = None -> b = None) -> last_in a p q -> last_in b p q.
  Proof.
    intros H N. destruct a as [a|], b as [b|]; cbn; auto; [|specialize (N eq_refl); discriminate].
    intros (m & p' & I & R). exists m, p'. split; [exact (H m I)|auto].
  Qed.

  Lemma union_none_l (a b : mset) : a = None -> union a b = None.
  Proof. intros ->. reflexivity. Qed.
  Lemma union_none_r (a b : mset) : b = None -> union a b = None.
  Proof. intros ->. now destruct a. Qed.

  Lemma first_l a b p q : first_in a p q -> first_in (union a b) p q.
  Proof. apply first_sub; [intros; now apply union_l|apply union_none_l]. Qed.
  Lemma first_r a b p q : first_in b p q -> first_in (union a b) p q.
  Proof. apply first_sub; [intros; now apply union_r|apply union_none_r]. Qed.
  Lemma last_l a b p q : last_in a p q -> last_in (union a b) p q.
  Proof. apply last_sub; [intros; now apply union_l|apply union_none_l]. Qed.
  Lemma last_r a b p q : last_in b p q -> last_in (union a b) p q.
  Proof. apply last_sub; [intros; now apply union_r|apply union_none_r]. Qed.

  Lemma first_wide s p q r : pos q <= pos r -> first_in s p q -> first_in s p r.
  Proof. destruct s as [l|]; cbn; auto. intros L (m & p' & I & T & R). exists m, p'. repeat split; auto; try apply T. lia. Qed.
  Lemma last_wide s p q r : pos p <= pos q -> last_in s q r -> last_in s p r.
  Proof. destruct s as [l|]; cbn; auto. intros L (m & p' & I & V & R & T). exists m, p'. repeat split; auto; try apply T. lia. Qed.

  Lemma sem_top p q : sem fl_top p q.
  Proof. right. split; exact I. Qed.
  Lemma sem_nothing p : sem fl_nothing p p.
  Proof. now left. Qed.

  Lemma sem_seq a b p q r : pos p <= pos q -> pos q <= pos r -> sem a p q -> sem b q r -> sem (fl_seq a b) p r.
  Proof.
    intros L1 L2 [[N ->]|[F La]] [[N' ->]|[F' La']]; unfold sem, fl_seq; cbn [nul fi la].
    - left. now rewrite N, N'.
    - right. rewrite N. split; [now apply first_r|]. destruct (nul b); [now apply last_r|auto].
    - right. rewrite N'. split; [|now apply last_l]. destruct (nul a); [now apply first_l|auto].
    - right. split.
      + apply (first_wide _ _ _ r L2) in F. destruct (nul a); [now apply first_l|auto].
      + apply (last_wide _ p _ _ L1) in La'. destruct (nul b); [now apply last_r|auto].
  Qed.

  Lemma sem_or_l a b p q : sem a p q -> sem (fl_or a b) p q.
  Proof. intros [[N ->]|[F L]]; unfold sem, fl_or; cbn [nul fi la]; [left; now rewrite N|]. right. split; [now apply first_l|now apply last_l]. Qed.
  Lemma sem_or_r a b p q : sem b p q -> sem (fl_or a b) p q.
  Proof. intros [[N ->]|[F L]]; unfold sem, fl_or; cbn [nul fi la]; [left; rewrite N; split; [apply orb_true_r|auto]|]. right. split; [now apply first_r|now apply last_r]. Qed.

  Lemma subset_none a b : subset a b = true -> a = None -> b = None.
  Proof. intros H ->. destruct b; [discriminate|auto]. Qed.

  Lemma sem_le a b p q : fl_le a b = true -> sem a p q -> sem b p q.
  Proof.
    unfold fl_le. intros H. apply andb_true_iff in H as [H H3]. apply andb_true_iff in H as [H1 H2]. intros [[N ->]|[F L]].
    - left. rewrite N in H1. auto.
    - right. split; [eapply first_sub; [|eapply subset_none; eauto|exact F]|eapply last_sub; [|eapply subset_none; eauto|exact L]]; intros; eapply subset_in; eauto.
  Qed.

  Lemma nfl_ok n p q : sem (tfl (table n)) p q -> sem (nfl n) p q.
  Proof. pose proof nfl_checked as H. rewrite forallb_forall in H. apply sem_le. apply H. apply all_nts_complete. Qed.

  Lemma sem_or_all gs x p q : In x gs -> sem (tfl x) p q -> sem (fold_right (fun y a => fl_or (tfl y) a) fl_bottom gs) p q.
  Proof. intros I S. induction gs as [|y gs IH]; [destruct I|]; destruct I as [->|I]; cbn [fold_right]; [now apply sem_or_l|apply sem_or_r; auto]. Qed.

  (** A list of elements reads nothing, or starts and ends with an element. *)
  Definition items_sem (so : option g) (f : g) (p q : point) (vs : list val) : Prop :=
    (so = None -> sem (fl_or fl_nothing (tfl f)) p q) /\
    (vs <> [] -> nul (tfl f) = false -> first_in (fi (tfl f)) p q).

  Lemma sem_many s p q r : pos p <= pos q -> pos q <= pos r -> sem s p q -> sem (fl_or fl_nothing s) q r -> sem (fl_or fl_nothing s) p r.
  Proof.
    intros L1 L2 S T. destruct T as [[_ ->]|[F L]]; [now apply sem_or_r|]. destruct S as [[N ->]|[F' L']].
    - right. auto.
    - right. unfold fl_or, fl_nothing in *. cbn [nul fi la orb] in *. split; [apply first_r; eapply first_wide; eauto|eapply last_wide; eauto].
  Qed.

  Theorem sem_all :
    (forall x e p q v, der toks x e p q v -> valid p -> sem (tfl x) p q) /\
    (forall steps e p e' q, ders toks steps e p e' q -> valid p -> sem (fold_right (fun s a => fl_seq (tfl (snd s)) a) fl_nothing steps) p q) /\
    (forall so f e p q vs, items toks so f e p q vs -> valid p -> items_sem so f p q vs) /\
    (forall so e p q, between toks so e p q -> valid p -> so = None -> q = p) /\
    (forall c, etree toks c -> True).
  Proof.
    apply (der_all toks (fun x e p q v => valid p -> sem (tfl x) p q)
      (fun steps e p e' q => valid p -> sem (fold_right (fun s a => fl_seq (tfl (snd s)) a) fl_nothing steps) p q)
      (fun so f e p q vs => valid p -> items_sem so f p q vs) (fun so e p q => valid p -> so = None -> q = p) (fun c => True)); auto.
    - intros m err e p q v pm N T V. assert (tk m p q) as K by (split; [auto|]; eauto). right. unfold tfl. cbn [flg fi la first_in last_in].
      destruct (tk_mono _ _ _ V K). split; [exists m, q|exists m, p]; repeat split; auto; try apply K; now left.
    - intros n e p q v D IH V. apply nfl_ok. auto.
    - intros e p V. apply sem_nothing.
    - intros gs x e p q v I D IH V. unfold tfl. cbn [flg]. apply (sem_or_all _ _ _ _ I (IH V)).
    - intros x e p q v D IH V. unfold tfl. cbn [flg]. apply sem_or_r. exact (IH V).
    - intros x e p V. unfold tfl. cbn [flg]. apply sem_or_l. apply sem_nothing.
    - intros x e p q l D IH V. unfold tfl. cbn [flg]. exact (proj1 (IH V) eq_refl).
    - intros app sep f e p q l vs n b B D IH Ch V. apply sem_top.
    - intros sep f e p q vs n b D IH NE Ch V. unfold tfl. cbn [flg]. fold tfl. destruct (nul (tfl f)) eqn:N; [apply sem_top|].
      right. cbn [fi la]. split; [|exact I]. exact (proj2 (IH V) NE N).
    - intros. apply sem_top.
    - intros. apply sem_top.
    - intros. apply sem_top.
    - intros. apply sem_top.
    - intros x e p q v D IH V. apply sem_nothing.
    - intros a b e p q v D IH V. unfold tfl. cbn [flg]. apply sem_or_l. exact (IH V).
    - intros a b e p q v D IH V. unfold tfl. cbn [flg]. apply sem_or_r. exact (IH V).
    - intros. apply sem_top.
    - intros e p V. apply sem_nothing.
    - intros pt x steps e p q v e1 e' r D IH B DS IHs V. destruct (der_mono _ WF _ _ _ _ _ D V) as [V1 L1].
      destruct (ders_mono _ WF _ _ _ _ _ DS V1) as [V2 L2]. cbn [fold_right snd]. eapply sem_seq; eauto.
    - intros so f e p q Vq L H _ V. split.
      + intros E. rewrite (H (or_introl E)). apply sem_or_l, sem_nothing.
      + intros NE. now destruct NE.
    - intros so f e p p1 p2 q v vs D IH B IHb DI IHi V. destruct (der_mono _ WF _ _ _ _ _ D V) as [V1 L1].
      destruct (between_mono _ WF _ _ _ _ B V1) as [V2 L2]. destruct (items_mono _ WF _ _ _ _ _ _ DI V2) as [V3 L3]. split.
      + intros E. pose proof (IHb V1 E) as ->. apply sem_many with (q := p1); auto. exact (proj1 (IHi V1) E).
      + intros _ N. destruct (IH V) as [[N' _]|[F _]]; [congruence|]. eapply first_wide; [|exact F]. lia.
    - discriminate.
    - discriminate.
  Qed.

  Lemma der_sem x e p q v : der toks x e p q v -> valid p -> sem (tfl x) p q.
  Proof. apply sem_all. Qed.

  (** * Parsers of one token *)

  Definition single (s : mset) (p q : point) : Prop := match s with None => True | Some l => exists m, In m l /\ tk m p q end.

  Lemma single_sub a b p q : (forall m, ins m a -> ins m b) -> (a = None -> b = None) -> single a p q -> single b p q.
  Proof.
    intros H N. destruct a as [a|], b as [b|]; cbn; auto; [|specialize (N eq_refl); discriminate].
    intros (m & I & R). exists m. split; [exact (H m I)|auto].
  Qed.
  Lemma single_l a b p q : single a p q -> single (union a b) p q.
  Proof. apply single_sub; [intros; now apply union_l|apply union_none_l]. Qed.
  Lemma single_r a b p q : single b p q -> single (union a b) p q.
  Proof. apply single_sub; [intros; now apply union_r|apply union_none_r]. Qed.

  Lemma none_ok n p q : single (tone (table n)) p q -> single (none n) p q.
  Proof.
    pose proof none_checked as H. rewrite forallb_forall in H. specialize (H n (all_nts_complete n)).
    apply single_sub; [intros; eapply subset_in; eauto|eapply subset_none; eauto].
  Qed.

  Theorem single_all :
    (forall x e p q v, der toks x e p q v -> single (tone x) p q) /\
    (forall steps e p e' q, ders toks steps e p e' q -> match steps with [] => q = p | [(_, y)] => single (tone y) p q | _ => True end) /\
    (forall so f e p q vs, items toks so f e p q vs -> True) /\
    (forall so e p q, between toks so e p q -> True) /\
    (forall c, etree toks c -> True).
  Proof.
    apply (der_all toks (fun x e p q v => single (tone x) p q)
      (fun steps e p e' q => match steps with [] => q = p | [(_, y)] => single (tone y) p q | _ => True end)
      (fun so f e p q vs => True) (fun so e p q => True) (fun c => True)); auto; try (intros; exact I).
    - intros m err e p q v pm N T. exists m. split; [now left|]. split; [auto|]. eauto.
    - intros n e p q v D IH. apply none_ok. auto.
    - intros steps b e e' p q v D IH _. unfold tone. cbn [oneg]. destruct steps as [|[pt y] [|s steps]]; try exact I. exact IH.
    - intros gs x e p q v I D IH. unfold tone. cbn [oneg]. fold tone. induction gs as [|y gs IHg]; [destruct I|]; destruct I as [->|I]; cbn [fold_right].
      + now apply single_l.
      + apply single_r. auto.
    - intros a b e p q v D IH. unfold tone. cbn [oneg]. now apply single_l.
    - intros a b e p q v D IH. unfold tone. cbn [oneg]. now apply single_r.
    - intros pt x steps e p q v e1 e' r D IH B DS IHs. destruct steps as [|s steps]; [|exact I]. subst r. exact IH.
  Qed.

  (** * Values *)

  Inductive avok : av -> val -> Prop :=
  | Av_any v : avok AAny v
  | Av_none : avok ANone VNone
  | Av_ext one s p q x : valid p -> valid q -> pos p <= pos q -> ex toks p q = BOk x -> sem s p q -> single one p q -> avok (AExt one s) (VExt x)
  | Av_opt0 a : avok (AOpt a) VNone
  | Av_opt a v : avok a v -> avok (AOpt a) (VSome v)
  | Av_pair a b v w : avok a v -> avok b w -> avok (APair a b) (VPair v w).

  Lemma av_or_ok a : forall b v, (avok a v -> avok (av_or a b) v) /\ (avok b v -> avok (av_or a b) v).
  Proof.
    induction a as [| |o s|a IH|a1 IH1 a2 IH2]; intros b v; destruct b as [| |o' s'|b|b1 b2]; cbn [av_or]; split; intros H; try apply Av_any; auto.
    - inversion H; subst. apply Av_opt0.
    - inversion H as [| |? ? p q x ? ? ? X| | |]; subst. apply (Av_ext _ _ p q); auto; [now apply sem_or_l|now apply single_l].
    - inversion H as [| |? ? p q x ? ? ? X| | |]; subst. apply (Av_ext _ _ p q); auto; [now apply sem_or_r|now apply single_r].
    - inversion H; subst. apply Av_opt0.
    - inversion H; subst; [apply Av_opt0|]. apply Av_opt. now apply (proj1 (IH b _)).
    - inversion H; subst; [apply Av_opt0|]. apply Av_opt. now apply (proj2 (IH b _)).
    - inversion H; subst. constructor; [now apply (proj1 (IH1 b1 _))|now apply (proj1 (IH2 b2 _))].
    - inversion H; subst. constructor; [now apply (proj2 (IH1 b1 _))|now apply (proj2 (IH2 b2 _))].
  Qed.

  Definition entok (t : ent) (p : point) (v : val) : Prop :=
    match t with
    | EPt s => exists p0, v = VPoint p0 /\ valid p0 /\ pos p0 <= pos p /\ sem s p0 p
    | EVal a => avok a v
    end.
  Definition envok (se : menv) (e : env) (p : point) : Prop :=
    forall x t, assoc x se = Some t -> exists v, assoc x e = Some v /\ entok t p v.
  Definition emarked (e : env) : Prop := Forall (fun b => marked (written toks) (numbers toks) (snd b)) e.

  Lemma assoc_map {A B} (f : A -> B) x (l : list (string * A)) : assoc x (map (fun '(y, t) => (y, f t)) l) = option_map f (assoc x l).
  Proof. induction l as [|[y t] l IH]; cbn [map assoc]; [reflexivity|]. now destruct (String.eqb x y). Qed.

  Lemma envok_weak se e p q : pos p <= pos q -> envok se e p -> envok (weak se) e q.
  Proof.
    intros L E x t A. unfold weak in A. rewrite (assoc_map (fun t => match t with EPt _ => EPt fl_top | _ => t end)) in A.
    destruct (assoc x se) as [t'|] eqn:A'; [|discriminate]. injection A as <-. destruct (E _ _ A') as (v & Ev & O). exists v. split; [auto|].
    destruct t' as [s|a]; [|exact O]. destruct O as (p0 & -> & V0 & L0 & _). exists p0. repeat split; auto; [lia|apply sem_top].
  Qed.

  Lemma envok_pass se e p q s : pos p <= pos q -> sem s p q -> envok se e p -> envok (passed s se) e q.
  Proof.
    intros L S E x t A. unfold passed in A. rewrite (assoc_map (fun t => match t with EPt s' => EPt (fl_seq s' s) | _ => t end)) in A.
    destruct (assoc x se) as [t'|] eqn:A'; [|discriminate]. injection A as <-. destruct (E _ _ A') as (v & Ev & O). exists v. split; [auto|].
    destruct t' as [s'|a]; [|exact O]. destruct O as (p0 & -> & V0 & L0 & S0). exists p0. repeat split; auto; [lia|]. eapply sem_seq; eauto.
  Qed.

  Lemma bind_av_ok pt : forall a v e e1 se p, avok a v -> bind_pat pt v e = Some e1 -> envok se e p -> envok (bind_av pt a se) e1 p.
  Proof.
    induction pt as [x|p1 IH1 p2 IH2]; intros a v e e1 se p A B E; cbn [bind_pat bind_av] in *.
    - injection B as <-. intros y t Y. cbn [assoc] in *. destruct (String.eqb y x); [|auto]. injection Y as <-. exists v. auto.
    - destruct v; try discriminate. destruct (bind_pat p1 v1 e) as [e2|] eqn:B1; [|discriminate].
      assert (envok (bind_av p2 AAny (bind_av p1 AAny se)) e1 p) as G.
      { eapply IH2; [apply Av_any|eauto|]. eapply IH1; [apply Av_any|eauto|auto]. }
      destruct a as [| |o s|a|a1 a2]; auto. inversion A; subst. eapply IH2; [eauto|eauto|]. eapply IH1; eauto.
  Qed.

  Lemma bind_marked pt : forall v e e1, marked (written toks) (numbers toks) v -> emarked e -> bind_pat pt v e = Some e1 -> emarked e1.
  Proof.
    induction pt as [x|p1 IH1 p2 IH2]; intros v e e1 M E B; cbn [bind_pat] in B.
    - injection B as <-. constructor; auto.
    - destruct v; try discriminate. destruct (bind_pat p1 v1 e) as [e2|] eqn:B1; [|discriminate]. destruct M as [M1 M2]. eauto.
  Qed.

  Lemma assoc_marked e x v : emarked e -> assoc x e = Some v -> marked (written toks) (numbers toks) v.
  Proof.
    intros M. induction M as [|[y w] e H M IH]; cbn [assoc]; [discriminate|]. destruct (String.eqb x y); [|auto]. now intros [= <-].
  Qed.

  Lemma marked_all l : fold_right (fun x P => marked (written toks) (numbers toks) x /\ P) True l <-> Forall (marked (written toks) (numbers toks)) l.
  Proof.
    induction l as [|x l IH]; cbn [fold_right]; [split; [constructor|auto]|].
    rewrite IH. split; [intros [A B]; now constructor|]. intros F. inversion F; auto.
  Qed.
  Lemma marked_list l : marked (written toks) (numbers toks) (VList l) <-> Forall (marked (written toks) (numbers toks)) l.
  Proof. exact (marked_all l). Qed.
  Definition all_marks (k : string) (fs : list val) : Prop := node_marks (written toks) (numbers toks) k fs /\ operator_marks (written toks) k fs.
  Lemma marked_node k fs : marked (written toks) (numbers toks) (VNode k fs) <-> Forall (marked (written toks) (numbers toks)) fs /\ all_marks k fs.
  Proof. cbn [marked]. now rewrite marked_all. Qed.

  Lemma marked_field f v w : marked (written toks) (numbers toks) v -> get_field f v = Some w -> marked (written toks) (numbers toks) w.
  Proof.
    intros M G. destruct v as [| | | | | | | | | |k fs|]; try discriminate. apply marked_node in M as [M _]. unfold get_field in G.
    destruct (struct_fields k) as [fields|]; [|discriminate]. destruct (field_index f fields) as [i|]; [|discriminate].
    rewrite Forall_forall in M. apply M. eapply nth_error_In; eauto.
  Qed.

  (** * The tables *)

  Lemma av_marks_ok ms a v : av_marks ms a = true -> avok a v -> marks (written toks) ms v.
  Proof.
    intros C A. destruct a as [| |[l|] s|[| |[l|] s| |]|]; try discriminate; inversion A; subst; cbn [marks]; auto.
    - match goal with H : single _ _ _ |- _ => destruct H as (m & I & T) end. exists m. split; [eapply all_in_in; eauto|]. match goal with H : ex _ ?p ?q = _ |- _ => apply (tk_ex m p q); auto end.
    - match goal with H : avok (AExt _ _) _ |- _ => inversion H; subst end. cbn [marks].
      match goal with H : single _ _ _ |- _ => destruct H as (m & I & T) end. exists m. split; [eapply all_in_in; eauto|]. match goal with H : ex _ ?p ?q = _ |- _ => apply (tk_ex m p q); auto end.
  Qed.

  Lemma first_last_ok k a b v x : av_first_last k a b v = true -> avok v (VExt x) ->
    (In k may_be_empty /\ fst x = snd x) \/ (starts_with (written toks) a x /\ forall ms, b = Some ms -> ends_with (written toks) ms x).
  Proof.
    intros C A. destruct v as [| |one s| |]; try discriminate; inversion A as [| |? ? p q ? Vp Vq L X S _| | |]; subst.
    cbn [av_first_last] in C. apply andb_true_iff in C as [C C3]. apply andb_true_iff in C as [C1 C2].
    destruct (ex_end _ WF _ _ _ Vp Vq L X) as (F & O & E).
    destruct S as [[N ->]|[Fi La]].
    - left. rewrite N in C1. cbn [implb] in C1. apply existsb_exists in C1 as (k' & I & E'). apply String.eqb_eq in E'. subst k'. split; [auto|].
      destruct E as [[E _]|(_ & E & _)]; lia.
    - right. split.
      + destruct (fi s) as [l|]; [|discriminate]. destruct Fi as (m & p' & I & T & L').
        destruct (tk_mono _ _ _ Vp T) as [Vp' Lp]. destruct (tk_written _ _ _ Vp T) as (y & W & Y1 & Y2). exists y.
        split; [exists m; split; [exact (subset_in (Some l) (Some a) m C2 I)|auto]|]. split; [lia|]. rewrite Y2.
        pose proof (pos_off _ _ _ Vp' Vq L') as Oq. pose proof (tk_place _ _ _ T) as [[P1 P2]|[P1 P2]].
        * destruct E as [[E1 E2]|(E1 & _)]; [|lia]. rewrite E2. destruct (Nat.eq_dec (off p') (off q)) as [Eo|Eo].
          -- unfold SpansOk.teb, SpansOk.eb, prev_end. rewrite P2, Eo. lia.
          -- apply teb_eb; auto. lia.
        * destruct E as [[E1 E2]|(E1 & E2 & _)].
          -- rewrite E2. apply teb_eb; auto. lia.
          -- rewrite E2. pose proof (sb_mono _ WF _ _ Vp' Vq L'). pose proof (teb_sb _ WF _ Vp'). lia.
      + intros ms ->. destruct (la s) as [l|]; [|discriminate]. apply andb_true_iff in C3 as [C3 C4].
        destruct La as (m & q' & I & Vq' & L' & T). destruct (tk_mono _ _ _ Vq' T) as [_ Lp]. destruct (tk_written _ _ _ Vq' T) as (y & W & Y1 & Y2).
        rewrite forallb_forall in C4. pose proof (tk_whole _ _ _ Vq' T (C4 _ I)) as SN. exists y.
        split; [exists m; split; [eapply all_in_in; eauto|auto]|]. pose proof (sb_mono _ WF _ _ Vp Vq' L'). split; [|lia]. rewrite Y2.
        destruct E as [[E1 E2]|(E1 & E2 & E3)].
        * rewrite E2. unfold SpansOk.teb, SpansOk.eb. rewrite SN. cbn [sub_rank]. lia.
        * exfalso. apply E3; [lia|auto].
  Qed.

  Lemma names_eqb_eq a : forall b, names_eqb a b = true -> a = b.
  Proof.
    induction a as [|x a IH]; intros [|y b] H; try discriminate; auto. cbn [names_eqb] in H. apply andb_true_iff in H as [H1 H2].
    apply String.eqb_eq in H1. f_equal; auto.
  Qed.

  Lemma fields_assoc {A} (R : A -> val -> Prop) f : forall (fields : list (string * ty * bool)) (fs : list (string * A)) vs i v,
    map fst fs = map (fun x => fst (fst x)) fields -> Forall2 (fun b v => R (snd b) v) fs vs ->
    field_index f fields = Some i -> nth_error vs i = Some v -> exists a, assoc f fs = Some a /\ R a v.
  Proof.
    induction fields as [|[[n t] b] fields IH]; intros fs vs i v N F X Y; [discriminate|].
    destruct fs as [|[n' a] fs]; [discriminate|]. cbn [map fst] in N. injection N as -> N. inversion F as [|? w ? vs' H F']; subst.
    cbn [field_index] in X. cbn [assoc]. destruct (String.eqb f n).
    - injection X as <-. cbn [nth_error] in Y. injection Y as <-. eauto.
    - destruct (field_index f fields) as [j|] eqn:J; [|discriminate]. injection X as <-. cbn [nth_error] in Y. eauto.
  Qed.

  Lemma no_operator k fs : forallb (fun '(k', _, _, _, _) => negb (String.eqb k k')) operators = true ->
    forallb (fun '(k', _) => negb (String.eqb k k')) operator_ends = true -> operator_marks (written toks) k fs.
  Proof.
    intros C1 C2. rewrite forallb_forall in C1, C2. split.
    - intros o l r ms x I. specialize (C1 _ I). cbn beta iota in C1. rewrite String.eqb_refl in C1. discriminate.
    - intros ms x I. specialize (C2 _ I). cbn beta iota in C2. rewrite String.eqb_refl in C2. discriminate.
  Qed.

  Lemma node_chk_ok k fs vs : (forall f a v, assoc f fs = Some a -> get_field f (VNode k vs) = Some v -> avok a v) ->
    node_chk k fs = true -> all_marks k vs.
  Proof.
    intros G C. unfold node_chk in C. apply andb_true_iff in C as [C C4]. apply andb_true_iff in C as [C C3]. apply andb_true_iff in C as [C C2].
    apply andb_true_iff in C as [C0 C1].
    rewrite forallb_forall in C1, C2. split; [split; [|split]|now apply no_operator].
    3:{ intros ->. discriminate. }
    - intros f ms v I H. specialize (C1 _ I). cbn beta iota in C1. rewrite String.eqb_refl in C1. cbn [implb] in C1.
      destruct (assoc f fs) as [a|] eqn:A; [|discriminate]. exact (av_marks_ok _ _ _ C1 (G _ _ _ A H)).
    - intros a b x I H. specialize (C2 _ I). cbn beta iota in C2. rewrite String.eqb_refl in C2. cbn [implb] in C2.
      destruct (assoc "extent" fs) as [v|] eqn:A; [|discriminate]. eapply first_last_ok; eauto.
  Qed.

  Lemma fields_ok k fs vs : names_chk k (map fst fs) = true -> Forall2 (fun b v => avok (snd b) v) fs vs ->
    forall f a v, assoc f fs = Some a -> get_field f (VNode k vs) = Some v -> avok a v.
  Proof.
    intros N F f a v A G. unfold names_chk in N. unfold get_field in G. destruct (struct_fields k) as [fields|] eqn:S; [|discriminate].
    apply names_eqb_eq in N. destruct (field_index f fields) as [i|] eqn:I; [|discriminate].
    destruct (fields_assoc _ _ _ _ _ _ _ N F I G) as (a' & A' & H). congruence.
  Qed.

  (** Nodes that the tables say nothing about. *)
  Definition free (k : string) : bool :=
    negb (String.eqb k "Number") &&
    forallb (fun '(k', _, _) => negb (String.eqb k k')) markers && forallb (fun '(k', _, _) => negb (String.eqb k k')) first_last.
  Definition ofree (k : string) : bool :=
    forallb (fun '(k', _, _, _, _) => negb (String.eqb k k')) operators && forallb (fun '(k', _) => negb (String.eqb k k')) operator_ends.

  Lemma free_node k fs : free k = true -> node_marks (written toks) (numbers toks) k fs.
  Proof.
    unfold free. intros H. apply andb_true_iff in H as [H H2]. apply andb_true_iff in H as [H0 H1]. rewrite forallb_forall in H1, H2. split; [|split].
    3:{ intros ->. discriminate. }
    - intros f ms v I. specialize (H1 _ I). cbn beta iota in H1. rewrite String.eqb_refl in H1. discriminate.
    - intros a b x I. specialize (H2 _ I). cbn beta iota in H2. rewrite String.eqb_refl in H2. discriminate.
  Qed.

  Lemma free_marks k fs : free k = true -> ofree k = true -> all_marks k fs.
  Proof. unfold ofree. intros H1 H2. apply andb_true_iff in H2 as [H2 H3]. split; [now apply free_node|now apply no_operator]. Qed.

  Definition vfree (e t : string) : bool := forallb (fun '(e', t', _) => negb (String.eqb e e' && String.eqb t t')) payloads.

  Lemma vfree_marks e t v : vfree e t = true -> variant_marks (written toks) e t v.
  Proof.
    unfold vfree. intros H ms I. rewrite forallb_forall in H. specialize (H _ I). cbn beta iota in H. rewrite !String.eqb_refl in H. discriminate.
  Qed.

  Lemma efree_marks e t v : forallb (fun '(e', _, _) => negb (String.eqb e e')) payloads = true -> variant_marks (written toks) e t v.
  Proof.
    intros H ms I. rewrite forallb_forall in H. specialize (H _ I). cbn beta iota in H. rewrite !String.eqb_refl in H. discriminate.
  Qed.

  Lemma variant_chk_ok e t a v : variant_chk e t a = true -> avok a v -> variant_marks (written toks) e t v.
  Proof.
    unfold variant_chk. intros H A ms I. rewrite forallb_forall in H. specialize (H _ I). cbn beta iota in H. rewrite !String.eqb_refl in H. cbn [andb implb] in H.
    exact (av_marks_ok _ _ _ H A).
  Qed.

  (** * Expressions *)

  Lemma fields_eval pt e fs : forall vs, (fix go (fs : list (string * bexp)) : bres (list val) :=
      match fs with [] => BOk [] | (_, b) :: fs' => bbind (beval toks pt e b) (fun v => bbind (go fs') (fun l => BOk (v :: l))) end) fs = BOk vs ->
    Forall2 (fun f v => beval toks pt e (snd f) = BOk v) fs vs.
  Proof.
    induction fs as [|[n b] fs IH]; intros vs H; [injection H as <-; constructor|].
    destruct (beval toks pt e b) as [v|] eqn:B; cbn [bbind] in H; [|discriminate].
    match type of H with bbind ?r _ = _ => destruct r as [l|] eqn:G; cbn [bbind] in H; [|discriminate] end.
    injection H as <-. constructor; auto.
  Qed.

  Section Beval.
    Variables (se : menv) (e : env) (q : point).
    Hypothesis VQ : valid q.
    Hypothesis EO : envok se e q.
    Hypothesis EM : emarked e.

    Lemma bav_ok b : forall v, beval toks q e b = BOk v -> avok (bav se b) v.
    Proof.
      induction b; intros v0 B; cbn [bav]; try apply Av_any; cbn [beval] in B.
      - destruct (assoc x se) as [[s|a]|] eqn:A; try apply Av_any. destruct (EO _ _ A) as (w & E & O). rewrite E in B. injection B as <-. exact O.
      - destruct (assoc x se) as [[s|a]|] eqn:A; try apply Av_any. destruct (EO _ _ A) as (w & E & p0 & -> & V0 & L0 & S0).
        rewrite E in B. cbn [as_point bbind] in B. destruct (ex toks p0 q) as [y|] eqn:X; cbn [bbind] in B; [|discriminate]. injection B as <-.
        apply (Av_ext _ _ p0 q); auto. exact I.
      - injection B as <-. constructor.
      - destruct (beval toks q e b) as [w|]; cbn [bbind] in B; [|discriminate]. injection B as <-. constructor. auto.
      - destruct (beval toks q e b1) as [w1|]; cbn [bbind] in B; [|discriminate]. destruct (beval toks q e b2) as [w2|]; cbn [bbind] in B; [|discriminate].
        injection B as <-. constructor; auto.
      - destruct (beval toks q e b) as [w|]; cbn [bbind] in B; [|discriminate]. destruct w; try discriminate. injection B as <-.
        specialize (IHb _ eq_refl). destruct (bav se b); try apply Av_any. inversion IHb; auto.
      - destruct (beval toks q e b) as [w|]; cbn [bbind] in B; [|discriminate]. destruct w; try discriminate. injection B as <-.
        specialize (IHb _ eq_refl). destruct (bav se b); try apply Av_any. inversion IHb; auto.
      - destruct (beval toks q e b) as [w|]; cbn [bbind] in B; [|discriminate]. specialize (IHb _ eq_refl).
        destruct (bav se b) as [| |o s|[| |o s|a|a1 a2]|a1 a2]; try apply Av_any.
        + inversion IHb; subst. injection B as <-. constructor.
        + inversion IHb as [| | |?|? w' H|]; subst.
          * injection B as <-. constructor.
          * inversion H; subst. injection B as <-. constructor. auto.
    Qed.

    Lemma block_marked l b : Forall (marked (written toks) (numbers toks)) l -> Forall (marked (written toks) (numbers toks)) (fst (block_split l b)) /\ marked (written toks) (numbers toks) (snd (block_split l b)).
    Proof.
      intros F. destruct (block_cases l b) as [->|(en & l' & v & -> & ->)]; cbn [fst snd]; [split; [auto|exact I]|].
      apply Forall_app in F as [F1 F2]. split; [auto|]. inversion F2 as [|? ? H _]; subst. exact (proj2 H).
    Qed.

    Lemma number_marked n : numbers toks n -> marked (written toks) (numbers toks) (convert_number n).
    Proof.
      intros Nn. assert (forall o, marked (written toks) (numbers toks) (vopt o)) as O by (intros [x|]; exact I). unfold convert_number. apply marked_node. split.
      - repeat apply Forall_cons; try apply Forall_nil; try exact I. split; [apply vfree_marks; destruct (n_radix n); reflexivity|].
        apply marked_node. split; [repeat apply Forall_cons; try apply Forall_nil; try exact I; auto|]. apply free_marks; destruct (n_radix n); reflexivity.
      - assert (ofree "Number" = true) as F by reflexivity. apply andb_true_iff in F as [F1 F2]. split; [|now apply no_operator]. split; [|split].
        + intros f ms v I. exfalso. assert (forallb (fun '(k, _, _) => negb (String.eqb k "Number")) markers = true) as H by (vm_compute; reflexivity).
          rewrite forallb_forall in H. apply H in I. discriminate.
        + intros a b x I. exfalso. assert (forallb (fun '(k, _, _) => negb (String.eqb k "Number")) first_last = true) as H by (vm_compute; reflexivity).
          rewrite forallb_forall in H. apply H in I. discriminate.
        + intros _. exists n. split; [auto|]. split; [reflexivity|]. split; [reflexivity|].
          destruct (n_radix n); eexists; (split; [reflexivity|]); repeat split; reflexivity.
    Qed.

    Lemma mk_ok k fs vs : Forall2 (fun f v => beval toks q e (snd f) = BOk v) fs vs ->
      names_chk k (map fst fs) = true -> node_chk k (map (fun f => (fst f, bav se (snd f))) fs) = true -> all_marks k vs.
    Proof.
      intros F N C. eapply node_chk_ok; [|exact C]. eapply fields_ok; [rewrite map_map; exact N|].
      clear -F EO VQ. induction F as [|f v fs vs H F IH]; cbn [map]; constructor; auto. cbn [snd]. now apply bav_ok.
    Qed.

    Lemma paren_marked x l n a : Forall (marked (written toks) (numbers toks)) l -> avok a (VExt x) ->
      node_chk "Parenthetical" [("extent", a)] = true -> node_chk "Tuple" [("extent", a)] = true -> marked (written toks) (numbers toks) (paren_or_tuple x l n).
    Proof.
      intros F A C1 C2.
      assert (forall k t v, node_chk k [("extent", a)] = true -> field_index "extent" (match struct_fields k with Some l => l | None => [] end) = Some 0 ->
        vfree "Expression" t = true -> marked (written toks) (numbers toks) v -> marked (written toks) (numbers toks) (VVar "Expression" t (VNode k [VExt x; v; VList []]))) as H.
      { intros k t v C I T M. split; [now apply vfree_marks|]. apply marked_node. split; [repeat constructor; auto|].
        eapply node_chk_ok; [|exact C]. intros f b w Af G. cbn [assoc] in Af. destruct (String.eqb f "extent") eqn:E; [|discriminate].
        apply String.eqb_eq in E. subst f. injection Af as <-. unfold get_field in G. destruct (struct_fields k); [|discriminate]. rewrite I in G.
        cbn [nth_error] in G. now injection G as <-. }
      assert (marked (written toks) (numbers toks) (VVar "Expression" "Tuple" (VNode "Tuple" [VExt x; VList l; VList []]))) as T.
      { apply H; auto. now apply marked_list. }
      destruct l as [|v [|w l]]; [exact T| |exact T]. destruct n; [|exact T]. apply H; auto. now inversion F.
    Qed.

    Lemma bchk_ok b : bchk se b = true -> forall v, beval toks q e b = BOk v -> marked (written toks) (numbers toks) v.
    Proof.
      induction b as [y|y|y z| | | |b IH|b IH|b IH|b IH|b d IH IHd|k fs IH|en vn b IH|a b IHa IHb|b IH|b IH
                   |f b IH|b IH|b IH|b IH|b IH|s t IHs IHu|s t IHs IHu|s t IHs IHu|b IH] using bexp_ind'; intros C v B.
      - cbn [beval] in B. destruct (assoc y e) as [w|] eqn:A; [|discriminate]. injection B as <-. eapply assoc_marked; eauto.
      - cbn [beval] in B. destruct (as_point (assoc y e)); cbn [bbind] in B; [|discriminate]. destruct (ex toks _ q); cbn [bbind] in B; [|discriminate]. injection B as <-. exact I.
      - cbn [beval] in B. destruct (as_point (assoc y e)); cbn [bbind] in B; [|discriminate]. destruct (as_point (assoc z e)); cbn [bbind] in B; [|discriminate].
        destruct (ex toks _ _); cbn [bbind] in B; [|discriminate]. injection B as <-. exact I.
      - injection B as <-. exact I.
      - injection B as <-. exact I.
      - injection B as <-. exact I.
      - cbn [beval] in B. destruct (beval toks q e b) as [w|] eqn:W; cbn [bbind] in B; [|discriminate]. injection B as <-. exact (IH C _ eq_refl).
      - cbn [beval] in B. destruct (beval toks q e b) as [w|] eqn:W; cbn [bbind] in B; [|discriminate]. injection B as <-. split; [exact (IH C _ eq_refl)|exact I].
      - cbn [beval] in B. destruct (beval toks q e b) as [w|] eqn:W; cbn [bbind] in B; [|discriminate]. specialize (IH C _ eq_refl).
        destruct w; try discriminate; injection B as <-; [exact I|split; [exact IH|exact I]|exact IH].
      - cbn [beval] in B. destruct (beval toks q e b) as [w|] eqn:W; cbn [bbind] in B; [|discriminate]. specialize (IH C _ eq_refl).
        destruct w; try discriminate; injection B as <-; [exact I|exact IH].
      - cbn [beval] in B. cbn [bchk] in C. apply andb_true_iff in C as [C1 C2].
        destruct (beval toks q e b) as [w|] eqn:W; cbn [bbind] in B; [|discriminate]. specialize (IH C1 _ eq_refl).
        destruct w; try discriminate; [exact (IHd C2 _ B)|]. injection B as <-. exact IH.
      - cbn [beval] in B. cbn [bchk] in C. apply andb_true_iff in C as [C C3]. apply andb_true_iff in C as [C1 C2].
        match type of B with bbind ?r _ = _ => destruct r as [vs|] eqn:G; cbn [bbind] in B; [|discriminate] end. injection B as <-.
        apply fields_eval in G. apply marked_node. split; [|eapply mk_ok; eauto]. clear C1 C3.
        induction G as [|f v fs vs G1 G2 IHg]; [constructor|]. apply Forall_cons_iff in IH as [IH1 IH2]. destruct f as [fn fb].
        apply andb_true_iff in C2 as [C2 C2']. constructor; auto.
      - cbn [beval] in B. cbn [bchk] in C. apply andb_true_iff in C as [C1 C2].
        destruct (beval toks q e b) as [w|] eqn:W; cbn [bbind] in B; [|discriminate]. injection B as <-. split; [|exact (IH C1 _ eq_refl)].
        eapply variant_chk_ok; eauto. now apply bav_ok.
      - cbn [beval] in B. cbn [bchk] in C. apply andb_true_iff in C as [C1 C2].
        destruct (beval toks q e a) as [w|] eqn:W; cbn [bbind] in B; [|discriminate].
        destruct (beval toks q e b) as [w'|] eqn:W'; cbn [bbind] in B; [|discriminate]. injection B as <-. split; auto.
      - cbn [beval] in B. destruct (beval toks q e b) as [w|] eqn:W; cbn [bbind] in B; [|discriminate]. specialize (IH C _ eq_refl).
        destruct w; try discriminate. injection B as <-. apply IH.
      - cbn [beval] in B. destruct (beval toks q e b) as [w|] eqn:W; cbn [bbind] in B; [|discriminate]. specialize (IH C _ eq_refl).
        destruct w; try discriminate. injection B as <-. apply IH.
      - cbn [beval] in B. destruct (beval toks q e b) as [w|] eqn:W; cbn [bbind] in B; [|discriminate]. specialize (IH C _ eq_refl).
        destruct (get_field f w) as [u|] eqn:U; [|discriminate]. injection B as <-. eapply marked_field; eauto.
      - cbn [beval] in B. destruct (beval toks q e b) as [w|] eqn:W; cbn [bbind] in B; [|discriminate].
        destruct (extent_of w); [|discriminate]. injection B as <-. exact I.
      - cbn [beval] in B. destruct (beval toks q e b) as [w|] eqn:W; cbn [bbind] in B; [|discriminate].
        destruct w; try discriminate; injection B as <-; exact I.
      - cbn [beval] in B. destruct (beval toks q e b) as [w|] eqn:W; cbn [bbind] in B; [|discriminate]. specialize (IH C _ eq_refl).
        destruct w as [| | | | | | |w| | | |]; try discriminate; [injection B as <-; exact I|]. destruct w; try discriminate. injection B as <-. apply IH.
      - cbn [beval] in B. destruct (beval toks q e b) as [w|] eqn:W; cbn [bbind] in B; [|discriminate]. specialize (IH C _ eq_refl).
        destruct w as [| | | | | | |w| | | |]; try discriminate; [injection B as <-; exact I|]. destruct w; try discriminate. injection B as <-. apply IH.
      - cbn [beval] in B. cbn [bchk] in C. apply andb_true_iff in C as [C1 C2].
        destruct (beval toks q e s) as [w|] eqn:W; cbn [bbind] in B; [|discriminate].
        destruct (beval toks q e t) as [w'|] eqn:W'; cbn [bbind] in B; [|discriminate].
        destruct w as [| | | | | | | |l| | |]; try discriminate. destruct w'; try discriminate. injection B as <-.
        apply marked_list. apply block_marked. apply marked_list. auto.
      - cbn [beval] in B. cbn [bchk] in C. apply andb_true_iff in C as [C1 C2].
        destruct (beval toks q e s) as [w|] eqn:W; cbn [bbind] in B; [|discriminate].
        destruct (beval toks q e t) as [w'|] eqn:W'; cbn [bbind] in B; [|discriminate].
        destruct w as [| | | | | | | |l| | |]; try discriminate. destruct w'; try discriminate. injection B as <-.
        apply block_marked. apply marked_list. auto.
      - cbn [beval] in B. cbn [bchk] in C. apply andb_true_iff in C as [C C4]. apply andb_true_iff in C as [C C3]. apply andb_true_iff in C as [C1 C2].
        destruct (beval toks q e s) as [w|] eqn:W; cbn [bbind] in B; [|discriminate].
        destruct (beval toks q e t) as [w'|] eqn:W'; cbn [bbind] in B; [|discriminate]. specialize (IHu C2 _ eq_refl). pose proof (bav_ok _ _ W) as A.
        destruct w as [x| | | | | | | | | | |]; try discriminate. destruct w' as [| | | | | | | | |w1 w2| |]; try discriminate.
        destruct w1 as [| | | | | | | |l| | |]; try discriminate. destruct w2 as [| | | | | | | | |w3 w4| |]; try discriminate. destruct w3; try discriminate.
        injection B as <-. eapply paren_marked; eauto. apply marked_list. apply IHu.
      - cbn [beval] in B. destruct (beval toks q e b) as [w|] eqn:W; cbn [bbind] in B; [|discriminate].
        destruct w; try discriminate. injection B as <-. apply number_marked. exact (IH C _ eq_refl).
    Qed.
  End Beval.

  (** * Derivations *)

  Definition der_m (x : g) (e : env) (p q : point) (v : val) : Prop := valid p -> forall se, envok se e p -> emarked e -> mchk se x = true ->
    marked (written toks) (numbers toks) v /\ avok (tav se x) v.
  Definition ders_m (steps : list (pat * g)) (e : env) (p : point) (e' : env) (q : point) : Prop := valid p -> forall se, envok se e p -> emarked e -> mchk_steps mchk steps se = true ->
    envok (mwalk tav steps se) e' q /\ emarked e'.
  Definition items_m (f : g) e p (vs : list val) : Prop := valid p -> forall se, envok se e p -> weak se = se -> emarked e -> mchk se f = true ->
    Forall (marked (written toks) (numbers toks)) vs.
  Definition etree_m (c : car val) : Prop := valid (c_spt c) -> marked (written toks) (numbers toks) (c_val c).

  Lemma weak_idem se : weak (weak se) = weak se.
  Proof. unfold weak. rewrite map_map. apply map_ext. intros [x [s|a]]; reflexivity. Qed.

  Lemma nav_table n : nav n = tav [] (table n).
  Proof.
    unfold nav, lookup. rewrite <- nav_checked. apply nth_error_nth. rewrite nth_error_map, all_nts_nth. reflexivity.
  Qed.

  Lemma nt_m n p q v : der_m (table n) [] p q v -> valid p -> marked (written toks) (numbers toks) v /\ avok (nav n) v.
  Proof.
    intros H V. rewrite nav_table. apply H; auto; [intros x t A; discriminate|constructor|].
    pose proof mchk_checked as C. rewrite forallb_forall in C. apply C. apply all_nts_complete.
  Qed.

  Lemma gnt_m n p q v : der_m (GNT n) [] p q v -> valid p -> marked (written toks) (numbers toks) v.
  Proof. intros H V. apply (H V []); auto; [intros x t A; discriminate|constructor]. Qed.

  Lemma attributed_marked x attrs v : marked (written toks) (numbers toks) attrs -> marked (written toks) (numbers toks) v ->
    marked (written toks) (numbers toks) (VNode "Attributed<Expression>" [VExt x; attrs; v; VList []]).
  Proof. intros M1 M2. apply marked_node. split; [repeat constructor; auto|]. apply free_marks; reflexivity. Qed.

  Lemma into_attributed_marked x v : marked (written toks) (numbers toks) v -> marked (written toks) (numbers toks) (into_attributed x v).
  Proof. intros M. apply attributed_marked; [exact I|auto]. Qed.

  Lemma expr_marked v k fs : vfree "Expression" v = true -> Forall (marked (written toks) (numbers toks)) fs ->
    node_marks (written toks) (numbers toks) k fs -> operator_marks (written toks) k fs -> marked (written toks) (numbers toks) (expr_node v k fs).
  Proof. intros F M N O. split; [now apply vfree_marks|]. apply marked_node. split; [auto|split; auto]. Qed.

  (** * Operators *)

  (** Every entry for [k], with the operator [o], has the token [m] and the fields [l] and [r]. *)
  Definition op_has (k : string) (o : option string) (m : matcher) (l r : string) : bool :=
    forallb (fun '(k', o', l', r', ms) => implb (String.eqb k k')
      match o', o with
      | Some t', Some t => implb (String.eqb t t') (mem m ms && String.eqb l l' && String.eqb r r')
      | None, _ => mem m ms && String.eqb l l' && String.eqb r r'
      | Some _, None => false
      end) operators.

  Definition op_fields (o : option string) (v : val) : Prop :=
    match o with Some t => exists e w, get_field "op" v = Some (VVar e t w) | None => True end.

  Lemma op_node k o m l r fs y : op_has k o m l r = true -> op_fields o (VNode k fs) -> written toks m y ->
    (forall x, get_field "extent" (VNode k fs) = Some (VExt x) -> fst x <= fst y /\ snd y <= snd x) ->
    Forall (fun z => snd z <= fst y) (side l (VNode k fs)) -> Forall (fun z => snd y <= fst z) (side r (VNode k fs)) ->
    (forall ms x, In (k, ms) operator_ends -> get_field "extent" (VNode k fs) = Some (VExt x) -> ends_with (written toks) ms x) ->
    operator_marks (written toks) k fs.
  Proof.
    intros H F W X L R E. split; [|exact E]. intros o' l' r' ms x I O G. destruct (X _ G) as [X1 X2].
    unfold op_has in H. rewrite forallb_forall in H. specialize (H _ I). cbn beta iota in H. rewrite String.eqb_refl in H. cbn [implb] in H.
    assert (mem m ms && String.eqb l l' && String.eqb r r' = true) as C.
    { destruct o' as [t'|]; [|auto]. destruct o as [t|]; [|discriminate]. destruct F as (e & w & F). destruct O as (e' & w' & O).
      rewrite F in O. injection O as _ -> _. rewrite String.eqb_refl in H. exact H. }
    apply andb_true_iff in C as [C C3]. apply andb_true_iff in C as [C1 C2]. apply mem_in in C1. apply String.eqb_eq in C2, C3. subst.
    exists y. split; [exists m; auto|]. auto.
  Qed.

  Lemma no_end k fs : forallb (fun '(k', _) => negb (String.eqb k k')) operator_ends = true ->
    forall ms x, In (k, ms) operator_ends -> get_field "extent" (VNode k fs) = Some (VExt x) -> ends_with (written toks) ms x.
  Proof. intros C ms x I. rewrite forallb_forall in C. specialize (C _ I). cbn beta iota in C. rewrite String.eqb_refl in C. discriminate. Qed.

  (** Where the token of an operator lies. *)
  Lemma op_place s a b e m x : valid s -> valid a -> valid e -> pos s <= pos a -> tk m a b -> pos b <= pos e ->
    off s < off e -> off b < off e \/ sub b = None -> ex toks s e = BOk x ->
    exists y, written toks m y /\ fst x <= fst y /\ snd y <= snd x /\ fst y = sb a /\ snd y <= sb b.
  Proof.
    intros Vs Va Ve L1 T L2 O OB X. destruct (tk_mono _ _ _ Va T) as [Vb Lab]. destruct (tk_written _ _ _ Va T) as (y & W & Y1 & Y2).
    destruct (ex_end _ WF _ _ _ Vs Ve ltac:(lia) X) as (F & _ & [[_ E]|[E _]]); [|lia]. exists y. split; [auto|].
    pose proof (sb_mono _ WF _ _ Vs Va L1). pose proof (teb_sb _ WF _ Vb). split; [lia|]. split; [|split; lia]. rewrite Y2, E.
    destruct OB as [OB|SN]; [now apply teb_eb|]. pose proof (eb_mono _ WF _ _ Vb Ve L2). unfold SpansOk.teb, SpansOk.eb in *. rewrite SN in *. cbn [sub_rank] in *. lia.
  Qed.

  Lemma left_of v lo a (y : extent) : Forall (inside lo (sb a)) (extents v) -> fst y = sb a -> Forall (fun z => snd z <= fst y) (extents v).
  Proof. intros H E. eapply Forall_impl; [|exact H]. unfold inside. intros z. lia. Qed.
  Lemma right_of v b hi (y : extent) : Forall (inside (sb b) hi) (extents v) -> snd y <= sb b -> Forall (fun z => snd y <= fst z) (extents v).
  Proof. intros H E. eapply Forall_impl; [|exact H]. unfold inside. intros z. lia. Qed.

  Lemma der_tk m err e p q v : der toks (GTok m err) e p q v -> tk m p q.
  Proof. intros D. apply inv_tok in D as (N & pm & T). split; eauto. Qed.

  Lemma etree_inside c : etree toks c -> valid (c_spt c) -> Forall (inside (sb (c_spt c)) (sb (c_ept c))) (extents (c_val c)).
  Proof. intros T V. apply (proj2 (proj2 (proj2 (proj2 (spans_all toks WF NUM))))) in T. destruct (T V) as [[A _] _]. exact A. Qed.

  Lemma inv_infix p q en v : der toks (GNT N_expression_infix_or_postfix) [] p q (VVar en "Infix" v) -> der toks (GNT N_operator_infix) [] p q v.
  Proof.
    intros D. apply inv_nt in D. cbn [table] in D. apply inv_alt in D as (x & I & D).
    destruct I as [<-|[<-|[]]]; apply inv_wrap in D as (w & E & D); [injection E as _ <-; exact D|discriminate].
  Qed.
  Lemma inv_postfix p q en v : der toks (GNT N_expression_infix_or_postfix) [] p q (VVar en "Postfix" v) -> der toks (GNT N_operator_postfix) [] p q v.
  Proof.
    intros D. apply inv_nt in D. cbn [table] in D. apply inv_alt in D as (x & I & D).
    destruct I as [<-|[<-|[]]]; apply inv_wrap in D as (w & E & D); [discriminate|injection E as _ <-; exact D].
  Qed.

  (** The tokens of infix operators. *)
  Definition infix_has (t : string) (m : matcher) : bool :=
    if String.eqb t "RangeInclusive" then op_has "RangeInclusive" None m "lhs" "rhs"
    else if String.eqb t "RangeExclusive" then op_has "Range" None m "lhs" "rhs"
    else op_has "Binary" (Some t) m "lhs" "rhs".

  Lemma range_tk e p q v : der toks (GNT N_range_inclusive_operator) e p q v ->
    exists m, In m (words [KTriplePeriod; KDoublePeriodEquals]) /\ tk m p q.
  Proof.
    intros D. apply (proj1 single_all) in D. unfold tone in D. cbn [oneg] in D.
    assert (none N_range_inclusive_operator = Some (words [KTriplePeriod; KDoublePeriodEquals]) \/
            none N_range_inclusive_operator = Some (words [KDoublePeriodEquals; KTriplePeriod])) as E by (vm_compute; auto).
    destruct E as [E|E]; rewrite E in D; destruct D as (m & I & T); exists m; (split; [|auto]); cbn in I |- *; tauto.
  Qed.

  Lemma infix_tk e p q en t w : der toks (GNT N_operator_infix) e p q (VVar en t w) -> exists m, tk m p q /\ infix_has t m = true.
  Proof.
    intros D. apply inv_nt in D. cbn [table] in D. apply inv_alt in D as (x & I & D). cbn [In] in I.
    repeat (destruct I as [<-|I];
      [apply inv_wrap in D as (w' & E & D); injection E as _ -> _;
       first [apply der_tk in D; eexists; split; [exact D|vm_compute; reflexivity]
             |apply range_tk in D as (m & Im & T); exists m; split; [exact T|]; cbn in Im; destruct Im as [<-|[<-|[]]]; vm_compute; reflexivity]|]).
    destruct I.
  Qed.

  Definition prefix_has (t : string) (m : matcher) : bool :=
    if String.eqb t "Dereference" then op_has "Dereference" None m "" "target"
    else if String.eqb t "Reference" then op_has "Reference" None m "" "target"
    else if String.eqb t "Box" then op_has "ExpressionBox" None m "" "target"
    else if String.eqb t "RangeInclusive" then op_has "RangeInclusive" None m "lhs" "rhs"
    else if String.eqb t "RangeExclusive" then op_has "Range" None m "lhs" "rhs"
    else op_has "Unary" (Some t) m "" "value".

  (** The token of a prefix operator comes first; [mut] may follow [&]. *)
  Lemma prefix_tk e p q v : der toks (GNT N_operator_prefix) e p q v -> valid p ->
    exists t w m b, v = VVar "OperatorPrefix" t w /\ tk m p b /\ valid b /\ pos b <= pos q /\ prefix_has t m = true.
  Proof.
    intros D V. apply inv_nt in D. cbn [table] in D. apply inv_alt in D as (x & I & D). cbn [In] in I.
    assert (forall m, tk m p q -> valid q) as K by (intros m T; now apply (tk_mono _ _ _ V T)).
    repeat (destruct I as [<-|I];
      [apply inv_wrap in D as (w' & -> & D);
       first [apply der_tk in D; do 4 eexists; split; [reflexivity|]; split; [exact D|]; split; [eauto|]; split; [lia|vm_compute; reflexivity]
             |apply range_tk in D as (m & Im & T); do 2 eexists; exists m, q; split; [reflexivity|]; split; [exact T|]; split; [eauto|]; split; [lia|]; cbn in Im; destruct Im as [<-|[<-|[]]]; vm_compute; reflexivity]|]).
    destruct I as [<-|[]]. apply inv_nt in D. cbn [table] in D. apply inv_seq in D as (e' & D & B).
    apply inv_steps in D as (b & w1 & e1 & D1 & P1 & D). apply der_tk in D1. destruct (tk_mono _ _ _ V D1) as [Vb Lb].
    destruct (ders_mono _ WF _ _ _ _ _ D Vb) as [_ L]. cbn [beval] in B.
    destruct (assoc "is_mutable" e') as [w|]; cbn [bbind] in B; [|discriminate]. injection B as <-.
    do 4 eexists. split; [reflexivity|]. split; [exact D1|]. split; [auto|]. split; [lia|vm_compute; reflexivity].
  Qed.

  (** A postfix operator is a token, then what it is applied to. *)
  Definition postfix_has (t : string) (m : matcher) : bool :=
    if String.eqb t "FieldAccess" then op_has "FieldAccess" None m "target" "field"
    else if String.eqb t "Call" then op_has "Call" None m "target" "args"
    else if String.eqb t "Slice" then op_has "Slice" None m "target" "index"
    else if String.eqb t "AsType" then op_has "AsType" None m "target" "typ"
    else if String.eqb t "Ascription" then op_has "Ascription" None m "target" "typ"
    else op_has "TryOperator" None m "target" "".

  Definition postfix_end (t : string) : option matcher :=
    if String.eqb t "Call" then Some (MK KRightParen) else if String.eqb t "Slice" then Some (MK KRightSquare)
    else if String.eqb t "Try" then Some (MK KQuestionMark) else None.

  Definition postfix_read (p q : point) (v : val) : Prop :=
    exists t w m b, v = VVar "OperatorPostfix" t w /\ In t ["FieldAccess"; "Call"; "Slice"; "AsType"; "Ascription"; "Try"] /\
      tk m p b /\ valid b /\ sub b = None /\ pos b <= pos q /\ postfix_has t m = true /\
      (t <> "Try" -> Forall (inside (sb b) (sb q)) (extents w)) /\
      (forall m', postfix_end t = Some m' -> exists c, valid c /\ pos p <= pos c /\ tk m' c q /\ sub q = None).

  Lemma der_inside x e p q v r : der toks x e p q v -> valid p -> Spans.tchk [] 0 Spans.still x = Some r -> Forall (inside (sb p) (sb q)) (extents v).
  Proof. intros D V C. exact (rv_in _ _ _ _ _ _ (der_top toks _ _ _ _ _ _ (proj1 (spans_all toks WF NUM) _ _ _ _ _ D) V C)). Qed.

  Lemma try_read e p q v : der toks (GSeq [(PVar "x", t_question_mark)] (BVariant "OperatorPostfix" "Try" (BVar "x"))) e p q v -> valid p ->
    postfix_read p q v.
  Proof.
    intros D V. apply inv_wrap in D as (w & -> & D). apply der_tk in D. destruct (tk_mono _ _ _ V D) as [Vq L].
    pose proof (tk_whole _ _ _ V D eq_refl) as S. do 4 eexists. split; [reflexivity|]. split; [cbn; tauto|]. split; [exact D|].
    split; [auto|]. split; [auto|]. split; [lia|]. split; [vm_compute; reflexivity|]. split; [congruence|].
    intros m' E. vm_compute in E. injection E as <-. exists p. auto.
  Qed.

  Lemma wrapped_read t m err x y e p q v :
    der toks (GSeq [(PVar "_", GTok m err); (PVar x, y)] (BVariant "OperatorPostfix" t (BVar x))) e p q v -> valid p ->
    whole_matcher m = true -> In t ["FieldAccess"; "AsType"; "Ascription"] -> postfix_has t m = true -> (exists r, Spans.tchk [] 0 Spans.still y = Some r) ->
    postfix_read p q v.
  Proof.
    intros D V W I H (r & C). apply inv_seq in D as (e' & D & B). apply inv_steps in D as (b & w1 & e1 & D1 & P1 & D).
    apply inv_steps in D as (q' & w & e2 & D2 & P2 & D). apply inv_nil in D as [-> ->]. cbn [bind_pat] in P2. injection P2 as <-.
    cbn [beval assoc] in B. rewrite String.eqb_refl in B. cbn [bbind] in B. injection B as <-.
    apply der_tk in D1. destruct (tk_mono _ _ _ V D1) as [Vb Lb]. destruct (der_mono _ WF _ _ _ _ _ D2 Vb) as [Vq Lq].
    exists t, w, m, b. split; [reflexivity|]. split; [cbn in I |- *; tauto|]. split; [auto|]. split; [auto|]. split; [exact (tk_whole _ _ _ V D1 W)|].
    split; [lia|]. split; [auto|]. split; [intros _; eapply der_inside; eauto|].
    intros m' E. exfalso. destruct I as [<-|[<-|[<-|[]]]]; discriminate.
  Qed.

  Lemma closed_read t m err m' err' x y e p q v :
    der toks (GSeq [(PVar "_", GTok m err); (PVar x, y); (PVar "_", GTok m' err')] (BVariant "OperatorPostfix" t (BVar x))) e p q v -> valid p ->
    whole_matcher m = true -> whole_matcher m' = true -> String.eqb x "_" = false -> In t ["Call"; "Slice"] -> postfix_has t m = true ->
    postfix_end t = Some m' -> (exists r, Spans.tchk [] 0 Spans.still y = Some r) -> postfix_read p q v.
  Proof.
    intros D V W W' NE I H PE (r & C). apply inv_seq in D as (e' & D & B). apply inv_steps in D as (b & w1 & e1 & D1 & P1 & D).
    apply inv_steps in D as (c & w & e2 & D2 & P2 & D). apply inv_steps in D as (q' & w3 & e3 & D3 & P3 & D). apply inv_nil in D as [-> ->].
    cbn [bind_pat] in P2, P3. injection P2 as <-. injection P3 as <-.
    cbn [beval assoc] in B. rewrite NE, String.eqb_refl in B. cbn [bbind] in B. injection B as <-.
    apply der_tk in D1. destruct (tk_mono _ _ _ V D1) as [Vb Lb]. destruct (der_mono _ WF _ _ _ _ _ D2 Vb) as [Vc Lc].
    apply der_tk in D3. destruct (tk_mono _ _ _ Vc D3) as [Vq Lq].
    exists t, w, m, b. split; [reflexivity|]. split; [cbn in I |- *; tauto|]. split; [auto|]. split; [auto|]. split; [exact (tk_whole _ _ _ V D1 W)|].
    split; [lia|]. split; [auto|]. split.
    - intros _. pose proof (sb_mono _ WF _ _ Vc Vq ltac:(lia)). eapply Forall_impl; [|eapply der_inside; eauto]. unfold inside. intros z. lia.
    - rewrite PE. intros m2 [= <-]. exists c. split; [auto|]. split; [lia|]. split; [auto|]. exact (tk_whole _ _ _ Vc D3 W').
  Qed.

  Lemma access_read e p q v : der toks (GNT N_operator_postfix_field_access) e p q v -> valid p -> postfix_read p q v.
  Proof.
    intros D V. apply inv_nt in D. cbn [table] in D.
    eapply wrapped_read; [exact D|exact V|reflexivity|cbn; tauto|vm_compute; reflexivity|eexists; vm_compute; reflexivity].
  Qed.

  Lemma postfix_tk e p q v : der toks (GNT N_operator_postfix) e p q v -> valid p -> postfix_read p q v.
  Proof.
    intros D V. apply inv_nt in D. cbn [table] in D. apply inv_alt in D as (x & I & D).
    destruct I as [<-|[<-|[<-|[<-|[<-|[<-|[]]]]]]].
    - apply inv_nt in D. cbn [table] in D. eapply wrapped_read; [exact D|exact V|reflexivity|cbn; tauto|vm_compute; reflexivity|eexists; vm_compute; reflexivity].
    - apply inv_nt in D. cbn [table] in D. eapply wrapped_read; [exact D|exact V|reflexivity|cbn; tauto|vm_compute; reflexivity|eexists; vm_compute; reflexivity].
    - apply inv_nt in D. cbn [table] in D. eapply closed_read; [exact D|exact V|reflexivity|reflexivity|reflexivity|cbn; tauto|vm_compute; reflexivity|reflexivity|eexists; vm_compute; reflexivity].
    - eapply access_read; eauto.
    - apply inv_nt in D. cbn [table] in D. eapply closed_read; [exact D|exact V|reflexivity|reflexivity|reflexivity|cbn; tauto|vm_compute; reflexivity|reflexivity|eexists; vm_compute; reflexivity].
    - eapply try_read; eauto.
  Qed.

  Lemma postfix_limited_tk e p q v : der toks (GNT N_operator_postfix_limited) e p q v -> valid p -> postfix_read p q v.
  Proof.
    intros D V. apply inv_nt in D. cbn [table] in D. apply inv_alt in D as (x & I & D). destruct I as [<-|[<-|[]]].
    - eapply access_read; eauto.
    - eapply try_read; eauto.
  Qed.

  Ltac fields := repeat apply Forall_cons; try apply Forall_nil; try exact I; try (split; [apply efree_marks; reflexivity|exact I]).

  Lemma reference_marks x m v : variant_marks (written toks) "OperatorPrefix" "Reference" m ->
    node_marks (written toks) (numbers toks) "Reference" [VExt x; m; v; VList []].
  Proof.
    intros M1. split; [|split; [|discriminate]].
    - intros f ms w I G.
      assert (f = "is_mutable" /\ ms = words [KMut]) as [-> ->].
      { unfold markers in I. apply in_map_iff in I as ([[k f'] l] & E & I). injection E as -> -> <-.
        cbn [In] in I. repeat (destruct I as [I|I]; [try discriminate I; injection I as <- <-; auto|]). destruct I. }
      cbn in G. injection G as <-. apply M1. unfold payloads. apply in_app_iff. left. apply in_map_iff.
      exists ("OperatorPrefix", "Reference", [KMut]). split; [reflexivity|]. cbn [In]. tauto.
    - intros a b y I. exfalso. assert (forallb (fun '(k, _, _) => negb (String.eqb "Reference" k)) first_last = true) as H by reflexivity.
      rewrite forallb_forall in H. specialize (H _ I). discriminate.
  Qed.

  Lemma end_with s c e m x : valid s -> valid c -> pos s <= pos c -> tk m c e -> sub e = None -> off s < off e -> ex toks s e = BOk x ->
    exists y, written toks m y /\ snd y = snd x /\ fst x <= fst y.
  Proof.
    intros Vs Vc L T SN O X. destruct (tk_mono _ _ _ Vc T) as [Ve L2]. destruct (tk_written _ _ _ Vc T) as (y & W & Y1 & Y2). exists y. split; [auto|].
    destruct (ex_end _ WF _ _ _ Vs Ve ltac:(lia) X) as (F & _ & [[_ E]|[E _]]); [|lia]. pose proof (sb_mono _ WF _ _ Vs Vc L). split; [|lia].
    rewrite Y2, E. unfold SpansOk.teb, SpansOk.eb. rewrite SN. cbn [sub_rank]. lia.
  Qed.

  Lemma postfix_marked c e op c' : etree toks c -> valid (c_spt c) -> marked (written toks) (numbers toks) (c_val c) -> marked (written toks) (numbers toks) op ->
    postfix_read (c_ept c) e op -> valid e ->
    apply_one toks [c] (OpPostfix op) (c_ept c) e = AOk [c'] -> marked (written toks) (numbers toks) (c_val c').
  Proof.
    intros T V M1 M2 (t & w & m & b & -> & I & K & Vb & SN & Lb & H & Iw & En) Ve A. cbn [apply_one] in A. destruct M2 as [_ M2].
    destruct (etree_mono _ WF _ T V) as [V1 L1]. pose proof (etree_adv _ WF _ T V) as O. destruct (tk_mono _ _ _ V1 K) as [_ L2].
    pose proof (pos_off _ _ _ V1 Ve ltac:(lia)) as O2. pose proof (etree_inside _ T V) as Il.
    assert (forall x, ex toks (c_spt c) e = BOk x -> exists y, written toks m y /\ fst x <= fst y /\ snd y <= snd x /\ fst y = sb (c_ept c) /\ snd y <= sb b) as P.
    { intros x X. apply (op_place (c_spt c) (c_ept c) b e); auto. lia. }
    assert (forall x m', ex toks (c_spt c) e = BOk x -> postfix_end t = Some m' -> exists y, written toks m' y /\ snd y = snd x /\ fst x <= fst y) as Q.
    { intros x m' X PE. destruct (En _ PE) as (d & Vd & Ld & Td & Sd). apply (end_with (c_spt c) d e); auto; lia. }
    assert (forall k, (postfix_end t = None /\ forallb (fun '(k', _) => negb (String.eqb k k')) operator_ends = true) \/
              (exists m', postfix_end t = Some m' /\ forallb (fun '(k', ms) => implb (String.eqb k k') (mem m' ms)) operator_ends = true) ->
            forall x fs, ex toks (c_spt c) e = BOk x -> get_field "extent" (VNode k fs) = Some (VExt x) ->
            forall ms x', In (k, ms) operator_ends -> get_field "extent" (VNode k fs) = Some (VExt x') -> ends_with (written toks) ms x') as R.
    { intros k C x fs X G ms x' J G'. rewrite G in G'. injection G' as <-. destruct C as [[_ C]|(m' & PE & C)]; rewrite forallb_forall in C; specialize (C _ J);
        cbn beta iota in C; rewrite String.eqb_refl in C; [discriminate|]. apply mem_in in C. destruct (Q _ _ X PE) as (y & W & Y).
      exists y. split; [exists m'; auto|auto]. }
    unfold postfix_has in H. cbn [In] in I. destruct I as [<-|[<-|[<-|[<-|[<-|[<-|[]]]]]]]; cbn [String.eqb Ascii.eqb Bool.eqb] in A, H;
      apply apply_postfix_val in A as (x & X & ->); destruct (P x X) as (y & Wy & Y1 & Y2 & Y3 & Y4); apply into_attributed_marked;
      (apply expr_marked; [reflexivity|fields; auto|apply free_node; reflexivity|]);
      (eapply op_node; [exact H|exact I|exact Wy
        |cbn; intros x' [= <-]; auto
        |unfold side; cbn [get_field struct_fields]; cbn -[extents]; eapply left_of; eauto
        |unfold side; cbn -[extents]; first [apply Forall_nil|eapply right_of; [apply Iw; discriminate|auto]]
        |eapply R; [|exact X|reflexivity]; first [left; split; reflexivity|right; eexists; split; reflexivity]]).
  Qed.

  Lemma side_opt v lo a (y : extent) : v = VNone \/ (exists w, v = VSome w /\ Forall (inside lo (sb a)) (extents w)) -> fst y = sb a ->
    Forall (fun z => snd z <= fst y) (extents v).
  Proof. intros [->|(w & -> & H)] E; [constructor|]. eapply left_of; eauto. Qed.

  Theorem marks_all :
    (forall x e p q v, der toks x e p q v -> der_m x e p q v) /\
    (forall steps e p e' q, ders toks steps e p e' q -> ders_m steps e p e' q) /\
    (forall so f e p q vs, items toks so f e p q vs -> items_m f e p vs) /\
    (forall so e p q, between toks so e p q -> True) /\
    (forall c, etree toks c -> etree_m c).
  Proof.
    apply (der_all toks der_m ders_m (fun so f e p q vs => items_m f e p vs) (fun so e p q => True) etree_m); auto.
    - (* GTok *) intros m err e p q v pm N T V se E M C. destruct m as [k|].
      + destruct (tok_ext _ _ _ _ _ _ V N T) as (x & -> & _ & _ & X). split; [exact I|].
        assert (tk (MK k) p q) as K by (split; [auto|]; eauto). destruct (tk_mono _ _ _ V K) as [Vq L].
        apply (Av_ext _ _ p q); auto; [lia| |exists (MK k); split; [now left|auto]].
        right. split; [exists (MK k), q|exists (MK k), p]; repeat split; auto; try apply K; now left.
      + destruct (tk_number _ _ _ _ _ V T) as (n & -> & Hn & _). split; [exact (nth_error_In _ _ Hn)|apply Av_any].
    - (* GNT *) intros n e p q v D IH V se E M C. apply (nt_m _ _ _ _ IH V).
    - (* GPoint *) intros e p V se E M C. split; [exact I|apply Av_any].
    - (* GSeq *) intros steps b e e' p q v D IH B V se E M C. cbn [mchk] in C. apply andb_true_iff in C as [C1 C2].
      destruct (IH V se E M C1) as [E' M']. destruct (ders_mono _ WF _ _ _ _ _ D V) as [Vq _].
      split; [eapply bchk_ok; eauto|]. unfold tav. cbn [avg]. eapply bav_ok; eauto.
    - (* GAlt *) intros gs x e p q v I D IH V se E M C. cbn [mchk] in C. rewrite forallb_forall in C.
      destruct (IH V se E M (C _ I)) as [M' A]. split; [auto|]. unfold tav. cbn [avg]. fold tav. destruct gs as [|y gs]; [destruct I|].
      clear -I A WF. destruct I as [->|I].
      + induction gs as [|z gs IH]; cbn [fold_right]; [auto|]. now apply (proj2 (av_or_ok _ _ _)).
      + induction gs as [|z gs IH]; [destruct I|]. cbn [fold_right]. destruct I as [->|I]; [now apply (proj1 (av_or_ok _ _ _))|].
        apply (proj2 (av_or_ok _ _ _)). auto.
    - (* GOpt *) intros x e p q v D IH V se E M C. destruct (IH V se E M C) as [M' A]. split; [auto|]. now apply Av_opt.
    - intros x e p V se E M C. split; [exact I|apply Av_opt0].
    - (* GMany *) intros x e p q l D IH V se E M C. split; [|apply Av_any]. apply marked_list.
      apply (IH V (weak se)); auto; [eapply envok_weak; eauto|apply weak_idem].
    - (* GTailed *) intros app sep f e p q l vs n b B D IH Ch V se E M C. split; [|apply Av_any]. cbn [mchk] in C.
      apply andb_true_iff in C as [C C3]. apply andb_true_iff in C as [C1 C2]. split; [|split; exact I]. apply marked_list. apply Forall_app. split.
      + apply marked_list. eapply bchk_ok; eauto.
      + apply (IH V (weak se)); auto; [eapply envok_weak; eauto|apply weak_idem].
    - intros sep f e p q vs n b D IH NE Ch V se E M C. split; [|apply Av_any]. cbn [mchk] in C. apply andb_true_iff in C as [C1 C2].
      split; [|split; exact I]. apply marked_list. apply (IH V (weak se)); auto; [eapply envok_weak; eauto|apply weak_idem].
    - intros sep f e p p1 q vs Bt _ D IH Ch V se E M C. split; [|apply Av_any]. cbn [mchk] in C. apply andb_true_iff in C as [C1 C2].
      destruct (between_mono _ WF _ _ _ _ Bt V) as [V1 L1].
      apply marked_list. apply (IH V1 (weak se)); auto; [eapply envok_weak; eauto|apply weak_idem].
    - intros sep f e p V se E M C. split; [exact I|apply Av_any].
    - intros sep f e p q vs n b D IH Ch V se E M C. split; [|apply Av_any]. cbn [mchk] in C. apply andb_true_iff in C as [C1 C2].
      split; [|split; exact I]. apply marked_list. apply (IH V (weak se)); auto; [eapply envok_weak; eauto|apply weak_idem].
    - (* GNested *) intros o c e p q v pm S R V se E M C. split; [|apply Av_any].
      destruct (nested_ok _ WF o c pm p V S) as (q' & x & R' & _). rewrite R' in R. injection R as <- <-. exact I.
    - (* GExt *) intros x e p q v r D IH X V se E M C. destruct (der_mono _ WF _ _ _ _ _ D V) as [Vq L]. split; [exact I|].
      apply (Av_ext _ _ p q); auto; [eapply der_sem; eauto|eapply (proj1 single_all); eauto].
    - (* GPeek *) intros x e p q v D IH V se E M C. split; [exact I|apply Av_any].
    - (* GSimple *) intros x err e p q n r D IH S V se E M C. split; [exact I|].
      unfold tav. cbn [avg]. destruct x as [[k|] er| | | | | | | | | | | | | | | | | | |]; try apply Av_any.
      pose proof D as D'. apply inv_tok in D' as (N & pm & T). destruct (tk_number _ _ _ _ _ V T) as (n' & [= <-] & Ht & Sp & O & Sq).
      assert (tk MNumber p q) as K by (split; [auto|]; eauto). destruct (tk_mono _ _ _ V K) as [Vq L].
      assert (r = n_extent n) as ->.
      { unfold into_simple in S. destruct (n_radix n); try discriminate.
        destruct (n_fractional n), (n_exponent n), (n_type_suffix n), (n_underscores n); try discriminate. now injection S as <-. }
      apply (Av_ext _ _ p q); auto; [lia| |right; split; [exists MNumber, q|exists MNumber, p]; repeat split; auto; try apply K; now left|exists MNumber; split; [now left|auto]].
      destruct (ex_ok _ WF p q V Vq ltac:(lia)) as (y & Y & _). rewrite Y. f_equal.
      destruct (ex_end _ WF _ _ _ V Vq ltac:(lia) Y) as (F & _ & [[_ G]|[G _]]); [|lia].
      apply injective_projections; [rewrite F|rewrite G].
      + unfold Points.sb. rewrite Ht, Sp. cbn [token_extent sub_rank]. lia.
      + unfold SpansOk.eb, prev_end. rewrite O, Sq. replace (off p + 1) with (Datatypes.S (off p)) by lia. rewrite Ht. cbn [token_extent sub_rank]. lia.
    - (* GIfAmb *) intros a b e p q v D IH V se E M C. cbn [mchk] in C. apply andb_true_iff in C as [C1 C2].
      destruct (IH V se E M C1) as [M' A]. split; [auto|]. unfold tav. cbn [avg]. now apply (proj1 (av_or_ok _ _ _)).
    - intros a b e p q v D IH V se E M C. cbn [mchk] in C. apply andb_true_iff in C as [C1 C2].
      destruct (IH V se E M C2) as [M' A]. split; [auto|]. unfold tav. cbn [avg]. now apply (proj2 (av_or_ok _ _ _)).
    - (* GShunt *) intros stmt e c T IH V se E M C. split; [auto|apply Av_any].
    - intros e p V se E M C. auto.
    - intros pt x steps e p q v e1 e' r D IH B DS IHs V se E M C. cbn [mchk_steps] in C. apply andb_true_iff in C as [C1 C2].
      destruct (der_mono _ WF _ _ _ _ _ D V) as [V1 L1]. destruct (IH V se E M C1) as [Mv A].
      pose proof (bind_marked _ _ _ _ Mv M B) as M1. pose proof (der_sem _ _ _ _ _ D V) as S. cbn [mwalk].
      assert ((exists y, pt = PVar y /\ x = GPoint) \/
        match pt, x with PVar y, GPoint => (y, EPt fl_nothing) :: se | _, _ => bind_av pt (tav se x) (passed (tfl x) se) end = bind_av pt (tav se x) (passed (tfl x) se))
        as [(y & -> & ->)|Q].
      { destruct pt as [y|]; [destruct x|]; eauto. }
      + apply IHs; auto. apply inv_point in D as [-> ->]. cbn [bind_pat] in B. injection B as <-. intros z t Z. cbn [assoc] in *.
        destruct (String.eqb z y); [|auto]. injection Z as <-. eexists. split; [reflexivity|]. exists p. repeat split; auto; apply sem_nothing.
      + rewrite Q in C2 |- *. apply IHs; auto. eapply bind_av_ok; eauto. apply envok_pass with (p := p); auto.
    - intros so f e p q Vq L _ _ V se E W M C. constructor.
    - intros so f e p p1 p2 q v vs D IH Bt _ DI IHi V se E W M C. destruct (der_mono _ WF _ _ _ _ _ D V) as [V1 L1].
      destruct (between_mono _ WF _ _ _ _ Bt V1) as [V2 L2]. constructor; [eapply IH; eauto|]. apply (IHi V2 se); auto.
      rewrite <- W. apply envok_weak with (p := p); [lia|auto].
    - (* an atom *) intros p q en v D IH L V. cbn [c_spt c_val] in *. exact (proj2 (gnt_m _ _ _ _ IH V)).
    - (* a prefix operator *) intros en op s c c' res D IH L T IHt A E1 E2 V. rewrite E1 in V.
      destruct (der_mono _ WF _ _ _ _ _ D V) as [V1 L1]. pose proof (IHt V1) as Mc. pose proof (proj2 (gnt_m _ _ _ _ IH V)) as Mo.
      apply inv_prefix in D as (m & x & l & w & -> & X & (e1 & At) & Dw). destruct (items_mono _ WF _ _ _ _ _ _ At V) as [Vm Lm].
      destruct (prefix_tk _ _ _ _ Dw Vm) as (k & w' & mt & b & -> & K & Vb & Lb & H).
      apply marked_node in Mo as [Mo _]. inversion Mo as [|? ? _ Mo1]; subst. inversion Mo1 as [|? ? Ml Mo2]; subst. inversion Mo2 as [|? ? Mq _]; subst. destruct Mq as [Mk Mw].
      destruct (etree_mono _ WF _ T V1) as [V2 L2]. pose proof (etree_adv _ WF _ T V1) as O. pose proof (etree_inside _ T V1) as Ir.
      destruct (tk_mono _ _ _ Vm K) as [_ Lk]. pose proof (pos_off _ _ _ Vb V1 Lb) as O1. pose proof (pos_off _ _ _ V V1 L1) as O2.
      assert (forall y, ex toks (c_spt c') (c_ept c) = BOk y -> exists z, written toks mt z /\ fst y <= fst z /\ snd z <= snd y /\ fst z = sb m /\ snd z <= sb b) as P.
      { intros y Y. apply (op_place (c_spt c') m b (c_ept c)); auto; lia. }
      pose proof (sb_mono _ WF _ _ Vb V1 Lb) as Sb.
      cbn [apply_one] in A. unfold prefix_has in H.
      repeat match type of A with (if ?b then _ else _) = _ => destruct b eqn:? end; unfold apply_maybe_prefix in A;
        apply apply_prefix_val in A as (y & Y & ->); destruct (P y Y) as (z & Wz & Z1 & Z2 & Z3 & Z4); apply attributed_marked; auto;
        (apply expr_marked; [reflexivity|fields; auto
           |first [apply free_node; reflexivity
                  |apply reference_marks; match goal with E : String.eqb k "Reference" = true |- _ => apply String.eqb_eq in E; subst k; exact Mk end]|]);
        (eapply op_node; [exact H|first [exact I|cbn; eauto]|exact Wz|cbn; intros x' [= <-]; auto|cbn; constructor
           |unfold side; cbn -[extents]; eapply (right_of _ (c_spt c)); [exact Ir|lia]|apply no_end; reflexivity]).
    - intros en op s e c' D IH L A E1 E2 V. rewrite E1 in V. pose proof (proj2 (gnt_m _ _ _ _ IH V)) as Mo.
      pose proof (prefix_range _ WF _ _ _ _ _ _ D V A) as [O3 SN]. destruct (der_mono _ WF _ _ _ _ _ D V) as [V1 L1].
      apply inv_prefix in D as (m & x & l & w & -> & X & (e1 & At) & Dw). destruct (items_mono _ WF _ _ _ _ _ _ At V) as [Vm Lm].
      destruct (prefix_tk _ _ _ _ Dw Vm) as (k & w' & mt & b & -> & K & Vb & Lb & H). destruct (tk_mono _ _ _ Vm K) as [_ Lk].
      apply marked_node in Mo as [Mo _]. inversion Mo as [|? ? _ Mo1]; subst. inversion Mo1 as [|? ? Ml Mo2]; subst. inversion Mo2 as [|? ? Mq _]; subst. destruct Mq as [Mk Mw].
      assert (exists z, written toks mt z /\ fst x <= fst z /\ snd z <= snd x /\ fst z = sb m /\ snd z <= sb b) as (z & Wz & Z1 & Z2 & Z3 & Z4).
      { apply (op_place (c_spt c') m b (c_ept c')); auto; try lia. pose proof (pos_off _ _ _ Vb V1 Lb). destruct (Nat.eq_dec (off b) (off (c_ept c'))) as [Eo|Eo]; [|left; lia].
        right. destruct b as [ob sb'], (c_ept c') as [oq sq]. cbn [off sub] in *. unfold pos in Lb. cbn [off sub] in Lb. subst. destruct sb' as [r|]; [|auto].
        exfalso. destruct r; cbn [sub_rank] in Lb; lia. }
      cbn [apply_one] in A. unfold prefix_has in H. repeat match type of A with (if ?b then _ else _) = _ => destruct b eqn:?; [try discriminate|] end; try discriminate;
        unfold apply_maybe_prefix in A; rewrite X in A; cbn [a_of_b abind] in A; injection A as <-; cbn [c_val]; apply attributed_marked; auto;
        (apply expr_marked; [reflexivity|fields; auto|apply free_node; reflexivity|]);
        (eapply op_node; [exact H|exact I|exact Wz|cbn; intros x' [= <-]; auto|cbn; constructor|cbn; constructor|apply no_end; reflexivity]).
    - (* an infix operator *) intros en op l r c' Tl IHl Tr IHr D IH L A E1 E2 V. rewrite E1 in V.
      pose proof (IHl V) as Ml. destruct (etree_mono _ WF _ Tl V) as [V1 L1]. destruct (der_mono _ WF _ _ _ _ _ D V1) as [V2 L2]. pose proof (IHr V2) as Mr.
      destruct (etree_mono _ WF _ Tr V2) as [V3 L3]. pose proof (etree_adv _ WF _ Tl V) as O1. pose proof (etree_adv _ WF _ Tr V2) as O2.
      pose proof (pos_off _ _ _ V1 V2 L2) as O3. pose proof (etree_inside _ Tl V) as Il. pose proof (etree_inside _ Tr V2) as Ir.
      pose proof (proj2 (gnt_m _ _ _ _ IH V1)) as Mo. destruct op as [| | | | | | | | | | |en' k w]; cbn [apply_one] in A; try discriminate. destruct Mo as [_ Mw].
      apply inv_infix in D. apply infix_tk in D as (m & K & H). unfold infix_has in H.
      assert (forall x, ex toks (c_spt l) (c_ept r) = BOk x ->
        exists y, written toks m y /\ fst x <= fst y /\ snd y <= snd x /\ fst y = sb (c_ept l) /\ snd y <= sb (c_spt r)) as P.
      { intros x X. apply (op_place (c_spt l) (c_ept l) (c_spt r) (c_ept r)); auto; lia. }
      repeat match type of A with (if ?b then _ else _) = _ => destruct b end; unfold apply_maybe_infix in A; cbn [length Nat.leb] in A;
        apply apply_infix_val in A as (x & X & ->); destruct (P x X) as (y & Wy & Y1 & Y2 & Y3 & Y4); apply into_attributed_marked;
        (apply expr_marked; [reflexivity|fields; auto|apply free_node; reflexivity|]);
        (eapply op_node; [exact H|first [exact I|cbn; eauto]|exact Wy|cbn; intros x' [= <-]; auto
           |unfold side; cbn -[extents]; eapply left_of; eauto|unfold side; cbn -[extents]; eapply right_of; eauto|apply no_end; reflexivity]).
    - intros en op l e c' Tl IHl D IH L A E1 E2 V. rewrite E1 in V. pose proof (IHl V) as Ml. destruct (etree_mono _ WF _ Tl V) as [V1 L1].
      destruct (der_mono _ WF _ _ _ _ _ D V1) as [V2 L2]. pose proof (etree_adv _ WF _ Tl V) as O1. pose proof (pos_off _ _ _ V1 V2 L2) as O3. pose proof (etree_inside _ Tl V) as Il.
      pose proof (proj2 (gnt_m _ _ _ _ IH V1)) as Mo. destruct op as [| | | | | | | | | | |en' k w]; cbn [apply_one] in A; try discriminate. destruct Mo as [_ Mw].
      apply inv_infix in D. apply infix_tk in D as (m & K & H). unfold infix_has in H.
      assert (whole_matcher m = true -> forall x, ex toks (c_spt l) e = BOk x ->
        exists y, written toks m y /\ fst x <= fst y /\ snd y <= snd x /\ fst y = sb (c_ept l) /\ snd y <= sb e) as P.
      { intros Wm x X. apply (op_place (c_spt l) (c_ept l) e e); auto; try lia. right. exact (tk_whole _ _ _ V1 K Wm). }
      assert (infix_has k m = true -> String.eqb k "RangeInclusive" = true \/ String.eqb k "RangeExclusive" = true -> whole_matcher m = true) as WM.
      { unfold infix_has. intros Hm [Ek|Ek]; [rewrite Ek in Hm|destruct (String.eqb k "RangeInclusive") eqn:Ei; [|rewrite Ek in Hm]];
          (destruct (whole_matcher m) eqn:Ew; [auto|exfalso; destruct m as [[]|]; vm_compute in Ew; try discriminate Ew; vm_compute in Hm; discriminate Hm]). }
      unfold infix_has in WM. repeat match type of A with (if ?b then _ else _) = _ => destruct b; [try discriminate|] end; try discriminate;
        specialize (P (WM H ltac:(auto)));
        unfold apply_maybe_infix in A; cbn [length Nat.leb pop_expression abind] in A;
        (destruct (ex toks (c_spt l) e) as [y|]; cbn [a_of_b abind] in A; [|discriminate]); injection A as <-; cbn [c_val];
        destruct (P y eq_refl) as (z & Wz & Z1 & Z2 & Z3 & Z4); apply into_attributed_marked;
        (apply expr_marked; [reflexivity|fields; auto|apply free_node; reflexivity|]);
        (eapply op_node; [exact H|exact I|exact Wz|cbn; intros x' [= <-]; auto
           |unfold side; cbn -[extents]; eapply left_of; eauto|cbn; constructor|apply no_end; reflexivity]).
    - (* a postfix operator *) intros en op c e c' T IHt D IH L A E1 E2 V. rewrite E1 in V. destruct (etree_mono _ WF _ T V) as [V1 L1].
      eapply postfix_marked; [exact T|exact V|apply (IHt V)|exact (proj2 (gnt_m _ _ _ _ IH V1))| |apply (der_mono _ WF _ _ _ _ _ D V1)|exact A].
      apply inv_postfix in D. eapply postfix_tk; eauto.
    - intros op c e c' T IHt D IH L A E1 E2 V. rewrite E1 in V. destruct (etree_mono _ WF _ T V) as [V1 L1].
      eapply postfix_marked; [exact T|exact V|apply (IHt V)|exact (gnt_m _ _ _ _ IH V1)| |apply (der_mono _ WF _ _ _ _ _ D V1)|exact A].
      eapply postfix_limited_tk; eauto.
  Qed.

  Theorem der_marked n p q v : der toks (GNT n) [] p q v -> valid p -> marked (written toks) (numbers toks) v.
  Proof. intros D V. eapply gnt_m; [|exact V]. apply (proj1 marks_all). exact D. Qed.
End MarksOk.
