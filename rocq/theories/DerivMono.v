(** Derivations move forward, and the static analyses of [Deriv] hold of them. *)

From Coq Require Import String List Arith Bool Lia.
From Verif Require Import Base Peresil Token Schema Value Nt Grammar Points Table Static Deriv.
Import ListNotations.
Local Open Scope string_scope.
Local Open Scope list_scope.
Local Open Scope nat_scope.

Lemma pos_off toks p q : valid toks p -> valid toks q -> pos p <= pos q -> off p <= off q.
Proof.
  intros Vp Vq. pose proof (valid_rank _ _ Vp). pose proof (valid_rank _ _ Vq). unfold pos. lia.
Qed.

Section DerivMono.
  Variable toks : list token.
  Hypothesis WF : wf_toks toks.
  Notation valid := (valid toks).
  Notation der := (der toks).
  Notation ders := (ders toks).
  Notation items := (items toks).
  Notation between := (between toks).
  Notation etree := (etree toks).

  (** The token at [o] has a first half of kind [k]. *)
  Definition half_of (o : nat) (k : tkind) : Prop :=
    exists t m e b, nth_error toks o = Some t /\ split t m = Some (Tk k e, b).

  Lemma half_unique o k k' : half_of o k -> half_of o k' -> k = k'.
  Proof.
    intros (t & m & e & b & H & S) (t' & m' & e' & b' & H' & S'). rewrite H in H'. injection H' as <-.
    destruct t as [kt [s0 e0]|n0]; [|discriminate].
    destruct kt; cbn in S, S'; try discriminate; destruct m as [|[|m]]; try discriminate; destruct m' as [|[|m']]; try discriminate;
      injection S as <- <- <-; injection S' as <- <- <-; reflexivity.
  Qed.

  Lemma halves_two o l : Forall (half_of o) l -> two_halves l = true -> False.
  Proof.
    intros F T. unfold two_halves in T. apply existsb_exists in T as (k & I & T). apply existsb_exists in T as (k' & I' & T).
    rewrite Forall_forall in F. pose proof (half_unique _ _ _ (F _ I) (F _ I')) as <-. now rewrite tkind_eqb_refl in T.
  Qed.

  Lemma tok_half m err pm p q v : tok toks m err pm p = (pm, Success q v) ->
    (off q = off p + 1 /\ sub q = None) \/
    exists k n, m = MK k /\ off q = off p /\ sub q = Some n /\ half_of (off p) k.
  Proof.
    unfold tok. destruct (nth_error toks (off p)) as [t|] eqn:Ht; [|discriminate].
    match goal with |- match ?c with _ => _ end = _ -> _ => destruct c as [u|] eqn:C; [|discriminate] end.
    destruct (convert m u) as [w|] eqn:CV.
    - intros [= <- <-]. left. auto.
    - destruct (split t (sub_rank (sub p))) as [[a b]|] eqn:Sp; [|discriminate].
      destruct (convert m a) as [w|] eqn:CV2; [|discriminate]. intros [= <- <-]. right.
      destruct m as [k|]; destruct a as [ka ea|]; cbn [convert] in CV2; try discriminate.
      + destruct (tkind_eqb k ka) eqn:E; [|discriminate]. apply tkind_eqb_eq in E. subst ka.
        exists k, (sub_rank (sub p)). repeat split. exists t, (sub_rank (sub p)), ea, b. auto.
      + destruct (split_spec _ _ _ _ Sp) as (ka & kb & E1 & E2 & _). discriminate.
  Qed.

  (** * Forward *)
  Definition fwd (p q : point) : Prop := valid p -> valid q /\ pos p <= pos q.

  Lemma fwd_refl p : fwd p p.
  Proof. intros V. split; [auto|lia]. Qed.

  Lemma fwd_trans p q r : fwd p q -> fwd q r -> fwd p r.
  Proof. intros A B V. destruct (A V) as [V1 L1]. destruct (B V1) as [V2 L2]. split; [auto|lia]. Qed.

  Lemma fwd_off p q : fwd p q -> valid p -> off p <= off q.
  Proof. intros F V. destruct (F V). eapply pos_off; eauto. Qed.

  Theorem der_mono_all :
    (forall x e p q v, der x e p q v -> fwd p q) /\
    (forall steps e p e' q, ders steps e p e' q -> fwd p q) /\
    (forall so f e p q vs, items so f e p q vs -> fwd p q) /\
    (forall so e p q, between so e p q -> fwd p q) /\
    (forall c, etree c -> fwd (c_spt c) (c_ept c)).
  Proof.
    apply (der_all toks
      (fun x e p q v => fwd p q) (fun steps e p e' q => fwd p q) (fun so f e p q vs => fwd p q)
      (fun so e p q => fwd p q) (fun c => fwd (c_spt c) (c_ept c))); intros; auto using fwd_refl; try (eapply fwd_trans; eauto; fail).
    - intros V. pose proof (tok_ok _ WF m err pm p V H) as T. rewrite H0 in T. destruct T as [_ T]. destruct T. split; [auto|lia].
    - intros V. destruct (nested_ok _ WF o c pm p V H) as (q' & x & R & Vq & L & _). rewrite R in H0. injection H0 as <- <-. auto.
    - intros V. split; auto.
    - eapply fwd_trans; [exact H0|]. eapply fwd_trans; eauto.
    - intros V. split; auto.
    - rewrite H5, H6. eapply fwd_trans; eauto.
    - rewrite H3, H4. auto.
    - rewrite H7, H8. eapply fwd_trans; [eauto|]. eapply fwd_trans; eauto.
    - rewrite H5, H6. eapply fwd_trans; eauto.
    - rewrite H5, H6. eapply fwd_trans; eauto.
    - rewrite H5, H6. eapply fwd_trans; eauto.
  Qed.

  Lemma der_mono x e p q v : der x e p q v -> valid p -> valid q /\ pos p <= pos q.
  Proof. intros D. exact (proj1 der_mono_all _ _ _ _ _ D). Qed.
  Lemma ders_mono steps e p e' q : ders steps e p e' q -> valid p -> valid q /\ pos p <= pos q.
  Proof. intros D. exact (proj1 (proj2 der_mono_all) _ _ _ _ _ D). Qed.
  Lemma items_mono so f e p q vs : items so f e p q vs -> valid p -> valid q /\ pos p <= pos q.
  Proof. intros D. exact (proj1 (proj2 (proj2 der_mono_all)) _ _ _ _ _ _ D). Qed.
  Lemma between_mono so e p q : between so e p q -> valid p -> valid q /\ pos p <= pos q.
  Proof. intros D. exact (proj1 (proj2 (proj2 (proj2 der_mono_all))) _ _ _ _ D). Qed.
  Lemma etree_mono c : etree c -> valid (c_spt c) -> valid (c_ept c) /\ pos (c_spt c) <= pos (c_ept c).
  Proof. intros D. exact (proj2 (proj2 (proj2 (proj2 der_mono_all))) _ D). Qed.

  (** * Inversion of the operators of an expression *)

  (** An alternative that only wraps what another parser reads. *)
  Lemma inv_wrap x y en t e p q v : der (GSeq [(PVar x, y)] (BVariant en t (BVar x))) e p q v ->
    exists w, v = VVar en t w /\ der y e p q w.
  Proof.
    intros D. apply inv_seq in D as (e' & D & B). apply inv_steps in D as (q1 & w & e1 & D & P & N).
    cbn [bind_pat] in P. injection P as <-. apply inv_nil in N as [-> ->].
    cbn [beval assoc] in B. rewrite String.eqb_refl in B. cbn [bbind] in B. injection B as <-. eauto.
  Qed.

  Lemma inv_attributed t y e p q v : der (attributed t y) e p q v ->
    exists m x l w e1, v = VNode ("Attributed<" ++ t ++ ">") [VExt x; VList l; w; VList []] /\
      ex toks p q = BOk x /\ items None (GNT N_attribute) e1 p m l /\ der y (("attributes", VList l) :: e1) m q w.
  Proof.
    intros D. apply inv_seq in D as (e' & D & B).
    apply inv_steps in D as (q1 & w1 & e1 & D1 & P1 & D). apply inv_point in D1 as [-> ->]. cbn [bind_pat] in P1. injection P1 as <-.
    apply inv_steps in D as (q2 & w2 & e2 & D2 & P2 & D). cbn [bind_pat] in P2. injection P2 as <-.
    apply inv_steps in D as (q3 & w3 & e3 & D3 & P3 & D). cbn [bind_pat] in P3. injection P3 as <-.
    apply inv_nil in D as [-> <-]. inversion D2; subst.
    cbn [beval assoc String.eqb Ascii.eqb Bool.eqb as_point bbind] in B.
    destruct (ex toks p q) as [x|] eqn:X; [|discriminate]. cbn [bbind] in B. injection B as <-.
    exists q2, x, l, w3, (("spt", VPoint p) :: e). auto.
  Qed.

  Lemma inv_prefix s e en op : der (GNT N_expression_prefix_or_atom) [] s e (VVar en "Prefix" op) ->
    exists m x l w, op = VNode "Attributed<OperatorPrefix>" [VExt x; VList l; w; VList []] /\
      ex toks s e = BOk x /\ (exists e1, items None (GNT N_attribute) e1 s m l) /\ der (GNT N_operator_prefix) [] m e w.
  Proof.
    intros D. apply inv_nt in D. cbn [table] in D. apply inv_alt in D as (x & I & D). destruct I as [<-|[<-|[]]].
    - apply inv_wrap in D as (w & E & D). injection E as _ ->. apply inv_attributed in D as (m & x & l & w' & e1 & -> & X & A & D).
      exists m, x, l, w'. split; [reflexivity|]. split; [auto|]. split; [eauto|]. apply D_NT. eapply inv_nt; eauto.
    - apply inv_wrap in D as (w & E & D). discriminate.
  Qed.

  Lemma whole_tok m err e p q v : der (GTok m err) e p q v -> whole_matcher m = true -> valid p ->
    off q = off p + 1 /\ sub q = None.
  Proof.
    intros D W V. apply inv_tok in D as (N & pm & T). pose proof (tok_ok _ WF m err pm p V N) as O. rewrite T in O.
    destruct O as [_ O]. now apply (tks_whole _ _ _ _ _ O).
  Qed.

  Lemma inv_range p q v : der (GNT N_range_inclusive_operator) [] p q v -> valid p -> off q = off p + 1 /\ sub q = None.
  Proof.
    intros D V. apply inv_nt in D. cbn [table] in D. apply inv_alt in D as (x & I & D).
    destruct I as [<-|[<-|[]]]; apply inv_wrap in D as (w & -> & D); eapply whole_tok; eauto.
  Qed.

  (** The operators that stand without an operand. *)
  Lemma prefix_range s e en op c' res : der (GNT N_expression_prefix_or_atom) [] s e (VVar en "Prefix" op) -> valid s ->
    apply_one toks [] (OpPrefix op) s e = AOk (c' :: res) -> off s < off e /\ sub e = None.
  Proof.
    intros D V A. apply inv_prefix in D as (m & x & l & w & -> & X & (e1 & M) & D).
    destruct (items_mono _ _ _ _ _ _ M V) as [Vm Lm]. pose proof (pos_off _ _ _ V Vm Lm) as Om.
    apply inv_nt in D. cbn [table] in D. apply inv_alt in D as (y & I & D).
    cut (off e = off m + 1 /\ sub e = None); [intros [C1 C2]; split; [lia|auto]|].
    cbn [In] in I. repeat destruct I as [<-|I]; try contradiction.
    - apply inv_wrap in D as (w' & -> & D). eapply whole_tok; eauto.
    - apply inv_wrap in D as (w' & -> & D). apply inv_range in D; auto.
    - apply inv_wrap in D as (w' & -> & D). eapply whole_tok; eauto.
    - apply inv_wrap in D as (w' & -> & D). eapply whole_tok; eauto.
    - apply inv_wrap in D as (w' & -> & D). eapply whole_tok; eauto.
    - apply inv_wrap in D as (w' & -> & D). eapply whole_tok; eauto.
    - apply inv_nt in D. cbn [table] in D. apply inv_seq in D as (e' & D & B). cbn [beval] in B.
      destruct (assoc "is_mutable" e'); [|discriminate]. cbn [bbind] in B. injection B as <-.
      cbn [apply_one String.eqb Ascii.eqb Bool.eqb] in A. discriminate.
  Qed.

  (** * The analyses *)

  Definition is_atom (v : val) : Prop := exists en w, v = VVar en "Atom" w.
  Definition adv_p (p q : point) : Prop := off p < off q.
  Definition stl_p (p q : point) : Prop := q = p \/ off p < off q.

  Lemma stl_refl p : stl_p p p.
  Proof. now left. Qed.
  Lemma stl_trans p q r : stl_p p q -> stl_p q r -> stl_p p r.
  Proof. unfold stl_p. intros [->|A] [->|B]; auto. right. lia. Qed.

  Definition der_adv_p (x : g) (e : env) (p q : point) (v : val) : Prop :=
    valid p ->
    (tdadv x = true -> adv_p p q) /\
    (aadv x = true -> is_atom v -> adv_p p q) /\
    (x = GNT N_expression_prefix_or_atom -> is_atom v -> adv_p p q) /\
    (tsadv x = true -> stl_p p q).

  Definition ders_adv_p (steps : list (pat * g)) (e : env) (p : point) (e' : env) (q : point) : Prop :=
    valid p ->
    (existsb (fun s => tdadv (snd s)) steps = true -> adv_p p q) /\
    (off p = off q -> Forall (half_of (off p)) (halves steps)) /\
    (forallb (fun s => tsadv (snd s)) steps = true -> stl_p p q).

  Definition sep_still (so : option g) : Prop :=
    match so with Some sep => tfip sep = true /\ tsadv sep = true | None => True end.

  Definition items_adv_p (so : option g) (f : g) (e : env) (p q : point) (vs : list val) : Prop :=
    valid p ->
    (tdadv f = true -> vs <> [] -> adv_p p q) /\
    (sep_still so -> tsadv f = true -> (so = None \/ tfip f || tfos f = true) -> stl_p p q).

  Definition between_adv_p (so : option g) (e : env) (p q : point) : Prop :=
    valid p -> sep_still so -> stl_p p q.

  Lemma simple_adv x y e p q v : (tdadv x = tdadv y) -> (aadv x = tdadv x) -> (forall n, x <> GNT n) -> (tsadv x = tsadv y) ->
    forall v', der_adv_p y e p q v -> der_adv_p x e p q v'.
  Proof.
    intros E1 E2 E3 E4 v' H V. destruct (H V) as (A & B & C & D). rewrite E1 in *. rewrite E2, E4.
    split; [auto|]. split; [auto|]. split; [|auto]. intros E. now apply E3 in E.
  Qed.

  Lemma list_still so f e p q vs : items_adv_p so f e p q vs -> valid p -> forall sep, so = Some sep ->
    tfip sep && tsadv sep && tsadv f && (tfip f || tfos f) = true -> stl_p p q.
  Proof.
    intros H V sep -> S. apply andb_true_iff in S as [S S4]. apply andb_true_iff in S as [S S3]. apply andb_true_iff in S as [S1 S2].
    destruct (H V) as [_ H']. apply H'; cbn [sep_still]; auto.
  Qed.

  Ltac nt_neq := let n := fresh in intros n; discriminate.

  Theorem der_adv_all :
    (forall x e p q v, der x e p q v -> der_adv_p x e p q v) /\
    (forall steps e p e' q, ders steps e p e' q -> ders_adv_p steps e p e' q) /\
    (forall so f e p q vs, items so f e p q vs -> items_adv_p so f e p q vs) /\
    (forall so e p q, between so e p q -> between_adv_p so e p q) /\
    (forall c, etree c -> valid (c_spt c) -> adv_p (c_spt c) (c_ept c)).
  Proof.
    apply (der_all toks der_adv_p ders_adv_p items_adv_p between_adv_p (fun c => valid (c_spt c) -> adv_p (c_spt c) (c_ept c))).
    - (* tok *) intros m err e p q v pm N T V.
      assert (D : der (GTok m err) e p q v) by (eapply D_Tok; eauto).
      assert (whole_matcher m = true -> adv_p p q) as W.
      { intros W. destruct (whole_tok _ _ _ _ _ _ D W V). unfold adv_p. lia. }
      unfold tdadv, tsadv. cbn [dadv aadv sadv]. split; [auto|]. split; [auto|]. split; [discriminate|]. intros H. right. now apply W.
    - (* nt *) intros n e p q v D IH V. destruct (IH V) as (A & B & C & E).
      split; [intros H; apply A; now apply dna_ok|]. split; [intros H _; apply A; now apply dna_ok|].
      split; [|intros H; apply E; now apply nsadv_ok].
      intros [= ->]. apply B. reflexivity.
    - (* point *) intros e p V. split; [discriminate|]. split; [discriminate|]. split; [discriminate|]. intros _. apply stl_refl.
    - (* seq *) intros steps b e e' p q v D IH B V. destruct (IH V) as (A & H & S).
      assert (tdadv (GSeq steps b) = true -> adv_p p q) as T.
      { unfold tdadv. cbn [dadv]. intros T. apply orb_true_iff in T as [T|T]; [now apply A|].
        destruct (ders_mono _ _ _ _ _ D V) as [Vq L]. pose proof (pos_off _ _ _ V Vq L).
        unfold adv_p. destruct (Nat.eq_dec (off p) (off q)) as [E|E]; [|lia].
        exfalso. eapply halves_two; [apply (H E)|auto]. }
      split; [auto|]. split; [|split; [discriminate|]].
      + cbn [aadv]. intros O At. apply orb_true_iff in O as [O|O]; [|auto].
        destruct At as (en & w & ->). destruct b; try discriminate. cbn [is_atom_build] in O.
        cbn [beval] in B. destruct (beval toks q e' b); [|discriminate]. cbn [bbind] in B. injection B as _ -> _. discriminate.
      + unfold tsadv. cbn [sadv]. intros O. apply orb_true_iff in O as [O|O]; [right; now apply T|now apply S].
    - (* alt *) intros gs x e p q v I D IH V. destruct (IH V) as (A & B & C & E).
      unfold tdadv, tsadv. cbn [dadv aadv sadv]. rewrite !forallb_forall.
      split; [intros H; apply A, H, I|]. split; [intros H; apply B, H, I|]. split; [discriminate|]. intros H; apply E, H, I.
    - (* some *) intros x e p q v D IH V. destruct (IH V) as (A & B & C & E).
      split; [discriminate|]. split; [discriminate|]. split; [discriminate|]. exact E.
    - (* none *) intros x e p V. split; [discriminate|]. split; [discriminate|]. split; [discriminate|]. intros _. apply stl_refl.
    - (* many *) intros x e p q l D IH V. destruct (IH V) as [A B].
      split; [discriminate|]. split; [discriminate|]. split; [discriminate|]. intros H. apply B; cbn; auto.
    - (* tailed *) intros app sep f e p q l vs n b Bv D IH Ch V.
      split; [discriminate|]. split; [discriminate|]. split; [discriminate|]. intros H. eapply list_still; eauto.
    - (* tailed1 *) intros sep f e p q vs n b D IH NE Ch V. destruct (IH V) as [A B].
      split; [intros H; now apply A|]. split; [intros H _; now apply A|]. split; [discriminate|]. intros H. eapply list_still; eauto.
    - (* resume *) intros sep f e p p1 q vs B IHb D IH Ch V.
      split; [discriminate|]. split; [discriminate|]. split; [discriminate|]. intros H.
      destruct (between_mono _ _ _ _ B V) as [V1 L1].
      apply stl_trans with p1; [|eapply list_still; eauto].
      apply IHb; auto. cbn [sep_still]. unfold tsadv in H. cbn [sadv] in H. fold tsadv in H.
      apply andb_true_iff in H as [H _]. apply andb_true_iff in H as [H _]. apply andb_true_iff in H as [H1 H2]. auto.
    - (* resume0 *) intros sep f e p V. split; [discriminate|]. split; [discriminate|]. split; [discriminate|]. intros _. apply stl_refl.
    - (* implicit *) intros sep f e p q vs n b D IH Ch V.
      split; [discriminate|]. split; [discriminate|]. split; [discriminate|]. intros H. eapply list_still; eauto.
    - (* nested *) intros o c e p q v pm N R V.
      split; [discriminate|]. split; [discriminate|]. split; [discriminate|]. intros _.
      destruct (nested_ok _ WF o c pm p V N) as (q' & x & R' & Vq & L & Nq & _). rewrite R' in R. injection R as <- <-.
      pose proof (pos_off _ _ _ V Vq L). unfold stl_p. destruct (Nat.eq_dec (off p) (off q')) as [E|E]; [left|right; lia].
      destruct p, q'; cbn in *; congruence.
    - (* ext *) intros x e p q v r D IH X. eapply simple_adv; [..|exact IH]; try reflexivity; nt_neq.
    - (* peek *) intros x e p q v D IH V. split; [discriminate|]. split; [discriminate|]. split; [discriminate|]. intros _. apply stl_refl.
    - intros x err e p q v D IH. eapply simple_adv; [..|exact IH]; try reflexivity; nt_neq.
    - intros x err e p q n r D IH X. eapply simple_adv; [..|exact IH]; try reflexivity; nt_neq.
    - intros l x e p q v D IH. eapply simple_adv; [..|exact IH]; try reflexivity; nt_neq.
    - intros err x e p q v D IH. eapply simple_adv; [..|exact IH]; try reflexivity; nt_neq.
    - intros a b e p q v D IH V. destruct (IH V) as (A & B & C & E). unfold tdadv, tsadv. cbn [dadv aadv sadv].
      split; [intros H; apply andb_true_iff in H; now apply A|]. split; [intros H _; apply andb_true_iff in H; now apply A|]. split; [discriminate|].
      intros H; apply andb_true_iff in H; now apply E.
    - intros a b e p q v D IH V. destruct (IH V) as (A & B & C & E). unfold tdadv, tsadv. cbn [dadv aadv sadv].
      split; [intros H; apply andb_true_iff in H; now apply A|]. split; [intros H _; apply andb_true_iff in H; now apply A|]. split; [discriminate|].
      intros H; apply andb_true_iff in H; now apply E.
    - (* shunt *) intros stmt e c T IH V. specialize (IH V). split; [auto|]. split; [auto|]. split; [discriminate|]. intros _. now right.
    - (* steps *) intros e p V. split; [discriminate|]. split; [intros _; constructor|]. intros _. apply stl_refl.
    - intros pt x steps e p q v e1 e' r D IH Bp Ds IHs V. destruct (IH V) as (A & _ & _ & E).
      destruct (der_mono _ _ _ _ _ D V) as [Vq L]. pose proof (pos_off _ _ _ V Vq L) as O1.
      destruct (ders_mono _ _ _ _ _ Ds Vq) as [Vr L2]. pose proof (pos_off _ _ _ Vq Vr L2) as O2.
      destruct (IHs Vq) as (A' & H' & E'). cbn [existsb forallb snd].
      split; [|split].
      + intros H. apply orb_true_iff in H as [H|H]; [specialize (A H)|specialize (A' H)]; unfold adv_p in *; lia.
      + intros Eo. assert (off p = off q) as Eq by lia. assert (off q = off r) as Er by lia.
        specialize (H' Er). rewrite <- Eq in H'. cbn [halves].
        destruct x as [[k|] err| | | | | | | | | | | | | | | | | | |]; auto. destruct (splits_off k) eqn:SO; auto.
        constructor; auto. apply inv_tok in D as (N & pm & T). apply tok_half in T as [[T _]|(k' & n & [= <-] & _ & _ & T)]; [lia|exact T].
      + intros H. apply andb_true_iff in H as [H1 H2]. eapply stl_trans; eauto.
    - (* items *) intros so f e p q Vq L I1 [I2 _] V. split; [congruence|]. intros S A [H|H]; [left; auto|].
      apply orb_true_iff in H as [H|H]; [left; auto|]. now apply I2.
    - intros so f e p p1 p2 q v vs D IH B IHb Di IHi V. destruct (IH V) as (A & _ & _ & E).
      destruct (der_mono _ _ _ _ _ D V) as [V1 L1]. pose proof (pos_off _ _ _ V V1 L1) as O1.
      destruct (between_mono _ _ _ _ B V1) as [V2 L2]. pose proof (pos_off _ _ _ V1 V2 L2) as O2.
      destruct (items_mono _ _ _ _ _ _ Di V2) as [V3 L3]. pose proof (pos_off _ _ _ V2 V3 L3) as O3.
      destruct (IHi V2) as [A' E']. split.
      + intros H _. specialize (A H). unfold adv_p in *. lia.
      + intros S H1 H2. eapply stl_trans; [now apply E|]. eapply stl_trans; [now apply IHb|]. now apply E'.
    - (* between *) intros so e p V _. apply stl_refl.
    - intros sep e p q v D IH V [S1 S2]. now apply (IH V).
    - intros sep e p q F Vq L V [S1 S2]. congruence.
    - (* atom *) intros p q en v D IH L V. cbn [c_spt c_ept] in *. destruct (IH V) as (_ & _ & C & _). apply C; [reflexivity|]. now exists en, v.
    - intros en op s c c' res D IH L T IHt A E1 E2 V. rewrite E1 in V. destruct (der_mono _ _ _ _ _ D V) as [V1 L1].
      pose proof (pos_off _ _ _ V V1 L1). specialize (IHt V1). unfold adv_p in *. rewrite E1, E2. lia.
    - intros en op s e c' D IH L A E1 E2 V. rewrite E1 in V. unfold adv_p. rewrite E1, E2. eapply prefix_range; eauto.
    - intros en op l r c' Tl IHl Tr IHr D IH L A E1 E2 V. rewrite E1 in V. specialize (IHl V).
      destruct (etree_mono _ Tl V) as [V1 L1]. destruct (der_mono _ _ _ _ _ D V1) as [V2 L2]. pose proof (pos_off _ _ _ V1 V2 L2).
      specialize (IHr V2). unfold adv_p in *. rewrite E1, E2. lia.
    - intros en op l e c' Tl IHl D IH L A E1 E2 V. rewrite E1 in V. specialize (IHl V).
      destruct (etree_mono _ Tl V) as [V1 L1]. destruct (der_mono _ _ _ _ _ D V1) as [V2 L2]. pose proof (pos_off _ _ _ V1 V2 L2).
      unfold adv_p in *. rewrite E1, E2. lia.
    - intros en op c e c' Tl IHl D IH L A E1 E2 V. rewrite E1 in V. specialize (IHl V).
      destruct (etree_mono _ Tl V) as [V1 L1]. destruct (der_mono _ _ _ _ _ D V1) as [V2 L2]. pose proof (pos_off _ _ _ V1 V2 L2).
      unfold adv_p in *. rewrite E1, E2. lia.
    - intros op c e c' Tl IHl D IH L A E1 E2 V. rewrite E1 in V. specialize (IHl V).
      destruct (etree_mono _ Tl V) as [V1 L1]. destruct (der_mono _ _ _ _ _ D V1) as [V2 L2]. pose proof (pos_off _ _ _ V1 V2 L2).
      unfold adv_p in *. rewrite E1, E2. lia.
  Qed.

  Lemma der_adv x e p q v : der x e p q v -> valid p -> tdadv x = true -> off p < off q.
  Proof. intros D V. exact (proj1 (proj1 der_adv_all _ _ _ _ _ D V)). Qed.

  Lemma der_still x e p q v : der x e p q v -> valid p -> tsadv x = true -> q = p \/ off p < off q.
  Proof. intros D V. exact (proj2 (proj2 (proj2 (proj1 der_adv_all _ _ _ _ _ D V)))). Qed.

  Lemma etree_adv c : etree c -> valid (c_spt c) -> off (c_spt c) < off (c_ept c).
  Proof. intros D V. exact (proj2 (proj2 (proj2 (proj2 der_adv_all))) _ D V). Qed.
End DerivMono.
