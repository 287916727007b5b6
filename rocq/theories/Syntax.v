(** Tools to show that the grammar turns a spelling into the AST it stands for. *)

From Coq Require Import String List NArith Arith Bool Lia.
From Verif Require Import Base Peresil Token Schema Value Nt Grammar Points Table Static Amb Sem First OutlineSpec Reads.
Import ListNotations.
Local Open Scope string_scope.
Local Open Scope list_scope.
Local Open Scope nat_scope.

(** * Outlines *)
Definition outlines (l : list val) : list val :=
  flat_map (fun v => if is_whitespace v then [] else [outline v]) l.

Lemma outlines_app a b : outlines (a ++ b) = outlines a ++ outlines b.
Proof. apply flat_map_app. Qed.

Lemma is_whitespace_outline v : is_whitespace (outline v) = is_whitespace v.
Proof. destruct v; try reflexivity. cbn [outline]. destruct (leaf k); reflexivity. Qed.

Lemma outlines_one v r : outline v = r -> is_whitespace r = false -> outlines [v] = [r].
Proof. intros <- W. unfold outlines. cbn [flat_map]. rewrite is_whitespace_outline in W. now rewrite W. Qed.

Lemma outlines_cons v l r rs : outline v = r -> is_whitespace r = false -> outlines l = rs -> outlines (v :: l) = r :: rs.
Proof. intros E W <-. change (v :: l) with ([v] ++ l). rewrite outlines_app. now rewrite (outlines_one v r). Qed.

Lemma outlines_idents l : outlines (map ident l) = map ident l.
Proof. induction l as [|w l IH]; [reflexivity|]. cbn [map]. now apply outlines_cons. Qed.

(** Compute the outline of a value built from parts. *)
Ltac outl :=
  cbn [outline leaf existsb String.eqb Ascii.eqb Bool.eqb orb map vident vlifetime vopt_of];
  repeat match goal with |- context [flat_map (fun v : val => if is_whitespace v then [] else [outline v]) ?l] =>
    change (flat_map (fun v : val => if is_whitespace v then [] else [outline v]) l) with (outlines l) end;
  rewrite ?outlines_app;
  repeat match goal with
  | H : outline _ = _ |- _ => rewrite H; clear H
  | H : outlines _ = _ |- _ => rewrite H; clear H
  end;
  rewrite ?outlines_idents;
  reflexivity.

Section Parses.
  Variable toks : list token.

  (** The next token is not one of [m]. *)
  Definition clear (m : N) (p : point) : Prop := disjoint m (offered toks p).

  (** Where the tokens read as [ps], and what comes next is fine, the parser
      stops behind [ps] with a value of outline [r]. *)
  Definition parses (a : ambiguity) (x : g) (fol : point -> Prop) (ps : list piece) (r : val) : Prop :=
    forall p q, reads toks p ps q -> fol q ->
    exists v, (forall e, sem toks a x e p (SOk q v)) /\ outline v = r.

  Lemma clear_subset a b p : clear b p -> subset a b = true -> clear a p.
  Proof. intros D S. eapply subset_disjoint; eauto. Qed.

  Lemma clear_takes p c q m : takes toks p c q -> N.land m (pmask c) = 0%N -> clear m p.
  Proof. apply takes_disjoint. Qed.

  Lemma clear_lor a b p : clear a p -> clear b p -> clear (N.lor a b) p.
  Proof. intros A B. apply disjoint_lor. auto. Qed.

  Lemma sem_clear a x e p m : clear m p -> subset (firstg x) m = true -> nullg x = false -> sem toks a x e p (SFail p).
  Proof. apply sem_stop. Qed.

  (** ** Lists *)
  Section Lists.
    Context {A : Type} (ast : A -> val) (spell : A -> list piece) (fol : A -> point -> Prop).
    Variables (M : N) (sep : tkind).

    (** Every element may stand before what follows it in the list. *)
    Fixpoint spaced (c : bool) (ts : list A) : Prop :=
      match ts with
      | [] => True
      | [t] => if c then forall p q, takes toks p (Sym sep) q -> fol t p else forall q, clear M q -> fol t q
      | t :: (u :: _) as ts' => (forall p q s, takes toks p (Sym sep) q -> reads toks q (spell u) s -> fol t p) /\ spaced c ts'
      end.

    Definition elems (a : ambiguity) (f : g) (ts : list A) : Prop :=
      forall t, In t ts -> parses a f (fol t) (spell t) (ast t) /\ is_whitespace (ast t) = false.

    Lemma tails_separated a f : nullg f = false -> subset (bit sep) M = true ->
      forall (ts : list A) c p q, (ts = [] \/ c = true -> subset (firstg f) M = true) -> elems a f ts -> spaced c ts ->
      reads toks p (separated sep (map spell ts) c) q -> clear M q ->
      forall vs n b, exists ws n' b',
        (forall e err, tails toks a (GTok (MK sep) err) f e vs n b p q (vtailed (vs ++ ws) n' b')) /\
        outlines ws = map ast ts /\
        List.length ws = List.length ts /\
        (ts <> [] -> n' = n + List.length ts - (if c then 0 else 1) /\ b' = c).
    Proof.
      intros NF C. induction ts as [|t ts IH]; intros c p q F EL SP RD CL vs n b.
      - cbn [map separated reads] in RD. subst q. exists [], n, b. rewrite app_nil_r. split; [|split; [reflexivity|split; [reflexivity|congruence]]].
        intros e err. eapply tails_end. eapply sem_clear; eauto.
      - destruct (EL t (or_introl eq_refl)) as [Pt Wt]. destruct ts as [|t2 ts].
        + cbn [map separated] in RD. apply reads_app in RD as (p1 & R1 & R2). cbn [spaced] in SP. destruct c.
          * cbn [reads] in R2. destruct R2 as (p2 & T & ->).
            destruct (Pt p p1 R1 (SP _ _ T)) as (v & HS & Rv).
            exists [v], (S n), true. split; [|split; [cbn [map]; apply outlines_one; auto|split; [reflexivity|cbn [List.length]; intros _; split; [lia|reflexivity]]]].
            intros e err. destruct (sem_sym toks a sep err e p1 q T) as [w SC].
            eapply tails_more; [apply HS|exact SC|]. eapply tails_end. eapply sem_clear; eauto.
          * cbn [reads] in R2. subst p1. destruct (Pt p q R1 (SP _ CL)) as (v & HS & Rv).
            exists [v], n, false. split; [|split; [cbn [map]; apply outlines_one; auto|split; [reflexivity|cbn [List.length]; intros _; split; [lia|reflexivity]]]].
            intros e err. eapply tails_last; [apply HS| |reflexivity]. eapply sem_clear; [exact CL|exact C|reflexivity].
        + change (separated sep (map spell (t :: t2 :: ts)) c) with (spell t ++ Sym sep :: separated sep (map spell (t2 :: ts)) c) in RD.
          apply reads_app in RD as (p1 & R1 & R2). cbn [reads] in R2. destruct R2 as (p2 & T & R2).
          cbn [spaced] in SP. destruct SP as [S1 SP].
          assert (exists s, reads toks p2 (spell t2) s) as [s R3].
          { destruct ts; cbn [map separated] in R2; apply reads_app in R2 as (s & R3 & _); eauto. }
          destruct (Pt p p1 R1 (S1 _ _ _ T R3)) as (v & HS & Rv).
          assert (later : t2 :: ts = [] \/ c = true -> c = true) by (intros [?|?]; [discriminate|assumption]).
          destruct (IH c p2 q (fun K => F (or_intror (later K))) (fun t I => EL t (or_intror I)) SP R2 CL (vs ++ [v]) (S n) true) as (ws & n' & b' & TL & FW & LW & LN).
          exists (v :: ws), n', b'. split; [|split; [|split]].
          * intros e err. destruct (sem_sym toks a sep err e p1 p2 T) as [w SC].
            eapply tails_more; [apply HS|exact SC|]. specialize (TL e err). rewrite <- app_assoc in TL. exact TL.
          * cbn [map]. apply outlines_cons; auto.
          * cbn [List.length] in *. lia.
          * intros _. destruct LN as [-> ->]; [discriminate|]. cbn [List.length]. split; [lia|reflexivity].
    Qed.

    Lemma sem_separated a f ts c p q :
      nullg f = false -> (ts = [] \/ c = true -> subset (firstg f) M = true) -> subset (bit sep) M = true ->
      elems a f ts -> spaced c ts ->
      reads toks p (separated sep (map spell ts) c) q -> clear M q ->
      exists vs, (forall e err, sem toks a (tailed_values BNil (GTok (MK sep) err) f) e p (SOk q (VList vs))) /\
        outlines vs = map ast ts.
    Proof.
      intros NF F C EL SP RD CL.
      destruct (tails_separated a f NF C ts c p q F EL SP RD CL [] 0 false) as (ws & n' & b' & T & FW & _).
      exists ws. split; [|exact FW]. intros e err. unfold tailed_values. seq.
      - eapply sem_tailed; [build|apply T].
      - seq_done.
    Qed.

    (** Elements put behind a list. *)
    Lemma sem_separated_app a f ts c p q l :
      nullg f = false -> (ts = [] \/ c = true -> subset (firstg f) M = true) -> subset (bit sep) M = true ->
      elems a f ts -> spaced c ts ->
      reads toks p (separated sep (map spell ts) c) q -> clear M q ->
      exists vs, (forall e err app, bval toks p e app (VList l) ->
          sem toks a (tailed_values app (GTok (MK sep) err) f) e p (SOk q (VList (l ++ vs)))) /\
        outlines vs = map ast ts.
    Proof.
      intros NF F C EL SP RD CL.
      destruct (tails_separated a f NF C ts c p q F EL SP RD CL l 0 false) as (ws & n' & b' & T & FW & _).
      exists ws. split; [|exact FW]. intros e err app HB. unfold tailed_values. seq.
      - eapply sem_tailed; [exact HB|apply T].
      - seq_done.
    Qed.

    Lemma tails1_separated a f t ts c p q :
      nullg f = false -> (c = true -> subset (firstg f) M = true) -> subset (bit sep) M = true ->
      elems a f (t :: ts) -> spaced c (t :: ts) ->
      reads toks p (separated sep (map spell (t :: ts)) c) q -> clear M q ->
      exists vs n b, (forall e err, tails1 toks a (GTok (MK sep) err) f e p (SOk q (vtailed vs n b))) /\
        outlines vs = map ast (t :: ts).
    Proof.
      intros NF F C EL SP RD CL. destruct (EL t (or_introl eq_refl)) as [Pt Wt]. destruct ts as [|t2 ts].
      - cbn [map separated] in RD. apply reads_app in RD as (p1 & R1 & R2). cbn [spaced] in SP. destruct c.
        + cbn [reads] in R2. destruct R2 as (p2 & T & ->). destruct (Pt p p1 R1 (SP _ _ T)) as (v & HS & Rv).
          exists [v], 1, false. split; [|cbn [map]; apply outlines_one; auto].
          intros e err. destruct (sem_sym toks a sep err e p1 q T) as [w SC]. eapply tails1_more; [apply HS|exact SC|].
          eapply tails_end. eapply sem_clear; eauto.
        + cbn [reads] in R2. subst p1. destruct (Pt p q R1 (SP _ CL)) as (v & HS & Rv).
          exists [v], 0, false. split; [|cbn [map]; apply outlines_one; auto].
          intros e err. eapply tails1_one; [apply HS|]. eapply sem_clear; [exact CL|exact C|reflexivity].
      - change (separated sep (map spell (t :: t2 :: ts)) c) with (spell t ++ Sym sep :: separated sep (map spell (t2 :: ts)) c) in RD.
        apply reads_app in RD as (p1 & R1 & R2). cbn [reads] in R2. destruct R2 as (p2 & T & R2).
        cbn [spaced] in SP. destruct SP as [S1 SP].
        assert (exists s, reads toks p2 (spell t2) s) as [s R3].
        { destruct ts; cbn [map separated] in R2; apply reads_app in R2 as (s & R3 & _); eauto. }
        destruct (Pt p p1 R1 (S1 _ _ _ T R3)) as (v & HS & Rv).
        assert (later : t2 :: ts = [] \/ c = true -> c = true) by (intros [?|?]; [discriminate|assumption]).
        destruct (tails_separated a f NF C (t2 :: ts) c p2 q (fun K => F (later K)) (fun t I => EL t (or_intror I)) SP R2 CL [v] 1 false)
          as (ws & n' & b' & TL & FW & _).
        exists (v :: ws), n', b'. split; [|cbn [map]; apply outlines_cons; auto].
        intros e err. destruct (sem_sym toks a sep err e p1 p2 T) as [w SC]. eapply tails1_more; [apply HS|exact SC|apply TL].
    Qed.

    Lemma sem_tail1_values a sp f e p q vs n b :
      tails1 toks a sp f e p (SOk q (vtailed vs n b)) -> sem toks a (tailed1_values sp f) e p (SOk q (VList vs)).
    Proof. intros T. unfold tailed1_values. seq; [apply sem_tailed1; exact T|seq_done]. Qed.

    (** At least one element. *)
    Lemma sem_separated1 a f t ts c p q :
      nullg f = false -> (c = true -> subset (firstg f) M = true) -> subset (bit sep) M = true ->
      elems a f (t :: ts) -> spaced c (t :: ts) ->
      reads toks p (separated sep (map spell (t :: ts)) c) q -> clear M q ->
      exists vs, (forall e err, sem toks a (tailed1_values (GTok (MK sep) err) f) e p (SOk q (VList vs))) /\
        outlines vs = map ast (t :: ts).
    Proof.
      intros NF F C EL SP RD CL. destruct (tails1_separated a f t ts c p q NF F C EL SP RD CL) as (vs & n & b & T & O).
      exists vs. split; [|exact O]. intros e err. eapply sem_tail1_values. apply T.
    Qed.

    (** A list that goes on after a first separator. *)
    Lemma sem_resumed a f t ts c p r q :
      nullg f = false -> (c = true -> subset (firstg f) M = true) -> subset (bit sep) M = true ->
      elems a f (t :: ts) -> spaced c (t :: ts) -> takes toks p (Sym sep) r ->
      reads toks r (separated sep (map spell (t :: ts)) c) q -> clear M q ->
      exists vs, (forall e err, sem toks a (GResume (GTok (MK sep) err) f) e p (SOk q (VList vs))) /\
        outlines vs = map ast (t :: ts).
    Proof.
      intros NF F C EL SP TK RD CL. destruct (tails1_separated a f t ts c r q NF F C EL SP RD CL) as (vs & n & b & T & O).
      exists vs. split; [|exact O]. intros e err. destruct (sem_sym toks a sep err e p r TK) as [w SC].
      eapply sem_resume_some; [exact SC|apply T].
    Qed.

    (** Repetition without separators. *)
    Lemma sem_spelled a f ts p q :
      nullg f = false -> subset (firstg f) M = true -> elems a f ts ->
      (forall t q, In t ts -> clear M q -> fol t q) ->
      (forall t u q s, In t ts -> In u ts -> reads toks q (spell u) s -> fol t q) ->
      reads toks p (flat_map spell ts) q -> clear M q ->
      exists vs, (forall e, sem toks a (GMany f) e p (SOk q (VList vs))) /\ outlines vs = map ast ts.
    Proof.
      intros NF F EL LA ST RD CL.
      assert (exists vs, (forall e, manys toks a f e p q vs) /\ outlines vs = map ast ts) as (vs & MS & O).
      { revert p RD. induction ts as [|t ts IH]; intros p RD.
        - cbn in RD. subst q. exists []. split; [|reflexivity]. intros e. eapply manys_nil. eapply sem_clear; eauto.
        - cbn [flat_map] in RD. apply reads_app in RD as (r & R1 & R2). destruct (EL t (or_introl eq_refl)) as [Pt Wt].
          destruct (Pt p r R1) as (v & HS & Rv).
          { destruct ts as [|t2 ts]; [cbn in R2; subst r; apply LA; [now left|exact CL]|]. cbn [flat_map] in R2.
            apply reads_app in R2 as (s & R2 & _). apply (ST t t2 r s); [now left|right; now left|exact R2]. }
          destruct (IH (fun t I => EL t (or_intror I)) (fun t p I => LA t p (or_intror I))
            (fun t u p r I J => ST t u p r (or_intror I) (or_intror J)) r R2) as (vs & MS & OV).
          exists (v :: vs). split; [intros e; eapply manys_cons; [apply HS|apply MS]|]. cbn [map]. apply outlines_cons; auto. }
      exists vs. split; [|exact O]. intros e. apply sem_many, MS.
    Qed.
  End Lists.

  (** Lists whose elements have the same follow set. *)
  Lemma spaced_uniform {A} (spell : A -> list piece) F M sep c ts :
    N.land F (could_tbl sep) = 0%N -> subset F M = true -> spaced spell (fun _ => clear F) M sep c ts.
  Proof.
    intros C S. induction ts as [|t ts IH]; [exact I|]. destruct ts as [|u ts]; cbn [spaced].
    - destruct c; [intros p q T; eapply clear_takes; eauto|intros q D; eapply clear_subset; eauto].
    - split; [|exact IH]. intros p q s T _. eapply clear_takes; eauto.
  Qed.
End Parses.
