(** Every successful run of a parser of the table has a derivation. *)

From Coq Require Import String List NArith Arith Bool Lia.
From Verif Require First.
From Verif Require Import Base Peresil Token Schema Value Nt Grammar Points Table Static Typing Safety Yard RunOk Layout Deriv DerivMono.
Import ListNotations.
Local Open Scope string_scope.
Local Open Scope list_scope.
Local Open Scope nat_scope.

Section DerivOk.
  Variable toks : list token.
  Hypothesis WF : wf_toks toks.

  Notation sb := (sb toks).
  Notation valid := (valid toks).
  Notation starts := (starts toks).
  Notation der := (der toks).
  Notation etree := (etree toks).
  Notation car_ok := (car_ok toks).
  Notation op_ok := (op_ok toks).

  (** * The shunting yard *)

  Record ecar (c : car val) : Prop := {
    ec_s : valid (c_spt c);
    ec_e : valid (c_ept c);
    ec_lt : pos (c_spt c) < pos (c_ept c);
    ec_ok : car_ok c;
    ec_tree : etree c
  }.

  Definition op_der (o : opk) (s e : point) : Prop :=
    match o with
    | OpPrefix v => exists en, der (GNT N_expression_prefix_or_atom) [] s e (VVar en "Prefix" v)
    | OpInfix v => exists en, der (GNT N_expression_infix_or_postfix) [] s e (VVar en "Infix" v)
    | OpPostfix v => exists en, der (GNT N_expression_infix_or_postfix) [] s e (VVar en "Postfix" v) \/
        der (GNT N_operator_postfix_limited) [] s e v
    end.

  Record eop (o : opk) (s e : point) : Prop := {
    eo_s : valid s;
    eo_e : valid e;
    eo_lt : pos s < pos e;
    eo_ok : op_ok o s e;
    eo_der : op_der o s e
  }.

  Lemma mk_ecar c : car_ok c -> etree c -> ecar c.
  Proof. intros C T. destruct C. now constructor. Qed.

  Lemma mk_eop o s e : op_ok o s e -> op_der o s e -> eop o s e.
  Proof. intros C T. destruct C. now constructor. Qed.

  Lemma eprefix_apply v s e c res : eop (OpPrefix v) s e -> ecar c -> c_spt c = e ->
    exists c', apply_one toks (c :: res) (OpPrefix v) s e = AOk (c' :: res) /\
      ecar c' /\ c_spt c' = s /\ c_ept c' = c_ept c.
  Proof.
    intros O C E. destruct O as [_ _ Lo O (en & D)]. destruct C as [_ _ _ C T].
    destruct (prefix_apply _ WF v s e c res O C E) as (c' & A & C' & S' & E').
    exists c'. split; [auto|]. split; [|auto]. apply mk_ecar; auto. subst e. eapply E_Prefix; eauto.
  Qed.

  Lemma eprefix_apply_empty v s e : eop (OpPrefix v) s e ->
    (exists err, apply_one toks [] (OpPrefix v) s e = AErr s err) \/
    (exists c', apply_one toks [] (OpPrefix v) s e = AOk [c'] /\ ecar c' /\ c_spt c' = s /\ c_ept c' = e).
  Proof.
    intros O. destruct O as [_ _ Lo O (en & D)].
    destruct (prefix_apply_empty _ WF v s e O) as [H|(c' & A & C' & S' & E')]; [auto|right].
    exists c'. split; [auto|]. split; [|auto]. apply mk_ecar; auto. eapply E_Prefix0; eauto.
  Qed.

  Lemma eprefix_apply_behind v s e c res : eop (OpPrefix v) s e -> ecar c -> pos (c_ept c) < pos s ->
    exists err, apply_one toks (c :: res) (OpPrefix v) s e = AErr s err.
  Proof. intros O C. destruct O, C. eapply prefix_apply_behind; eauto. Qed.

  Lemma einfix_apply v s e l r : eop (OpInfix v) s e -> ecar l -> ecar r ->
    c_ept l = s -> c_spt r = e ->
    exists c', apply_one toks [r; l] (OpInfix v) s e = AOk [c'] /\
      ecar c' /\ c_spt c' = c_spt l /\ c_ept c' = c_ept r.
  Proof.
    intros O Cl Cr El Er. destruct O as [_ _ Lo O (en & D)]. destruct Cl as [_ _ _ Cl Tl]. destruct Cr as [_ _ _ Cr Tr].
    destruct (infix_apply _ WF v s e l r O Cl Cr El Er) as (c' & A & C' & S' & E').
    exists c'. split; [auto|]. split; [|auto]. apply mk_ecar; auto. subst s e. eapply (E_Infix toks en v l r); eauto.
  Qed.

  Lemma einfix_apply_missing v s e l : eop (OpInfix v) s e -> ecar l -> c_ept l = s ->
    (exists err, apply_one toks [l] (OpInfix v) s e = AErr s err) \/
    (exists c', apply_one toks [l] (OpInfix v) s e = AOk [c'] /\
      ecar c' /\ c_spt c' = c_spt l /\ c_ept c' = e).
  Proof.
    intros O Cl El. destruct O as [_ _ Lo O (en & D)]. destruct Cl as [_ _ _ Cl Tl].
    destruct (infix_apply_missing _ WF v s e l O Cl El) as [H|(c' & A & C' & S' & E')]; [auto|right].
    exists c'. split; [auto|]. split; [|auto]. apply mk_ecar; auto. subst s. eapply (E_Infix0 toks en v l e); eauto.
  Qed.

  Lemma epostfix_apply v s e c : eop (OpPostfix v) s e -> ecar c -> c_ept c = s ->
    exists c', apply_one toks [c] (OpPostfix v) s e = AOk [c'] /\
      ecar c' /\ c_spt c' = c_spt c /\ c_ept c' = e.
  Proof.
    intros O Cl El. destruct O as [_ _ Lo O (en & D)]. destruct Cl as [_ _ _ Cl Tl].
    destruct (postfix_apply _ WF v s e c O Cl El) as (c' & A & C' & S' & E').
    exists c'. split; [auto|]. split; [|auto]. apply mk_ecar; auto. subst s. destruct D as [D|D];
      [eapply (E_Postfix toks en v c e)|eapply (E_PostfixL toks v c e)]; eauto.
  Qed.

  (** * The stacks *)

  (** Operators waiting for an operand that starts at [q]. *)
  Inductive epending (p0 : point) : list (car opk) -> list (car val) -> point -> Prop :=
  | epend_start : epending p0 [] [] p0
  | epend_infix v s e l : eop (OpInfix v) s e -> ecar l -> c_spt l = p0 -> c_ept l = s ->
      epending p0 [mkCar (OpInfix v) s e] [l] e
  | epend_prefix v s e ops res : epending p0 ops res s -> eop (OpPrefix v) s e ->
      epending p0 (mkCar (OpPrefix v) s e :: ops) res e.

  Lemma epending_pos p0 ops res q : valid p0 -> epending p0 ops res q -> valid q /\ pos p0 <= pos q.
  Proof.
    intros V. induction 1.
    - auto.
    - destruct H, H0. subst. split; [auto|]. lia.
    - destruct H0. split; [auto|]. lia.
  Qed.

  Lemma epending_res p0 ops res q : epending p0 ops res q -> ops <> [] ->
    Forall (fun c => ecar c /\ pos (c_ept c) < pos q) res.
  Proof.
    induction 1; intros N.
    - congruence.
    - constructor; [|constructor]. destruct H. subst s. auto.
    - destruct ops as [|o ops].
      + inversion H; subst. constructor.
      + specialize (IHepending ltac:(discriminate)). destruct H0.
        eapply Forall_impl; [|exact IHepending]. cbn beta. intros c []. split; [auto|lia].
  Qed.

  (** All pending operators are applied to their operand. *)
  Lemma ecollapse p0 ops res c : epending p0 ops res (c_spt c) -> ecar c ->
    exists c', apply_all toks ops (c :: res) = AOk [c'] /\ ecar c' /\ c_spt c' = p0 /\ c_ept c' = c_ept c.
  Proof.
    intros H. remember (c_spt c) as q eqn:Eq. revert c Eq. induction H; intros c Eq C.
    - exists c. split; [reflexivity|]. auto.
    - cbn [apply_all c_val c_spt c_ept].
      destruct (einfix_apply v s e l c H H0 C H2 (eq_sym Eq)) as (c' & -> & C' & S' & E').
      cbn [abind apply_all]. exists c'. split; [reflexivity|]. split; [auto|]. split; congruence.
    - cbn [apply_all c_val c_spt c_ept].
      destruct (eprefix_apply v s e c res H0 C (eq_sym Eq)) as (c' & -> & C' & S' & E').
      cbn [abind].
      destruct (IHepending c' (eq_sym S') C') as (c'' & -> & C'' & S'' & E'').
      exists c''. split; [reflexivity|]. split; [auto|]. split; congruence.
  Qed.

  (** What is left when no operand follows. *)
  Lemma efinish_epending p0 ops res q fpt : valid p0 -> valid fpt -> pos p0 <= pos fpt ->
    epending p0 ops res q ->
    (exists p err, finish_yard toks (mkYard ops res) fpt = AErr p err /\ valid p /\ pos p0 <= pos p) \/
    (exists c, finish_yard toks (mkYard ops res) fpt = AOk c /\ ecar c /\ c_spt c = p0 /\ c_ept c = q).
  Proof.
    intros V0 Vf Lf H. unfold finish_yard. cbn [y_ops y_res]. destruct H.
    - left. cbn [apply_all abind]. eauto 6.
    - cbn [apply_all c_val c_spt c_ept].
      destruct (einfix_apply_missing v s e l H H0 H2) as [(err & ->)|(c' & -> & C' & S' & E')].
      + left. cbn [abind]. exists s, err. split; [reflexivity|]. destruct H, H0. subst. split; [auto|lia].
      + right. cbn [abind apply_all]. exists c'. split; [reflexivity|]. split; [auto|]. split; congruence.
    - cbn [apply_all c_val c_spt c_ept].
      destruct (epending_pos _ _ _ _ V0 H) as [Vs Ls].
      destruct res as [|c res].
      + destruct (eprefix_apply_empty v s e H0) as [(err & ->)|(c' & -> & C' & S' & E')].
        * left. cbn [abind]. eauto 6.
        * right. cbn [abind]. subst s.
          destruct (ecollapse _ _ _ _ H C') as (c'' & -> & C'' & S'' & E''). cbn [abind].
          exists c''. split; [reflexivity|]. split; [auto|]. split; congruence.
      + left. assert (ecar c /\ pos (c_ept c) < pos s) as [C LC].
        { assert (ops <> []) as N by (intros ->; inversion H).
          pose proof (epending_res _ _ _ _ H N) as F. inversion F; auto. }
        destruct (eprefix_apply_behind v s e c res H0 C LC) as (err & ->). cbn [abind]. eauto 6.
  Qed.

  (** The invariant of the loop at the point [q]. *)
  Inductive eyard (p0 : point) : yard -> estate -> point -> Prop :=
  | eyo_prefix ops res q : epending p0 ops res q -> eyard p0 (mkYard ops res) SPrefix q
  | eyo_infix ops res q b : epending p0 ops res q -> eyard p0 (mkYard ops res) (SInfix b) q
  | eyo_atom ops res c s : epending p0 ops res (c_spt c) -> ecar c -> (s = SAtom \/ s = SAtomLimited) ->
      eyard p0 (mkYard ops (c :: res)) s (c_ept c)
  | eyo_postfix v s e c : eop (OpPostfix v) s e -> ecar c -> c_spt c = p0 -> c_ept c = s ->
      eyard p0 (mkYard [mkCar (OpPostfix v) s e] [c]) SPostfix e.

  Lemma eyard_pos p0 y s q : valid p0 -> eyard p0 y s q -> valid q /\ pos p0 <= pos q.
  Proof.
    intros V H. destruct H; try (eapply epending_pos; eauto; fail).
    - destruct (epending_pos _ _ _ _ V H). destruct H0. split; [auto|lia].
    - destruct H, H0. subst. split; [auto|lia].
  Qed.

  Lemma eadapt_ok p0 y s q b : eyard p0 y s q -> eyard p0 y (adapt_state b y s) q.
  Proof.
    intros H. destruct s; cbn [adapt_state]; auto. destruct b; auto.
    destruct (y_ops y); auto. destruct (rev (y_res y)); auto.
    destruct (may_terminate_statement _); auto. inversion H; subst. constructor; auto.
  Qed.

  (** Complete expressions ecollapse to one. *)
  Lemma ecomplete p0 y s q : eyard p0 y s q -> (s = SAtom \/ s = SAtomLimited \/ s = SPostfix) ->
    exists c, apply_all toks (y_ops y) (y_res y) = AOk [c] /\ ecar c /\ c_spt c = p0 /\ c_ept c = q.
  Proof.
    intros H S. destruct H; try (destruct S as [|[|]]; discriminate).
    - apply ecollapse; auto.
    - cbn [y_ops y_res apply_all c_val c_spt c_ept].
      destruct (epostfix_apply v s e c H H0 H2) as (c' & -> & C' & S' & E'). cbn [abind].
      exists c'. split; [reflexivity|]. split; [auto|]. split; congruence.
  Qed.

  Lemma efinish_complete p0 y s q fpt : eyard p0 y s q -> (s = SAtom \/ s = SAtomLimited \/ s = SPostfix) ->
    exists c, finish_yard toks y fpt = AOk c /\ ecar c /\ c_spt c = p0 /\ c_ept c = q.
  Proof.
    intros H S. destruct (ecomplete _ _ _ _ H S) as (c & E & C).
    unfold finish_yard. rewrite E. cbn [abind]. eauto.
  Qed.

  Lemma eadd_after p0 y s q v e : eyard p0 y s q -> (s = SAtom \/ s = SAtomLimited \/ s = SPostfix) ->
    forall o, (o = OpInfix v \/ o = OpPostfix v) -> eop o q e ->
    exists y', add_op toks y o q e = AOk y' /\
      match o with
      | OpInfix _ => forall b, eyard p0 y' (SInfix b) e
      | _ => eyard p0 y' SPostfix e
      end.
  Proof.
    intros H S o Ho O. destruct (ecomplete _ _ _ _ H S) as (c & E & C & Cs & Ce).
    unfold add_op. rewrite apply_precedence_all by (destruct Ho as [->| ->]; exact I).
    rewrite E. cbn [abind y_ops y_res]. eexists. split; [reflexivity|].
    destruct Ho as [->| ->].
    - intros b. constructor. constructor; auto.
    - constructor; auto.
  Qed.

  Lemma eadd_prefix p0 ops res q v e : epending p0 ops res q -> eop (OpPrefix v) q e ->
    exists y', add_op toks (mkYard ops res) (OpPrefix v) q e = AOk y' /\ eyard p0 y' SPrefix e.
  Proof.
    intros H O. unfold add_op. cbn [y_ops y_res].
    assert (apply_precedence toks ops res (OpPrefix v) = AOk (mkYard ops res)) as ->.
    { destruct ops; [reflexivity|]. cbn [apply_precedence]. now rewrite should_pop_prefix. }
    cbn [abind y_ops y_res]. eexists. split; [reflexivity|]. constructor. constructor; auto.
  Qed.


  (** What a parser does, as far as it has enough fuel. *)
  Definition wokp (lo : nat) (t : ty) (fl : flags) (x : g) (f : gparser val) (p : point) : Prop :=
    forall pm, pm_ok toks pm ->
      match f pm p with
      | (pm', Success q v) => pm_ok toks pm' /\ good toks lo t fl p q v /\ der x [] p q v
      | (pm', Failure q _) => pm_ok toks pm' /\ valid q /\ pos p <= pos q
      | (_, Abort _) => True
      end.

  Definition shunt_result (p0 : point) (r : pm_t * presult) : Prop :=
    match r with
    | (pm', Success q v) => pm_ok toks pm' /\ exists c, ecar c /\ c_spt c = p0 /\ c_ept c = q /\ c_val c = v
    | (pm', Failure q _) => pm_ok toks pm' /\ valid q /\ pos p0 <= pos q
    | (_, Abort _) => True
    end.

  Lemma enum2 k1 t1 k2 t2 en v : typed v (TN en) -> enum_variants en = Some [(k1, Some t1); (k2, Some t2)] ->
    exists pl, (v = VVar en k1 pl /\ typed pl t1) \/ (v = VVar en k2 pl /\ typed pl t2).
  Proof.
    intros T E. inversion T as [| | | | | | | | | |k fs fields F1 F2|? k p vs t E' A P|? k vs E' A]; subst.
    - exfalso. unfold struct_fields in F1. unfold enum_variants in E. clear T F2.
      apply assoc_in in F1. apply assoc_in in E.
      assert (H : forallb (fun s => negb (existsb (fun e => String.eqb (fst s) (fst e)) (enums ++ internal_enums))) (structs ++ internal_structs) = true)
        by (vm_compute; reflexivity).
      rewrite forallb_forall in H. specialize (H _ F1). apply negb_true_iff in H. cbn [fst] in H.
      assert (existsb (fun e => String.eqb en (fst e)) (enums ++ internal_enums) = true); [|congruence].
      apply existsb_exists. eexists. split; [exact E|]. apply String.eqb_refl.
    - rewrite E in E'. injection E' as <-. cbn [assoc] in A.
      destruct (String.eqb_spec k k1) as [->|]; [injection A as <-; eauto|].
      destruct (String.eqb_spec k k2) as [->|]; [injection A as <-; eauto|discriminate].
    - rewrite E in E'. injection E' as <-. cbn [assoc] in A.
      destruct (String.eqb_spec k k1) as [->|]; [discriminate|].
      destruct (String.eqb_spec k k2) as [->|]; discriminate.
  Qed.

  Lemma shunt_der stmt poa iop pfl :
    forall p0, valid p0 ->
    (forall q, valid q ->
       wokp (sb q) (TN "PrefixOrAtom") (mkF true false true false) (GNT N_expression_prefix_or_atom) poa q) ->
    (forall q, valid q ->
       wokp (sb q) (TN "InfixOrPostfix") (mkF true false false false) (GNT N_expression_infix_or_postfix) iop q) ->
    (forall q, valid q ->
       wokp (sb q) (TN "OperatorPostfix") (mkF true false false false) (GNT N_operator_postfix_limited) pfl q) ->
    forall n y s q, eyard p0 y s q -> forall pm, pm_ok toks pm ->
      shunt_result p0 (shunt_loop toks n poa iop pfl stmt y s pm q).
  Proof.
    intros p0 V0 Hpoa Hiop Hpfl n. induction n as [|n IH]; intros y s q Y pm Hpm; [exact I|].
    cbn [shunt_loop]. destruct (eyard_pos _ _ _ _ V0 Y) as [Vq Lq].
    assert (Next : forall y' s' q', eyard p0 y' s' q' -> forall pm', pm_ok toks pm' ->
        shunt_result p0 (shunt_loop toks n poa iop pfl stmt y' (adapt_state stmt y' s') pm' q')).
    { intros y' s' q' Y' pm' P'. apply IH; auto. now apply eadapt_ok. }
    assert (Fin : (s = SAtom \/ s = SAtomLimited \/ s = SPostfix) -> forall r pm1, pm_ok toks pm1 ->
      shunt_result p0 (finish_progress pm1 (finish_yard toks y r))).
    { intros S' r pm1 P1. destruct (efinish_complete p0 y s q r Y S') as (c & -> & A & B & C).
      cbn [finish_progress shunt_result]. eauto 8. }
    assert (Post : (s = SAtom \/ s = SAtomLimited \/ s = SPostfix) -> forall op r pm1,
      pm_ok toks pm1 -> good toks (sb q) (TN "OperatorPostfix") (mkF true false false false) q r op ->
      op_der (OpPostfix op) q r ->
      shunt_result p0 (match add_op toks y (OpPostfix op) q r with
            | AOk y' => shunt_loop toks n poa iop pfl stmt y' (adapt_state stmt y' SPostfix) pm1 r
            | AErr p0 e => (pm1, Failure p0 e)
            | AAbort w => (pm1, Abort w)
            end)).
    { intros S' op r pm1 P1 G D. destruct G. cbn [fp] in g_prog. specialize (g_prog eq_refl). apply holds_typed in g_holds.
      destruct (eadd_after p0 y s q op r Y S' (OpPostfix op) (or_intror eq_refl)) as (y' & -> & Y').
      { apply mk_eop; auto. constructor; auto. }
      apply (Next _ _ _ Y'); auto. }
    assert (Operand : forall ops res, y = mkYard ops res -> epending p0 ops res q ->
      forall up : bool,
      shunt_result p0 (match (if up then with_amb Maximum poa else poa) pm q with
      | (pm1, Success p (VVar _ "Prefix" op)) =>
          match add_op toks y (OpPrefix op) q p with
          | AOk y' => shunt_loop toks n poa iop pfl stmt y' (adapt_state stmt y' SPrefix) pm1 p
          | AErr p0 e => (pm1, Failure p0 e)
          | AAbort w => (pm1, Abort w)
          end
      | (pm1, Success p (VVar _ "Atom" v)) =>
          shunt_loop toks n poa iop pfl stmt (add_expression y v q p)
            (adapt_state stmt (add_expression y v q p) SAtom) pm1 p
      | (pm1, Success _ _) => (pm1, Abort IllTyped)
      | (pm1, Failure p _) => finish_progress pm1 (finish_yard toks y p)
      | (pm1, Abort w) => (pm1, Abort w)
      end)).
    { intros ops res -> PE up.
      assert (H : match (if up then with_amb Maximum poa else poa) pm q with
              | (pm', Success r v) => pm_ok toks pm' /\
                   good toks (sb q) (TN "PrefixOrAtom") (mkF true false true false) q r v /\
                   der (GNT N_expression_prefix_or_atom) [] q r v
              | (pm', Failure r _) => pm_ok toks pm' /\ valid r /\ pos q <= pos r
              | (_, Abort _) => True
              end).
      { destruct up.
        - unfold with_amb. pose proof (Hpoa q Vq (set_amb pm Maximum) Hpm) as H.
          destruct (poa (set_amb pm Maximum) q) as [pm1 [r v|r e|w]]; auto.
        - exact (Hpoa q Vq pm Hpm). }
      destruct ((if up then with_amb Maximum poa else poa) pm q) as [pm1 [r v|r e|w]]; [| |exact I].
      - destruct H as (P1 & G & D). destruct G. cbn [fp fa fx fk] in *.
        specialize (g_prog eq_refl). specialize (g_starts eq_refl).
        apply holds_typed in g_holds.
        destruct (enum2 _ _ _ _ _ _ g_holds eq_refl) as (pl & [[-> T]|[-> T]]); cbn iota.
        + assert (starts q pl) as SP.
          { destruct g_starts as (S2 & _ & _). split; [exact S2|]. split; intros ? ->; inversion T. }
          destruct (eadd_prefix p0 ops res q pl r PE) as (y' & -> & Y').
          { apply mk_eop; [constructor; auto|]. eexists. exact D. }
          apply (Next _ _ _ Y'); auto.
        + assert (starts q pl) as SP.
          { destruct g_starts as (S2 & _ & _). split; [exact S2|]. split; intros ? ->; inversion T. }
          unfold add_expression. cbn [y_ops y_res].
          apply (Next _ SAtom r); auto.
          apply (eyo_atom p0 ops res (mkCar pl q r)); auto. apply mk_ecar; [constructor; auto|]. eapply E_Atom; eauto.
      - destruct H as (P1 & Vr & Lr).
        destruct (efinish_epending p0 ops res q r V0 Vr ltac:(lia) PE) as [(p & err & -> & A & B)|(c & -> & A & B & C)];
          cbn [finish_progress shunt_result]; eauto 8. }
    assert (Oper : (s = SAtom \/ s = SPostfix) ->
      shunt_result p0 (match iop pm q with
            | (pm1, Success p (VVar _ "Infix" op)) =>
                match add_op toks y (OpInfix op) q p with
                | AOk y' => shunt_loop toks n poa iop pfl stmt y' (adapt_state stmt y' (SInfix (is_range op))) pm1 p
                | AErr p0 e => (pm1, Failure p0 e)
                | AAbort w => (pm1, Abort w)
                end
            | (pm1, Success p (VVar _ "Postfix" op)) =>
                match add_op toks y (OpPostfix op) q p with
                | AOk y' => shunt_loop toks n poa iop pfl stmt y' (adapt_state stmt y' SPostfix) pm1 p
                | AErr p0 e => (pm1, Failure p0 e)
                | AAbort w => (pm1, Abort w)
                end
            | (pm1, Success _ _) => (pm1, Abort IllTyped)
            | (pm1, Failure p _) => finish_progress pm1 (finish_yard toks y p)
            | (pm1, Abort w) => (pm1, Abort w)
            end)).
    { intros S'. assert (s = SAtom \/ s = SAtomLimited \/ s = SPostfix) as S2 by tauto.
      pose proof (Hiop q Vq pm Hpm) as H.
      destruct (iop pm q) as [pm1 [r v|r e|w]]; [| |exact I].
      2: { destruct H as (P1 & Vr & Lr). apply Fin; auto. }
      destruct H as (P1 & G & D). pose proof G as G'. destruct G. cbn [fp fa fx fk] in *.
      specialize (g_prog eq_refl). apply holds_typed in g_holds.
      destruct (enum2 _ _ _ _ _ _ g_holds eq_refl) as (pl & [[-> T]|[-> T]]); cbn iota.
      - destruct (eadd_after p0 y s q pl r Y S2 (OpInfix pl) (or_introl eq_refl)) as (y' & -> & Y').
        { apply mk_eop; [constructor; auto|]. eexists. exact D. }
        apply (Next _ _ _ (Y' _)); auto.
      - apply Post; auto; [|exists "InfixOrPostfix"; now left].
        destruct G'. constructor; auto; try discriminate. now apply typed_holds. }
    destruct s as [|b| | |].
    - inversion Y as [ops res ? PE| |? ? ? ? ? ? DS|]; subst; [|destruct DS; discriminate].
      exact (Operand ops res eq_refl PE false).
    - inversion Y as [|ops res ? ? PE|? ? ? ? ? ? DS|]; subst; [|destruct DS; discriminate].
      exact (Operand ops res eq_refl PE _).
    - apply Oper. auto.
    - apply Oper. auto.
    - pose proof (Hpfl q Vq pm Hpm) as H.
      destruct (pfl pm q) as [pm1 [r v|r e|w]]; [| |exact I].
      + destruct H as (P1 & G & D). apply Post; auto. exists "". now right.
      + destruct H as (P1 & Vr & Lr). apply Fin; auto.
  Qed.

  (** * The interpreter *)

  Definition dres (x : g) (e : env) (p : point) (r : pm_t * presult) : Prop :=
    match r with
    | (pm', Success q v) => pm_ok toks pm' /\ valid q /\ pos p <= pos q /\ der x e p q v
    | (pm', Failure q _) => pm_ok toks pm' /\ valid q /\ pos p <= pos q
    | (_, Abort _) => True
    end.

  Definition der_spec (n : nat) : Prop := forall x clean e p pm,
    tsafe clean x = true -> valid p -> (clean = true -> sub p = None) -> pm_ok toks pm ->
    dres x e p (run table toks n x e pm p).

  (** A failure is reported in place or at another token. *)
  Definition fos_spec (n : nat) : Prop := forall x clean e p pm,
    tsafe clean x = true -> valid p -> (clean = true -> sub p = None) -> pm_ok toks pm -> tfos x = true ->
    forall pm' q er, run table toks n x e pm p = (pm', Failure q er) -> q = p \/ off p < off q.

  Lemma nt_good n m p : valid p -> forall pm, pm_ok toks pm ->
    match run table toks n (GNT m) [] pm p with
    | (pm', Success q v) => pm_ok toks pm' /\ good toks (sb p) (nt_type m) (gfl (GNT m)) p q v
    | (pm', Failure q _) => pm_ok toks pm' /\ valid q /\ pos p <= pos q
    | (_, Abort _) => True
    end.
  Proof.
    intros V pm Hpm. set (k := tld (GNT m) + K * rem toks p).
    assert (okp toks (sb p) (nt_type m) (gfl (GNT m)) (run table toks (n + k) (GNT m) []) p) as H.
    { apply (run_ok _ WF (n + k) (GNT m) [] (nt_type m) false); auto; try discriminate.
      - unfold tsafe. cbn [gsafe ld]. rewrite andb_true_r. apply Nat.leb_le. apply ldn_K.
      - constructor. lia.
      - unfold k. lia. }
    specialize (H pm Hpm).
    destruct (run table toks n (GNT m) [] pm p) as [pm' r] eqn:R.
    destruct r as [q v|q er|w]; [| |exact I].
    - rewrite (run_fuel table toks n (n + k)), R in H; [tauto|lia|rewrite R; discriminate].
    - rewrite (run_fuel table toks n (n + k)), R in H; [tauto|lia|rewrite R; discriminate].
  Qed.

  Ltac safe_inv H :=
    unfold tsafe in H; cbn [gsafe] in H; apply andb_true_iff in H; destruct H as [_ H];
    repeat match type of H with
           | _ && _ = true => let H' := fresh H in apply andb_true_iff in H; destruct H as [H H']
           end;
    fold tsafe in *.

  Lemma steps_der n b : der_spec n -> forall steps clean e p pm,
    safe_steps tsafe steps clean = true -> valid p -> (clean = true -> sub p = None) -> pm_ok toks pm ->
    match run_steps toks (run table toks n) steps b e pm p with
    | (pm', Success q v) => pm_ok toks pm' /\ valid q /\ pos p <= pos q /\
        exists e', ders toks steps e p e' q /\ beval toks q e' b = BOk v
    | (pm', Failure q _) => pm_ok toks pm' /\ valid q /\ pos p <= pos q
    | (_, Abort _) => True
    end.
  Proof.
    intros IH. induction steps as [|[pt y] steps IHs]; intros clean e p pm S V C P; cbn [run_steps].
    - destruct (beval toks p e b) as [v|] eqn:B; [|exact I]. split; [auto|]. split; [auto|]. split; [lia|].
      exists e. split; [constructor|auto].
    - cbn [safe_steps] in S. apply andb_true_iff in S as [S1 S2].
      pose proof (IH y clean e p pm S1 V C P) as H. unfold dres in H.
      destruct (run table toks n y e pm p) as [pm1 [q v|q er|w]] eqn:R; [|auto|exact I].
      destruct H as (P1 & Vq & Lq & D).
      destruct (bind_pat pt v e) as [e1|] eqn:BP; [|exact I].
      assert (next_clean clean y = true -> sub q = None) as C'.
      { intros NC. destruct y; try discriminate; cbn [next_clean] in NC.
        - destruct (inv_tok _ _ _ _ _ _ _ D) as (NE' & pm0 & T).
          pose proof (tok_ok _ WF m e0 pm0 p V NE') as TO. rewrite T in TO. destruct TO as [_ TO].
          destruct (tks_whole _ _ _ _ _ TO NC) as [_ TO']. exact TO'.
        - inversion D; subst. auto. }
      specialize (IHs _ e1 q pm1 S2 Vq C' P1).
      destruct (run_steps toks (run table toks n) steps b e1 pm1 q) as [pm2 [r u|r er|w]]; [| |exact I].
      + destruct IHs as (A1 & A2 & A3 & e' & A4 & A5). split; [auto|]. split; [auto|]. split; [lia|].
        exists e'. split; [|auto]. econstructor; eauto.
      + destruct IHs as (A1 & A2 & A3). split; [auto|]. split; [auto|]. lia.
  Qed.

  Lemma alts_der x e ps p : valid p ->
    (forall f, In f ps -> forall pm, pm_ok toks pm -> dres x e p (f pm p)) ->
    forall cur (pm : pm_t), pm_ok toks pm -> dres x e p (pm, cur) ->
    dres x e p (alternate_from pt_lt recov cur ps pm p).
  Proof.
    intros V. induction ps as [|f ps IH]; intros F cur pm P C; cbn [alternate_from]; [exact C|].
    destruct cur as [q v|q er|w]; auto. cbn [recov].
    pose proof (F f (or_introl eq_refl) pm P) as Hf. destruct (f pm p) as [pm1 r].
    destruct r as [q' v'|q' e'|w].
    - destruct ps; cbn [alternate_from dres] in *; (split; [apply pm_record; tauto|tauto]).
    - apply IH.
      + intros f0 H0. apply F. now right.
      + cbn [dres] in *. apply pm_record; tauto.
      + cbn [dres] in *. split; [apply pm_record; tauto|tauto].
    - destruct ps; exact I.
  Qed.

  Lemma many_der x e f k :
    (forall pm p, valid p -> pm_ok toks pm -> dres x e p (f pm p)) -> forall pm p, valid p -> pm_ok toks pm ->
    match zero_or_more pt_lt recov k f pm p with
    | (pm', Success q l) => pm_ok toks pm' /\ valid q /\ pos p <= pos q /\ items toks None x e p q l
    | (pm', Failure q _) => pm_ok toks pm' /\ valid q /\ pos p <= pos q
    | (_, Abort _) => True
    end.
  Proof.
    intros F. induction k as [|k IH]; intros pm p V P; cbn [zero_or_more]; [exact I|].
    pose proof (F pm p V P) as H. destruct (f pm p) as [pm1 [q v|q er|w]]; cbn [dres] in H; [| |exact I].
    - destruct H as (P1 & Vq & Lq & D). specialize (IH pm1 q Vq P1).
      destruct (zero_or_more pt_lt recov k f pm1 q) as [pm2 [r l|r er|w]]; [| |exact I].
      + destruct IH as (A1 & A2 & A3 & A4). split; [auto|]. split; [auto|]. split; [lia|].
        econstructor; eauto. constructor.
      + destruct IH as (A1 & A2 & A3). split; [auto|]. split; [auto|]. lia.
    - cbn [recov]. split; [apply pm_record; tauto|]. split; [auto|]. split; [lia|]. constructor; auto.
  Qed.

  (** Reading a separator, or failing to. *)
  Lemma between_fail n sep e pm p pm' q er : valid q -> pos p <= pos q ->
    run table toks n sep e pm p = (pm', Failure q er) -> between toks (Some sep) e p q.
  Proof.
    intros V L R. destruct (tfip sep) eqn:F; [|now apply B_gap].
    apply fip_ok in R; auto. subst q. apply B_none.
  Qed.

  Lemma nil_fail n sep f e pm p pm' q er : fos_spec n -> tsafe false f = true -> valid p -> pm_ok toks pm ->
    valid q -> pos p <= pos q ->
    run table toks n f e pm p = (pm', Failure q er) -> items toks (Some sep) f e p q [].
  Proof.
    intros FS Sf Vp P V L R. constructor; auto.
    - intros [E|F]; [discriminate|]. eapply fip_ok; eauto.
    - split; [intros F; eapply (FS f false); eauto; discriminate|].
      destruct (N.eq_dec (N.land (First.firstg f) (First.offered toks p)) 0) as [Z|Z]; [left|now right].
      pose proof (First.run_idle toks n f e pm p Z) as H. rewrite R in H. exact H.
  Qed.

  Lemma nil_here sep f e p : valid p -> items toks (Some sep) f e p p [].
  Proof. intros V. constructor; auto. Qed.

  Definition row (ok : val -> Prop) (sep f : g) (e : env) : point -> list val -> Prop :=
    chain (fun a b v => der f e a b v) (fun v a b => (exists d, der sep e a b d) \/ (ok v /\ valid b /\ pos a <= pos b)).

  Lemma row_cons ok sep f e p q r v vs : der f e p q v -> valid r -> pos q <= pos r -> (exists d, der sep e q r d) \/ ok v ->
    row ok sep f e r vs -> row ok sep f e p (v :: vs).
  Proof. intros D V L S C. destruct vs as [|w vs]; [eapply ch_one; eauto|]. eapply ch_cons; eauto. cbn beta. tauto. Qed.

  Lemma row_strict sep f e p vs : row (fun _ => False) sep f e p vs ->
    chain (fun a b v => der f e a b v) (fun _ a b => exists d, der sep e a b d) p vs.
  Proof.
    intros R. unfold row in R. induction R as [p|p q v D|p q r v w vs D S R IH]; [constructor|eapply ch_one; eauto|].
    eapply ch_cons; eauto. destruct S as [S|[[] _]]. exact S.
  Qed.

  Definition lres (ok : val -> Prop) (n : nat) (sep f : g) (e : env) (l : list val) (p : point) (r : pm_t * presult) : Prop :=
    match r with
    | (pm', Success q v) => pm_ok toks pm' /\ valid q /\ pos p <= pos q /\
        exists vs k b, v = vtailed (l ++ vs) k b /\ items toks (Some sep) f e p q vs /\ row ok sep f e p vs
    | (pm', Failure q _) => pm_ok toks pm' /\ valid q /\ pos p <= pos q
    | (_, Abort _) => True
    end.

  Lemma tailed_der n sep f e : der_spec n -> fos_spec n -> tsafe false sep = true -> tsafe false f = true ->
    forall k l c b pm p, valid p -> pm_ok toks pm ->
    lres (fun _ => False) n sep f e l p (tailed_loop k (run table toks n sep e) (run table toks n f e) l c b pm p).
  Proof.
    intros IH FS Ss Sf. induction k as [|k IHk]; intros l c b pm p V P; cbn [tailed_loop]; [exact I|].
    pose proof (IH f false e p pm Sf V ltac:(discriminate) P) as Hf.
    destruct (run table toks n f e pm p) as [pm1 [q v|q er|w]] eqn:R1; cbn [dres] in Hf; [| |exact I].
    - destruct Hf as (P1 & Vq & Lq & D).
      pose proof (IH sep false e q pm1 Ss Vq ltac:(discriminate) P1) as Hs.
      destruct (run table toks n sep e pm1 q) as [pm2 [r u|r er|w]] eqn:R2; cbn [dres] in Hs; [| |exact I].
      + destruct Hs as (P2 & Vr & Lr & Ds).
        specialize (IHk (l ++ [v]) (S c) true pm2 r Vr P2). unfold lres in *.
        destruct (tailed_loop k _ _ _ _ _ _ _) as [pm3 [s w|s er|w]]; [| |exact I].
        * destruct IHk as (A1 & A2 & A3 & vs & kk & bb & -> & A4 & A5).
          split; [auto|]. split; [auto|]. split; [lia|]. exists (v :: vs), kk, bb. rewrite <- app_assoc. split; [reflexivity|].
          split; [econstructor; eauto; eapply B_sep; eauto|eapply (row_cons _ _ _ _ _ q r); eauto].
        * destruct IHk as (A1 & A2 & A3). split; [auto|]. split; [auto|]. lia.
      + destruct Hs as (P2 & Vr & Lr). cbn [lres]. split; [auto|]. split; [auto|]. split; [lia|].
        exists [v]. do 2 eexists. split; [reflexivity|].
        split; [econstructor; eauto using nil_here; eapply between_fail; eauto|eapply ch_one; eauto].
    - destruct Hf as (P1 & Vq & Lq). cbn [lres]. split; [auto|]. split; [auto|]. split; [lia|].
      exists []. do 2 eexists. rewrite app_nil_r. split; [reflexivity|]. split; [|constructor]. eapply (nil_fail n sep f e pm p); [exact FS|exact Sf|exact V|exact P|auto|auto|exact R1].
  Qed.

  Lemma tailed1_der n sep f e : der_spec n -> fos_spec n -> tsafe false sep = true -> tsafe false f = true ->
    forall pm p, valid p -> pm_ok toks pm ->
    match tailed1 n (run table toks n sep e) (run table toks n f e) pm p with
    | (pm', Success q v) => pm_ok toks pm' /\ valid q /\ pos p <= pos q /\
        exists vs k b, v = vtailed vs k b /\ vs <> [] /\ items toks (Some sep) f e p q vs /\ row (fun _ => False) sep f e p vs
    | (pm', Failure q _) => pm_ok toks pm' /\ valid q /\ pos p <= pos q
    | (_, Abort _) => True
    end.
  Proof.
    intros IH FS Ss Sf pm p V P. unfold tailed1.
    pose proof (IH f false e p pm Sf V ltac:(discriminate) P) as Hf.
    destruct (run table toks n f e pm p) as [pm1 [q v|q er|w]] eqn:R1; cbn [dres] in Hf; [|auto|exact I].
    destruct Hf as (P1 & Vq & Lq & D).
    pose proof (IH sep false e q pm1 Ss Vq ltac:(discriminate) P1) as Hs.
    destruct (run table toks n sep e pm1 q) as [pm2 [r u|r er|w]] eqn:R2; cbn [dres] in Hs; [| |exact I].
    - destruct Hs as (P2 & Vr & Lr & Ds).
      pose proof (tailed_der n sep f e IH FS Ss Sf n [v] 1 false pm2 r Vr P2) as H. unfold lres in H.
      destruct (tailed_loop n _ _ _ _ _ _ _) as [pm3 [s w|s er|w]]; [| |exact I].
      + destruct H as (A1 & A2 & A3 & vs & kk & bb & -> & A4 & A5).
        split; [auto|]. split; [auto|]. split; [lia|]. exists (v :: vs), kk, bb. split; [reflexivity|].
        split; [discriminate|]. split; [econstructor; eauto; eapply B_sep; eauto|eapply (row_cons _ _ _ _ _ q r); eauto].
      + destruct H as (A1 & A2 & A3). split; [auto|]. split; [auto|]. lia.
    - destruct Hs as (P2 & Vr & Lr). split; [auto|]. split; [auto|]. split; [lia|].
      exists [v]. do 2 eexists. split; [reflexivity|]. split; [discriminate|].
      split; [econstructor; eauto using nil_here; eapply between_fail; eauto|eapply ch_one; eauto].
  Qed.

  Lemma implicit_der n sep f e : der_spec n -> fos_spec n -> tsafe false sep = true -> tsafe false f = true ->
    forall k l c b pm p, valid p -> pm_ok toks pm ->
    lres (fun v => is_implicit_separator v = true) n sep f e l p (implicit_loop k (run table toks n sep e) (run table toks n f e) l c b pm p).
  Proof.
    intros IH FS Ss Sf. induction k as [|k IHk]; intros l c b pm p V P; cbn [implicit_loop]; [exact I|].
    pose proof (IH f false e p pm Sf V ltac:(discriminate) P) as Hf.
    destruct (run table toks n f e pm p) as [pm1 [q v|q er|w]] eqn:R1; cbn [dres] in Hf; [| |exact I].
    - destruct Hf as (P1 & Vq & Lq & D).
      pose proof (IH sep false e q pm1 Ss Vq ltac:(discriminate) P1) as Hs.
      assert (Next : forall c b pm2 r, pm_ok toks pm2 -> valid r -> pos q <= pos r -> between toks (Some sep) e q r -> (exists d, der sep e q r d) \/ is_implicit_separator v = true ->
        lres (fun v => is_implicit_separator v = true) n sep f e l p (implicit_loop k (run table toks n sep e) (run table toks n f e) (l ++ [v]) c b pm2 r)).
      { intros c0 b0 pm2 r P2 Vr Lr B Bs. specialize (IHk (l ++ [v]) c0 b0 pm2 r Vr P2). unfold lres in *.
        destruct (implicit_loop k _ _ _ _ _ _ _) as [pm3 [s w|s er|w]]; [| |exact I].
        * destruct IHk as (A1 & A2 & A3 & vs & kk & bb & -> & A4 & A5).
          split; [auto|]. split; [auto|]. split; [lia|]. exists (v :: vs), kk, bb. rewrite <- app_assoc. split; [reflexivity|].
          split; [econstructor; eauto|eapply (row_cons _ _ _ _ _ q r); eauto].
        * destruct IHk as (A1 & A2 & A3). split; [auto|]. split; [auto|]. lia. }
      destruct (run table toks n sep e pm1 q) as [pm2 [r u|r er|w]] eqn:R2; cbn [dres] in Hs; [| |exact I].
      + destruct Hs as (P2 & Vr & Lr & Ds). apply Next; eauto. eapply B_sep; eauto.
      + destruct Hs as (P2 & Vr & Lr).
        destruct (is_implicit_separator v) eqn:Imp; [apply Next; auto; eapply between_fail; eauto|].
        cbn [lres]. split; [auto|]. split; [auto|]. split; [lia|].
        exists [v]. do 2 eexists. split; [reflexivity|].
        split; [econstructor; eauto using nil_here; eapply between_fail; eauto|eapply ch_one; eauto].
    - destruct Hf as (P1 & Vq & Lq). cbn [lres]. split; [auto|]. split; [auto|]. split; [lia|].
      exists []. do 2 eexists. rewrite app_nil_r. split; [reflexivity|]. split; [|constructor]. eapply (nil_fail n sep f e pm p); [exact FS|exact Sf|exact V|exact P|auto|auto|exact R1].
  Qed.

  Lemma der_step n : der_spec n -> fos_spec n -> der_spec (S n).
  Proof.
    intros IH FS x clean e p pm S V C P.
    assert (Sub : forall y, tsafe false y = true -> forall pm, pm_ok toks pm -> dres y e p (run table toks n y e pm p)).
    { intros y Sy pm0 P0. apply (IH y false); auto. discriminate. }
    destruct x as [m err|nn| |steps b|gs|y|y|app sep f|sep f|sep f|sep f|o c'|y|y|y err|y err|l y|err y|a b|stmt]; cbn [run].
    - safe_inv S. pose proof (tok_ok _ WF m err pm p V S) as T.
      destruct (tok toks m err pm p) as [pm1 [q v|q er|w]] eqn:R; [| |exact I].
      + destruct T as [-> T]. pose proof T as T'. destruct T'. cbn [dres]. split; [auto|]. split; [auto|]. split; [lia|].
        eapply D_Tok; eauto.
      + destruct T as (T1 & T2 & T3). subst. cbn [dres]. auto.
    - assert (tsafe false (table nn) = true) as St by apply nt_facts_all.
      pose proof (IH (table nn) false [] p pm St V ltac:(discriminate) P) as H.
      destruct (run table toks n (table nn) [] pm p) as [pm1 [q v|q er|w]]; auto. cbn [dres] in *.
      repeat (split; [tauto|]). apply D_NT. tauto.
    - cbn [dres]. repeat (split; [auto|]). constructor.
    - safe_inv S. pose proof (steps_der n b IH steps clean e p pm S V C P) as H.
      destruct (run_steps toks (run table toks n) steps b e pm p) as [pm1 [q v|q er|w]]; auto. cbn [dres].
      destruct H as (A1 & A2 & A3 & e' & A4 & A5). repeat (split; [auto|]). econstructor; eauto.
    - unfold tsafe in S. cbn [gsafe] in S. apply andb_true_iff in S. destruct S as [_ S].
      destruct gs as [|y gs]; [discriminate|]. fold tsafe in S. rewrite forallb_forall in S.
      assert (H : forall z, In z (y :: gs) -> forall pm, pm_ok toks pm -> dres (GAlt (y :: gs)) e p (run table toks n z e pm p)).
      { intros z Hz pm0 P0. pose proof (Sub z (S z Hz) pm0 P0) as H.
        destruct (run table toks n z e pm0 p) as [pm1 [q v|q er|w]]; auto. cbn [dres] in *.
        repeat (split; [tauto|]). eapply D_Alt; [exact Hz|tauto]. }
      cbn [map alternate]. pose proof (H y (or_introl eq_refl) pm P) as Hy.
      destruct (run table toks n y e pm p) as [pm1 r].
      destruct r as [q v|q er|w].
      + apply alts_der; auto; [|cbn [dres] in Hy; tauto].
        intros f Hf. apply in_map_iff in Hf. destruct Hf as (z & <- & Hz). apply H. now right.
      + apply alts_der; auto; [|cbn [dres] in Hy; tauto].
        intros f Hf. apply in_map_iff in Hf. destruct Hf as (z & <- & Hz). apply H. now right.
      + destruct gs; exact I.
    - safe_inv S. unfold map_p, optional. pose proof (Sub y S pm P) as H.
      destruct (run table toks n y e pm p) as [pm1 [q v|q er|w]]; cbn [dres recov] in *; auto.
      + repeat (split; [tauto|]). apply D_Some. tauto.
      + split; [apply pm_record; tauto|]. repeat (split; [auto|]). apply D_None.
    - safe_inv S. unfold map_p.
      pose proof (many_der y e (run table toks n y e) n) as H.
      specialize (H (fun pm0 p0 V0 P0 => IH y false e p0 pm0 S V0 ltac:(discriminate) P0) pm p V P).
      destruct (zero_or_more pt_lt recov n (run table toks n y e) pm p) as [pm1 [q l|q er|w]]; auto. cbn [dres].
      repeat (split; [tauto|]). apply D_Many. tauto.
    - safe_inv S. destruct (beval toks p e app) as [[]|] eqn:B; try exact I.
      pose proof (tailed_der n sep f e IH FS S S1 n l 0 false pm p V P) as H. unfold lres in H.
      destruct (tailed_loop n _ _ _ _ _ _ _) as [pm1 [q v|q er|w]]; auto. cbn [dres].
      destruct H as (A1 & A2 & A3 & vs & kk & bb & -> & A4 & A5). repeat (split; [auto|]). econstructor; eauto. now apply row_strict.
    - safe_inv S. pose proof (tailed1_der n sep f e IH FS S S1 pm p V P) as H.
      destruct (tailed1 n _ _ _ _) as [pm1 [q v|q er|w]]; auto. cbn [dres].
      destruct H as (A1 & A2 & A3 & vs & kk & bb & -> & A4 & A5 & A6). repeat (split; [auto|]). econstructor; eauto. now apply row_strict.
    - safe_inv S. unfold resume. pose proof (Sub sep S pm P) as H.
      destruct (run table toks n sep e pm p) as [pm1 [q v|q er|w]] eqn:R1; cbn [dres] in *; auto.
      + destruct H as (P1 & Vq & Lq & D).
        pose proof (tailed1_der n sep f e IH FS S S2 pm1 q Vq P1) as H.
        destruct (tailed1 n _ _ _ _) as [pm2 [r u|r er|w]]; auto.
        * destruct H as (A1 & A2 & A3 & vs & kk & bb & -> & A4 & A5 & A6). unfold vtailed. cbn [dres].
          split; [auto|]. split; [auto|]. split; [lia|]. eapply D_Resume; [|exact A5|now apply row_strict]. eapply B_sep; eauto.
        * cbn [dres]. split; [tauto|]. split; [auto|]. split; [auto|]. apply D_Resume0.
      + destruct H as (P1 & Vq & Lq). cbn [dres]. split; [auto|]. split; [auto|]. split; [auto|].
        eapply D_Resume; [eapply between_fail; eauto|now apply nil_here|constructor].
    - unfold tsafe in S. cbn [gsafe] in S. apply andb_true_iff in S. destruct S as [_ S].
      apply andb_true_iff in S. destruct S as [S S1]. apply andb_true_iff in S. destruct S as [S S0]. fold tsafe in *.
      pose proof (implicit_der n sep f e IH FS S S0 n [] 0 false pm p V P) as H. unfold lres in H.
      destruct (implicit_loop n _ _ _ _ _ _ _) as [pm1 [q v|q er|w]]; auto. cbn [dres].
      destruct H as (A1 & A2 & A3 & vs & kk & bb & -> & A4 & A5). repeat (split; [auto|]). econstructor; eauto.
    - safe_inv S. destruct (nested_ok _ WF o c' pm p V (C S)) as (q & r & R & Vq & Lq & _). rewrite R.
      cbn [dres]. repeat (split; [auto|]). eapply D_Nested; eauto.
    - safe_inv S. pose proof (Sub y S pm P) as H.
      destruct (run table toks n y e pm p) as [pm1 [q v|q er|w]]; cbn [dres] in *; auto.
      destruct (ex toks p q) as [r|] eqn:X; [|exact I]. cbn [dres]. repeat (split; [tauto|]). eapply D_Ext; [apply H|auto].
    - safe_inv S. unfold map_p, peek. pose proof (Sub y S pm P) as H.
      destruct (run table toks n y e pm p) as [pm1 [q v|q er|w]]; cbn [dres] in *; auto.
      + split; [tauto|]. repeat (split; [auto|]). eapply D_Peek; apply H.
      + split; [tauto|]. split; [auto|]. lia.
    - safe_inv S. pose proof (Sub y S pm P) as H.
      destruct (run table toks n y e pm p) as [pm1 [q v|q er|w]]; cbn [dres] in *; auto.
      repeat (split; [tauto|]). eapply D_MapErr; apply H.
    - safe_inv S. pose proof (Sub y S pm P) as H.
      destruct (run table toks n y e pm p) as [pm1 [q v|q er|w]]; cbn [dres] in *; auto.
      destruct v; try exact I. destruct (into_simple n0) as [r|] eqn:IS; cbn [dres].
      + repeat (split; [tauto|]). eapply D_Simple; [apply H|auto].
      + split; [tauto|]. split; [auto|]. lia.
    - safe_inv S. unfold with_amb. pose proof (Sub y S (set_amb pm l) (pm_set _ _ _ P)) as H.
      destruct (run table toks n y e (set_amb pm l) p) as [pm1 [q v|q er|w]]; cbn [dres] in *; auto.
      + split; [apply pm_set; tauto|]. repeat (split; [tauto|]). apply D_Amb. tauto.
    - safe_inv S. destruct (is_maximum (m_state pm)); [cbn [dres]; auto|]. pose proof (Sub y S pm P) as H.
      destruct (run table toks n y e pm p) as [pm1 [q v|q er|w]]; cbn [dres] in *; auto.
      repeat (split; [tauto|]). apply D_IfMax. tauto.
    - safe_inv S. destruct (is_ambiguous (m_state pm)).
      + pose proof (Sub a S pm P) as H. destruct (run table toks n a e pm p) as [pm1 [q v|q er|w]]; cbn [dres] in *; auto.
        repeat (split; [tauto|]). apply D_IfAmbL. tauto.
      + pose proof (Sub b S0 pm P) as H. destruct (run table toks n b e pm p) as [pm1 [q v|q er|w]]; cbn [dres] in *; auto.
        repeat (split; [tauto|]). apply D_IfAmbR. tauto.
    - assert (W : forall m fl, fl_le fl (gfl (GNT m)) -> forall q, valid q -> wokp (sb q) (nt_type m) fl (GNT m) (run table toks n (GNT m) []) q).
      { intros m fl FL q Vq pm0 P0. pose proof (nt_good n m q Vq pm0 P0) as H1.
        assert (tsafe false (GNT m) = true) as Sm.
        { unfold tsafe. cbn [gsafe ld]. rewrite andb_true_r. apply Nat.leb_le. apply ldn_K. }
        pose proof (IH (GNT m) false [] q pm0 Sm Vq ltac:(discriminate) P0) as H2.
        destruct (run table toks n (GNT m) [] pm0 q) as [pm1 [r v|r er|w]]; auto.
        cbn [dres] in H2. split; [tauto|]. split; [|tauto]. destruct H1 as [_ G]. destruct G, FL as (F1 & F2 & F3 & F4).
        constructor; auto. }
      assert (forall m, fl_le (mkF (np m) false (nx m) false) (gfl (GNT m))) as FL.
      { intros m. repeat split; auto; discriminate. }
      assert (forall m, fl_le (mkF (np m) false false false) (gfl (GNT m))) as FL'.
      { intros m. repeat split; auto; discriminate. }
      pose proof (shunt_der stmt (run table toks n (GNT N_expression_prefix_or_atom) [])
        (run table toks n (GNT N_expression_infix_or_postfix) [])
        (run table toks n (GNT N_operator_postfix_limited) []) p V
        (W N_expression_prefix_or_atom _ (FL _)) (W N_expression_infix_or_postfix _ (FL' _))
        (W N_operator_postfix_limited _ (FL' _)) n (mkYard [] []) SPrefix p
        (eyo_prefix _ _ _ _ (epend_start p)) pm P) as H.
      destruct (shunt_loop toks n _ _ _ _ _ _ pm p) as [pm1 [q v|q er|w]]; cbn [shunt_result dres] in *; auto.
      destruct H as (P1 & c & A & <- & <- & <-). destruct A as [A1 A2 A3 A4 A5].
      split; [auto|]. split; [auto|]. split; [lia|]. now apply D_Shunt.
  Qed.

  Lemma fos_run_steps n b : der_spec n -> fos_spec n -> forall steps clean e p pm pm' q er,
    safe_steps tsafe steps clean = true -> valid p -> (clean = true -> sub p = None) -> pm_ok toks pm ->
    fos_steps tfos tsadv steps = true ->
    run_steps toks (run table toks n) steps b e pm p = (pm', Failure q er) -> q = p \/ off p < off q.
  Proof.
    intros IH FS. induction steps as [|[pt y] steps IHs]; intros clean e p pm pm' q er S V C P F R; cbn [run_steps] in R.
    - destruct (beval toks p e b); discriminate.
    - cbn [safe_steps] in S. apply andb_true_iff in S as [S1 S2].
      cbn [fos_steps] in F. apply andb_true_iff in F as [F1 F2].
      pose proof (IH y clean e p pm S1 V C P) as H. unfold dres in H.
      destruct (run table toks n y e pm p) as [pm1 [r v|r er1|w]] eqn:R1; [| |discriminate].
      2: { injection R as <- <- <-. eapply (FS y clean); eauto. }
      destruct H as (P1 & Vr & Lr & D).
      destruct (bind_pat pt v e) as [e1|] eqn:BP; [|discriminate].
      assert (next_clean clean y = true -> sub r = None) as C'.
      { intros NC. destruct y; try discriminate; cbn [next_clean] in NC.
        - destruct (whole_tok _ WF _ _ _ _ _ _ D NC V) as [_ TO']. exact TO'.
        - inversion D; subst. auto. }
      pose proof (steps_der n b IH steps (next_clean clean y) e1 r pm1 S2 Vr C' P1) as H. rewrite R in H. destruct H as (_ & Vq & Lq).
      pose proof (pos_off _ _ _ Vr Vq Lq) as O2. pose proof (pos_off _ _ _ V Vr Lr) as O1.
      apply orb_true_iff in F2 as [F2|F2].
      + pose proof (der_adv _ WF _ _ _ _ _ D V F2). right. lia.
      + apply andb_true_iff in F2 as [F2 F3]. destruct (der_still _ WF _ _ _ _ _ D V F2) as [->|L]; [|right; lia].
        eapply IHs; eauto.
  Qed.

  Lemma alts_fos (ps : list (gparser val)) p : (forall f, In f ps -> forall pm pm' q er, pm_ok toks pm -> f pm p = (pm', Failure q er) -> q = p \/ off p < off q) ->
    (forall f, In f ps -> forall pm pm' q er, pm_ok toks pm -> f pm p = (pm', Failure q er) -> pm_ok toks pm' /\ valid q) ->
    forall cur (pm : pm_t), pm_ok toks pm -> (forall q er, cur = Failure q er -> valid q /\ (q = p \/ off p < off q)) ->
    forall pm' q er, alternate_from pt_lt recov cur ps pm p = (pm', Failure q er) -> q = p \/ off p < off q.
  Proof.
    induction ps as [|f ps IH]; intros F G cur pm P C pm' q er R; cbn [alternate_from] in R.
    - injection R as <- ->. eapply C; eauto.
    - destruct cur as [q1 v1|q1 e1|w]; try discriminate. cbn [recov] in R.
      destruct (f pm p) as [pm2 r2] eqn:R2.
      destruct r2 as [q2 v2|q2 e2|w].
      + destruct ps; discriminate.
      + destruct (G f (or_introl eq_refl) _ _ _ _ P R2) as [P2 V2].
        eapply IH; [| | | |exact R].
        * intros f0 H0. apply F. now right.
        * intros f0 H0. apply G. now right.
        * apply pm_record; auto. now apply (C q1 e1).
        * intros q3 e3 [= <- <-]. split; [auto|]. exact (F f (or_introl eq_refl) _ _ _ _ P R2).
      + destruct ps; discriminate.
  Qed.

  Lemma fos_step n : der_spec n -> fos_spec n -> fos_spec (S n).
  Proof.
    intros IH FS x clean e p pm S V C P F pm' q er R.
    destruct (nofail x) eqn:NF; [exfalso; eapply nofail_run; eauto|].
    assert (Sub : forall y, tsafe false y = true -> tfos y = true -> forall pm pm' q er, pm_ok toks pm ->
      run table toks n y e pm p = (pm', Failure q er) -> q = p \/ off p < off q).
    { intros y Sy Fy pm0 pm1 q0 er0 P0 R0. eapply (FS y false); eauto. discriminate. }
    destruct x as [m err|nn| |steps b|gs|y|y|app sep f|sep f|sep f|sep f|o c'|y|y|y err|y err|l y|err y|a b|stmt];
      cbn [nofail] in NF; try discriminate; cbn [run] in R; unfold tfos in F; cbn [fos] in F; fold tfos in F; try discriminate.
    - left. eapply (fip_ok toks (Datatypes.S n) (GTok m err) e pm p); [reflexivity|]. cbn [run]. exact R.
    - assert (tsafe false (table nn) = true) as St by apply nt_facts_all.
      eapply (FS (table nn) false); eauto; [discriminate|]. now apply nfos_ok.
    - safe_inv S. eapply fos_run_steps; eauto.
    - unfold tsafe in S. cbn [gsafe] in S. apply andb_true_iff in S. destruct S as [_ S].
      destruct gs as [|y gs]; [discriminate|]. fold tsafe in S. rewrite forallb_forall in S. rewrite forallb_forall in F.
      cbn [map alternate] in R. destruct (run table toks n y e pm p) as [pm1 r] eqn:R1.
      pose proof (IH y false e p pm (S y (or_introl eq_refl)) V ltac:(discriminate) P) as H1. rewrite R1 in H1.
      destruct r as [q1 v1|q1 e1|w]; [| |destruct gs; discriminate].
      + destruct gs; discriminate.
      + cbn [dres] in H1. destruct H1 as (P1 & V1 & L1).
        eapply alts_fos; [| |exact P1| |exact R].
        * intros f Hf pm0 pm2 q2 er2 P0 R0. apply in_map_iff in Hf as (z & <- & Hz).
          exact (Sub z (S z (or_intror Hz)) (F z (or_intror Hz)) _ _ _ _ P0 R0).
        * intros f Hf pm0 pm2 q2 er2 P0 R0. apply in_map_iff in Hf as (z & <- & Hz).
          pose proof (IH z false e p pm0 (S z (or_intror Hz)) V ltac:(discriminate) P0) as H2. rewrite R0 in H2. cbn [dres] in H2. tauto.
        * intros q2 er2 [= <- <-]. split; [auto|]. exact (Sub y (S y (or_introl eq_refl)) (F y (or_introl eq_refl)) _ _ _ _ P R1).
    - safe_inv S. unfold tailed1 in R. destruct (run table toks n f e pm p) as [pm1 [r v|r er1|w]] eqn:R1; [| |discriminate].
      + exfalso. destruct (run table toks n sep e pm1 r) as [pm2 [r2 u|r2 er2|w]]; try discriminate.
        revert R. generalize [v] 1 false. generalize n at 1. intros k. revert pm2 r2.
        induction k as [|k IHk]; intros pm2 r2 l0 n0 b R; [discriminate|]. cbn [tailed_loop] in R.
        destruct (run table toks n f e pm2 r2) as [pm3 [r3 u3|r3 er3|w]]; try discriminate.
        destruct (run table toks n sep e pm3 r3) as [pm4 [r4 u4|r4 er4|w]]; try discriminate. eapply IHk; eauto.
      + injection R as <- <- <-. eapply (Sub f); eauto.
    - safe_inv S. destruct (run table toks n y e pm p) as [pm1 [r u|r er'|w]] eqn:R1; try discriminate.
      + destruct (ex toks p r); discriminate.
      + injection R as <- <- <-. eapply (Sub y); eauto.
    - left. unfold map_p, peek in R. destruct (run table toks n y e pm p) as [pm1 [r u|r er'|w]] eqn:R1; try discriminate. congruence.
    - safe_inv S. destruct (run table toks n y e pm p) as [pm1 [r u|r er'|w]] eqn:R1; try discriminate.
      injection R as <- <- <-. eapply (Sub y); eauto.
    - safe_inv S. destruct (run table toks n y e pm p) as [pm1 [r u|r er'|w]] eqn:R1; try discriminate.
      + destruct u; try discriminate. destruct (into_simple _); [discriminate|]. left. congruence.
      + injection R as <- <- <-. eapply (Sub y); eauto.
    - safe_inv S. unfold with_amb in R. destruct (run table toks n y e (set_amb pm l) p) as [pm1 [r u|r er'|w]] eqn:R1; try discriminate.
      injection R as <- <- <-. eapply (Sub y); [auto|auto| |exact R1]. apply pm_set. auto.
    - safe_inv S. destruct (is_maximum (m_state pm)); [left; congruence|]. eapply (Sub y); eauto.
    - safe_inv S. apply andb_true_iff in F as [F1 F2]. destruct (is_ambiguous (m_state pm)); [eapply (Sub a)|eapply (Sub b)]; eauto.
  Qed.

  Theorem run_der n : der_spec n.
  Proof.
    assert (der_spec n /\ fos_spec n) as [H _]; [|exact H].
    induction n as [|n [IH FS]].
    - split; [intros x clean e p pm _ _ _ _; exact I|]. intros x clean e p pm _ _ _ _ _ pm' q er R. discriminate.
    - split; [now apply der_step|now apply fos_step].
  Qed.
End DerivOk.
