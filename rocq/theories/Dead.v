(** [if let] and [while let]: the alternatives in front of theirs read the same
    text, as [if] and [while] with a [let] expression for a head.  Only where a
    pattern depends on the restriction of struct literals can they be reached. *)

From Coq Require Import String List NArith Arith Bool Lia.
From Verif Require Import Base Peresil Token Schema Value Nt Grammar Points Table Static Amb Layout Sem First Deriv Inv Level.
Import ListNotations.
Local Open Scope string_scope.
Local Open Scope list_scope.
Local Open Scope nat_scope.

Section Dead.
  Variable toks : list token.
  Notation run := (run table toks).
  Notation sem := (sem toks).
  Notation sems := (sems toks).
  Notation offered := (offered toks).

  (** * A [let] expression in front of a block *)

  Lemma tok_any m err pm p pm' q v a e : tok toks m err pm p = (pm', Success q v) -> sem a (GTok m err) e p (SOk q v).
  Proof.
    intros T. apply sem_tok. intros pm2. revert T. unfold tok.
    destruct (nth_error toks (off p)) as [t|]; [|discriminate].
    destruct (match sub p with Some n => _ | None => _ end) as [u|]; [|discriminate].
    destruct (convert m u); [cbn; congruence|]. destruct (split t (sub_rank (sub p))) as [[x y]|]; [|discriminate].
    destruct (convert m x); [cbn; congruence|discriminate].
  Qed.

  Lemma bval_ex p e b : exists v, bval toks p e b v.
  Proof. unfold bval. destruct (beval toks p e b) as [v|]; [now exists v|exists VUnit; auto]. Qed.

  (** Where [=] is read, there is no [:]. *)
  Lemma equals_no_colon err pm p pm' q v : tok toks (MK KEquals) err pm p = (pm', Success q v) ->
    disjoint (firstg (GNT N_expr_let_type)) (offered p).
  Proof.
    let l := eval vm_compute in (firstg (GNT N_expr_let_type)) in change (firstg (GNT N_expr_let_type)) with l.
    unfold tok, offered, offered_at, disjoint. destruct (nth_error toks (off p)) as [t|]; [|discriminate].
    destruct (sub p) as [n|]; cbn [sub_rank].
    - destruct t as [k [s e]|]; [|discriminate]. destruct k; destruct n as [|[|n]]; cbn; try discriminate; intros _; reflexivity.
    - destruct t as [k [s e]|]; [|discriminate]. destruct k; cbn; try discriminate; intros _; reflexivity.
  Qed.

  Hypothesis counts : forall p, count_at toks p -> forall m m' pm pm',
    ag (snd (run m (GNT N_expression) [] pm p)) (snd (run m' (GNT N_expression) [] pm' p)).

  Lemma pattern_any m e pm p pm' q v : run m (GNT N_pattern) e pm p = (pm', Success q v) ->
    forall a e', sem a (GNT N_pattern) e' p (SOk q v).
  Proof.
    intros R a e' m2 pm2 Ha. rewrite nt_env. rewrite nt_env in R.
    pose proof (level_ag toks counts m m2 (GNT N_pattern) [] level_pattern pm pm2 p) as H. rewrite R in H. cbn [snd ag] in H.
    destruct (snd (run m2 (GNT N_pattern) [] pm2 p)); cbn; auto; [|contradiction]. now destruct H as [-> ->].
  Qed.

  Lemma sem_env a n e p r : sem a (GNT n) [] p r -> sem a (GNT n) e p r.
  Proof. intros S m. rewrite nt_env. apply S. Qed.

  Ltac idle N := apply sem_idle; [unfold First.offered, at_; cbn [off sub]; rewrite N; vm_compute; reflexivity|vm_compute; reflexivity].

  Lemma let_atom a i x q5 lv : nth_error toks i = Some (Tk KLet x) ->
    sem a (GNT N_expr_let) [] (at_ i) (SOk q5 lv) ->
    sem a (GNT N_expression_atom) [] (at_ i) (SOk q5 (VVar "Expression" "Let" lv)).
  Proof.
    intros N S. apply sem_nt. cbn [table]. apply sem_alt.
    do 11 (eapply alts_skip; [idle N|]). apply alts_hit. apply sem_seq. eapply sems_cons; [|reflexivity|apply sems_nil; reflexivity].
    exact S.
  Qed.

  Lemma let_operand a i x q5 lv : nth_error toks i = Some (Tk KLet x) ->
    sem a (GNT N_expr_let) [] (at_ i) (SOk q5 lv) ->
    exists v, sem a (GNT N_expression_prefix_or_atom) [] (at_ i) (SOk q5 (VVar "PrefixOrAtom" "Atom" v)).
  Proof.
    intros N S. pose proof (let_atom a i x q5 lv N S) as A.
    destruct (bval_ex q5 [("value", VVar "Expression" "Let" lv); ("attributes", VList []); ("spt", VPoint (at_ i))]
      (BMk "Attributed<Expression>" [("extent", BEx "spt"); ("attributes", BVar "attributes"); ("value", BVar "value"); ("whitespace", BNil)])) as [w B].
    exists w. apply sem_nt. cbn [table]. apply sem_alt. eapply alts_skip; [idle N|]. apply alts_last.
    apply sem_seq. eapply sems_cons; [|reflexivity|apply sems_nil; reflexivity].
    unfold attributed. apply sem_seq. eapply sems_cons; [apply sem_point|reflexivity|].
    eapply sems_cons; [apply sem_many, manys_nil with (q := at_ i); idle N|reflexivity|].
    eapply sems_cons; [apply sem_env; exact A|reflexivity|]. apply sems_nil. exact B.
  Qed.

  (** What is read as [let], a pattern, [=], an expression and a block is also
      read as an expression and a block. *)
  Lemma let_head k pt1 pt2 b e pm p pm' q v :
    run_steps toks (run k) [(PVar "_", t_kw_let); (PVar "pattern", GNT N_pattern); (PVar "_", t_equals);
      (PPair pt1 pt2, GNT N_expr_followed_by_block)] b e pm p = (pm', Success q v) ->
    exists w1 w2, sem (m_state pm) (GNT N_expr_followed_by_block) [] p (SOk q (VPair w1 w2)).
  Proof.
    intros R.
    apply steps_inv in R as (pm1 & p1 & v1 & e1 & R1 & _ & R). pose proof (keep _ _ _ _ _ _ _ _ R1) as K1.
    apply steps_inv in R as (pm2 & p2 & v2 & e2 & R2 & _ & R). pose proof (keep _ _ _ _ _ _ _ _ R2) as K2.
    apply steps_inv in R as (pm3 & p3 & v3 & e3 & R3 & _ & R). pose proof (keep _ _ _ _ _ _ _ _ R3) as K3.
    apply steps_inv in R as (pm4 & p4 & v4 & e4 & R4 & _ & R). cbn [run_steps] in R.
    assert (p4 = q) as -> by (destruct (beval toks p4 e4 b); [injection R as _ <- _; reflexivity|discriminate]). clear R.
    apply nt_inv in R4 as (m4 & -> & R4). cbn [table] in R4. apply seq_inv in R4 as (m5 & -> & R4).
    apply steps_inv in R4 as (pm5 & p5 & v5 & e5 & R5 & B5 & R4). pose proof (keep _ _ _ _ _ _ _ _ R5) as K5.
    apply steps_inv in R4 as (pm6 & p6 & v6 & e6 & R6 & B6 & R4). cbn [run_steps] in R4.
    assert (p6 = q) as -> by (destruct (beval toks p6 e6 _); [injection R4 as _ <- _; reflexivity|discriminate]). clear R4.
    apply amb_inv in R5 as (m6 & pm7 & -> & R5). apply run_sem_ok in R5. cbn [m_state set_amb] in R5.
    pose proof (run_sem_ok _ _ _ _ _ _ _ _ _ R6) as S6.
    apply nt_inv in R6 as (m7 & Em & R6). injection Em as <-. cbn [table] in R6. apply seq_inv in R6 as (m8 & -> & R6).
    apply steps_inv in R6 as (pm8 & p8 & v8 & e8 & R8 & _ & R6).
    apply steps_inv in R6 as (pm9 & p9 & v9 & e9 & R9 & _ & R6). clear R6.
    apply tok_run, tok_solid in R9 as (j & xj & -> & Nj & -> & ->); [|reflexivity].
    destruct m8 as [|m8]; [discriminate|]. cbn [Grammar.run] in R8. injection R8 as _ -> _.
    apply tok_run in R1. pose proof R1 as T1. apply tok_solid in T1 as (i & xi & -> & Ni & -> & ->); [|reflexivity].
    apply tok_run in R3.
    (* the let expression *)
    assert (exists lv, sem OnlyStructLiterals (GNT N_expr_let) [] (at_ i) (SOk (at_ j) lv)) as [lv SL].
    { edestruct bval_ex as [lv B]. exists lv. apply sem_nt. cbn [table]. apply sem_seq.
      eapply sems_cons; [apply sem_point|reflexivity|].
      eapply sems_cons; [eapply tok_any; exact R1|reflexivity|].
      eapply sems_cons; [eapply pattern_any; exact R2|reflexivity|].
      eapply sems_cons; [eapply sem_opt_none, sem_idle; [eapply equals_no_colon; exact R3|reflexivity]|reflexivity|].
      eapply sems_cons; [eapply sem_opt_some, sem_nt|reflexivity|apply sems_nil; exact B].
      cbn [table]. apply sem_seq. eapply sems_cons; [eapply tok_any; exact R3|reflexivity|].
      eapply sems_cons; [apply sem_env; exact R5|reflexivity|apply sems_nil; reflexivity]. }
    destruct (let_operand _ _ _ _ _ Ni SL) as [ov SO].
    assert (exists w, sem OnlyStructLiterals (GNT N_expression) [] (at_ i) (SOk (at_ j) w)) as [w SE].
    { exists ov. apply sem_nt. cbn [table]. apply sem_shunt. eapply shunts_atom; [exact I|exact SO|].
      apply (shunts_stop toks OnlyStructLiterals false _ _ _ (at_ j) (mkCar ov (at_ i) (at_ j))); [exact I| |reflexivity].
      idle Nj. }
    exists w, v6. apply sem_nt. cbn [table]. apply sem_seq.
    eapply sems_cons; [apply sem_amb; exact SE|reflexivity|].
    eapply sems_cons; [apply sem_env|reflexivity|apply sems_nil; reflexivity].
    replace (m_state pm) with (m_state pm5) by congruence. intros m'. rewrite <- (nt_env toks m' N_block e5). apply S6.
  Qed.

  (** ** The alternatives in front do not fail where these succeed *)
  Lemma sem_not_fails a x e p q v m pm : sem a x e p (SOk q v) -> m_state pm = a -> ~ fails (snd (run m x e pm p)).
  Proof. intros S Ha (q' & er & E). specialize (S m pm Ha). rewrite E in S. discriminate. Qed.

  Lemma dead_if m m' pm p pm' q v pm0 : run m (GNT N_expr_if_let) [] pm p = (pm', Success q v) ->
    m_state pm0 = m_state pm -> ~ fails (snd (run m' (GNT N_expr_if) [] pm0 p)).
  Proof.
    intros R Ha (q' & er & E).
    apply nt_inv in R as (k & -> & R). cbn [table] in R. apply seq_inv in R as (k1 & -> & R).
    apply steps_inv in R as (pm1 & p1 & v1 & e1 & R1 & _ & R). apply point_inv in R1 as (-> & -> & ->).
    apply steps_inv in R as (pm2 & p2 & v2 & e2 & R2 & _ & R). pose proof (keep _ _ _ _ _ _ _ _ R2) as K2. apply tok_run in R2.
    apply let_head in R as (w1 & w2 & S). rewrite K2 in S.
    destruct m' as [|m']; [discriminate|]. cbn [Grammar.run] in E. destruct m' as [|m']; [discriminate|]. cbn [table Grammar.run] in E.
    destruct (run_steps _ _ _ _ _ _ _) as [pm3 r] eqn:F in E. cbn [snd] in E. subst r.
    cbn [run_steps] in F. destruct m' as [|m']; [discriminate|].
    change (run (Datatypes.S m') GPoint [] pm0 p) with (pm0, Success (E := perror) p (VPoint p)) in F. cbn [bind_pat] in F.
    pose proof (tok_any _ _ _ _ _ _ _ (m_state pm) [("spt", VPoint p)] R2 (Datatypes.S m') pm0 Ha) as T.
    change (GTok (MK KIf) _) with t_kw_if in T.
    destruct (run (Datatypes.S m') t_kw_if [("spt", VPoint p)] pm0 p) as [pm4 [r4 u4|r4 er4|w4]] eqn:R4; cbn [snd agrees] in T; try discriminate.
    injection T as <- <-. apply keep in R4. cbn [bind_pat] in F.
    match type of F with context [run _ (GNT N_expr_followed_by_block) ?e _ _] =>
      pose proof (sem_env _ _ e _ _ S (Datatypes.S m') pm4 ltac:(congruence)) as T;
      destruct (run (Datatypes.S m') (GNT N_expr_followed_by_block) e pm4 p2) as [pm5 [r5 u5|r5 er5|w5]] eqn:R5 end;
      cbn [snd agrees] in T; try discriminate.
    injection T as <- <-. cbn [bind_pat] in F.
    eapply (nofail_steps toks (Datatypes.S m') _ [(PVar "more", GMany (GNT N_expr_if_else_if)); (PVar "else_body", GOpt (GNT N_expr_if_else_end))] eq_refl). exact F.
  Qed.

  Lemma dead_while m m' pm p pm' q v pm0 : run m (GNT N_expr_while_let) [] pm p = (pm', Success q v) ->
    m_state pm0 = m_state pm -> ~ fails (snd (run m' (GNT N_expr_while) [] pm0 p)).
  Proof.
    intros R Ha.
    apply nt_inv in R as (k & -> & R). cbn [table] in R. apply seq_inv in R as (k1 & -> & R).
    apply steps_inv in R as (pm1 & p1 & v1 & e1 & R1 & B1 & R). apply point_inv in R1 as (-> & -> & ->). injection B1 as <-.
    apply steps_inv in R as (pm3 & p3 & v3 & e3 & R3 & B3 & R). pose proof (keep _ _ _ _ _ _ _ _ R3) as K3. apply run_sem_ok in R3.
    apply steps_inv in R as (pm2 & p2 & v2 & e2 & R2 & _ & R). pose proof (keep _ _ _ _ _ _ _ _ R2) as K2. apply tok_run in R2.
    apply let_head in R as (w1 & w2 & S). rewrite K2, K3 in S.
    edestruct bval_ex as [w B].
    eapply (sem_not_fails (m_state pm) _ _ _ q w); [|exact Ha]. apply sem_nt. cbn [table]. apply sem_seq.
    eapply sems_cons; [apply sem_point|reflexivity|].
    eapply sems_cons; [exact R3|reflexivity|].
    eapply sems_cons; [eapply tok_any; exact R2|reflexivity|].
    eapply sems_cons; [apply sem_env; exact S|reflexivity|]. apply sems_nil. exact B.
  Qed.
End Dead.
