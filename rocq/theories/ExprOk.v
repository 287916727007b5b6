(** The parser follows the rules for expressions with operators. *)

From Coq Require Import String List NArith Arith Bool Lia.
From Verif Require Import Base Peresil Token Schema Value Nt Grammar Points Table Static Amb Sem First OutlineSpec Reads Syntax UseSpec UseOk RustSpec Rules NestedOk TypesOk BoundsOk ItemsOk MembersOk PatternsOk AtomsOk YardOk.
Import ListNotations.
Local Open Scope string_scope.
Local Open Scope list_scope.
Local Open Scope nat_scope.

(** * What a chain of operators and operands does *)

(** Whether an expression ends a statement without a semicolon. *)
Definition shaped (h : front) (v : val) : Prop :=
  match h with Blocky => may_terminate_statement v = true | Barred => True | _ => may_terminate_statement v = false end.

(** The state of the yard behind it. *)
Definition state_of (stmt : bool) (h : front) (s : estate) : Prop :=
  match stmt, h with true, Blocky => s = SAtomLimited | _, _ => operator_state s end.

Record chained (l : place) (h : front) (t : back) (ps : list piece) (v : val) : Prop := mkChained {
  ch_begins : begins (firstg (GNT N_expression)) ps;
  ch_some : ps <> [];
  ch_rejected : h <> Barred -> rejected l (attributed "Item" (GNT N_item)) (N.lor (hmask h) (tmask t)) ps;
  ch_solid : is_whitespace v = false;
  ch_shaped : shaped h v;
  ch_shunts : forall toks stmt p q, (stmt = true -> h <> Barred) -> reads toks p ps q -> clear toks (tmask t) q ->
    exists w, outline w = v /\ forall r,
      (forall y s, complete toks y w p q -> state_of stmt h s -> shunts toks (amb l) stmt y s q r) ->
      shunts toks (amb l) stmt (mkYard [] []) SPrefix p r }.

Record operand (l : place) (range : bool) (t : back) (ps : list piece) (v : val) : Prop := mkOperand {
  op_begins : begins (firstg (GNT N_expression)) ps;
  op_some : ps <> [];
  op_shunts : forall toks p q, reads toks p ps q -> clear toks (tmask t) q ->
    exists w, outline w = v /\ forall stmt y s r, operand_state s -> operand_level (amb l) s = amb (behind range l) -> y_ops y <> [] ->
      (forall y', y_ops y' <> [] -> adds toks y w p q y' -> shunts toks (amb l) stmt y' SAtom q r) ->
      shunts toks (amb l) stmt y s p r }.

(** * Operands *)
Lemma get_field_outline f w : get_field f (outline w) = get_field f w \/ get_field f (outline w) = option_map outline (get_field f w).
Proof.
  destruct w; try (left; reflexivity). cbn [outline]. destruct (leaf k); [now left|]. right. cbn [get_field].
  destruct (struct_fields k); [|reflexivity]. destruct (field_index f l); [|reflexivity]. apply nth_error_map.
Qed.

(** The variant of a value. *)
Lemma outline_variant w : match outline w with VVar n k _ => match w with VVar n' k' _ => n = n' /\ k = k' | _ => False end
  | _ => match w with VVar _ _ _ => False | _ => True end end.
Proof.
  destruct w; cbn [outline]; unfold hole; try (match goal with |- context [leaf ?x] => destruct (leaf x) end); auto.
Qed.

Lemma may_terminate_expr_outline w : may_terminate_expr (outline w) = may_terminate_expr w.
Proof.
  pose proof (outline_variant w) as V. destruct w; try reflexivity; cbn [outline] in *; try (match goal with |- context [leaf ?x] => destruct (leaf x); reflexivity end).
  cbn [may_terminate_expr]. destruct (existsb _ _); [reflexivity|]. destruct (String.eqb _ _); [|reflexivity].
  destruct (get_field_outline "args" w) as [->| ->]; [reflexivity|].
  destruct (get_field "args" w) as [u|]; [|reflexivity]. cbn [option_map]. pose proof (outline_variant u) as U.
  destruct (outline u); destruct u; try contradiction; try reflexivity. destruct U as [-> ->]. reflexivity.
Qed.

Lemma may_terminate_outline w : may_terminate_statement (outline w) = may_terminate_statement w.
Proof.
  unfold may_terminate_statement. destruct (get_field_outline "value" w) as [->| ->]; [reflexivity|].
  destruct (get_field "value" w); [|reflexivity]. apply may_terminate_expr_outline.
Qed.

Lemma sem_prefix toks l os v p q : good l (With "OperatorPrefix" PrefixOp) os v -> reads toks p os q -> clear toks (bit KMut) q ->
  exists w, outline w = v /\ forall e, sem toks (amb l) (GNT N_expression_prefix_or_atom) e p (SOk q (VVar "PrefixOrAtom" "Prefix" w)).
Proof.
  intros G R C. destruct (good_sem toks l _ _ _ p q G R) as (w & HS & O); [exact C|]. cbn [gram] in HS.
  exists w. split; [exact O|]. intros e. run.
Qed.

Lemma sem_atom toks l h t ps v p q : good l (With "Expression" (Atom h t)) ps v -> reads toks p ps q -> clear toks (tmask t) q ->
  exists w, outline w = v /\ forall e, sem toks (amb l) (GNT N_expression_prefix_or_atom) e p (SOk q (VVar "PrefixOrAtom" "Atom" w)).
Proof.
  intros G R C. destruct (good_sem toks l _ _ _ p q G R) as (w & HS & O); [exact C|]. cbn [gram] in HS.
  destruct (proj1 (good_extra _ _ _ _ G) toks p q R) as (s & X); [now apply clear_zero|].
  exists w. split; [exact O|]. intros e. enter. apply sem_alt. eapply alts_skip; [fails|]. apply alts_last. run.
Qed.

Lemma mut_clear toks ps p q : begins (firstg (GNT N_expression)) ps -> ps <> [] -> reads toks p ps q -> clear toks (bit KMut) p.
Proof. intros B N R. eapply begins_clear; [exact B|exact N|exact R|]. compute_mask. Qed.

Lemma operand_atom l r h t ps v : good (behind r l) (With "Expression" (Atom h t)) ps v -> operand l r t ps v.
Proof.
  intros G. constructor.
  - eapply begins_sub; [apply (g_begins _ _ _ _ G)|compute_mask].
  - exact (good_nonempty _ _ _ _ G eq_refl).
  - intros toks p q R C. destruct (sem_atom _ _ _ _ _ _ _ _ G R C) as (w & O & HS). exists w. split; [exact O|].
    intros stmt y s u S L N K. eapply shunts_atom; [exact S|rewrite L; apply HS|].
    replace (adapt_state stmt (add_expression y w p q) SAtom) with SAtom
      by (unfold adapt_state, add_expression; cbn [y_ops]; destruct stmt; [|reflexivity]; destruct (y_ops y); [congruence|reflexivity]).
    apply K; [exact N|]. intros R'. exact (fun H => H).
Qed.

Lemma operand_prefix l r os a o t ps v e : good (behind r l) (With "OperatorPrefix" PrefixOp) os (node "Attributed<OperatorPrefix>" [a; o]) ->
  operand l false t ps v -> prefix o v e -> operand l r t (os ++ ps) (node "Attributed<Expression>" [a; e]).
Proof.
  intros G [B N K] P. constructor.
  - apply begins_app; [|auto]. eapply begins_sub; [apply (g_begins _ _ _ _ G)|compute_mask].
  - intros E. apply app_eq_nil in E as [_ E]. auto.
  - intros toks p q R C. apply reads_app in R as (x & R1 & R2).
    destruct (sem_prefix _ _ _ _ _ _ G R1 (mut_clear _ _ _ _ B N R2)) as (wo & O & HS).
    destruct (K _ _ _ R2 C) as (w & OW & HK).
    destruct (prefix_applies toks wo a o v e O P w p x q OW (after_trans _ _ _ (reads_after _ _ _ _ R1) (reads_after _ _ _ _ R2))) as (wr & OR & A).
    exists wr. split; [exact OR|]. intros stmt y s u S L NY KU.
    eapply shunts_prefix; [exact S|rewrite L; apply HS|apply add_prefix|].
    apply HK; [exact I|destruct l; reflexivity|discriminate|]. intros y' N' AD. apply KU; [exact N'|].
    intros R' H. apply AD. cbn [y_ops y_res apply_all]. specialize (A (y_res y)). cbn [c_val c_spt c_ept].
    destruct (apply_one toks (mkCar w x q :: y_res y) (OpPrefix wo) p x); cbn [ayields abind] in *; [subst; exact H|contradiction|exact I].
Qed.

(** * Chains *)
Lemma chain_atom l h t ps v : good l (With "Expression" (Atom h t)) ps v -> shaped h v -> chained l h t ps v.
Proof.
  intros G SH. constructor.
  - eapply begins_sub; [apply (g_begins _ _ _ _ G)|compute_mask].
  - exact (good_nonempty _ _ _ _ G eq_refl).
  - exact (proj2 (good_extra _ _ _ _ G)).
  - exact (g_solid _ _ _ _ G).
  - exact SH.
  - intros toks stmt p q NB R C. destruct (sem_atom _ _ _ _ _ _ _ _ G R C) as (w & O & HS). exists w. split; [exact O|].
    intros u K. eapply shunts_atom; [exact I|apply HS|]. apply K; [reflexivity|].
    unfold adapt_state, add_expression. cbn [y_ops y_res rev app c_val]. rewrite <- O in SH. unfold shaped in SH. rewrite may_terminate_outline in SH.
    destruct stmt; [|exact I]. unfold state_of. destruct h; try (rewrite SH); try exact I; try reflexivity. now specialize (NB eq_refl).
Qed.

Lemma chain_prefix l os a o t ps v e : good l (With "OperatorPrefix" PrefixOp) os (node "Attributed<OperatorPrefix>" [a; o]) ->
  operand l false t ps v -> prefix o v e -> chained l Free t (os ++ ps) (node "Attributed<Expression>" [a; e]).
Proof.
  intros G [B N K] P. constructor.
  - apply begins_app; [|auto]. eapply begins_sub; [apply (g_begins _ _ _ _ G)|compute_mask].
  - intros E. apply app_eq_nil in E as [_ E]. auto.
  - intros _. eapply rejected_app; [exact (good_extra _ _ _ _ G)|]. intros. now apply clear_zero.
  - reflexivity.
  - destruct P; reflexivity.
  - intros toks stmt p q NB R C. apply reads_app in R as (x & R1 & R2).
    destruct (sem_prefix _ _ _ _ _ _ G R1 (mut_clear _ _ _ _ B N R2)) as (wo & O & HS).
    destruct (K _ _ _ R2 C) as (w & OW & HK).
    destruct (prefix_applies toks wo a o v e O P w p x q OW (after_trans _ _ _ (reads_after _ _ _ _ R1) (reads_after _ _ _ _ R2))) as (wr & OR & A).
    exists wr. split; [exact OR|]. intros u KU.
    eapply shunts_prefix; [exact I|apply HS|apply add_prefix|].
    apply HK; [exact I|destruct l; reflexivity|discriminate|]. intros y' N' AD. apply KU; [|destruct stmt; exact I].
    apply AD. cbn [y_ops y_res apply_all]. specialize (A []). cbn [c_val c_spt c_ept].
    destruct (apply_one toks [mkCar w x q] (OpPrefix wo) p x); cbn [ayields abind] in *; [subst; reflexivity|contradiction|exact I].
Qed.

Lemma infix_kinds k v w e : infix k v w e -> In k (map fst binary_operators ++ [KDoublePeriod; KTriplePeriod; KDoublePeriodEquals]).
Proof.
  intros [k' op a b I|a b|k' op a b I]; apply in_or_app.
  - left. apply in_map_iff. now exists (k', op).
  - right. now left.
  - right. cbn [In] in *. destruct I as [[= <- <-]|[[= <- <-]|[]]]; auto.
Qed.

Lemma open_infix h t k x : open_for t k = true -> In k (map fst binary_operators ++ [KDoublePeriod; KTriplePeriod; KDoublePeriodEquals]) ->
  N.land (N.lor (hmask h) (tmask t)) (pmask (Raw (Tk k x))) = 0%N.
Proof.
  intros O I. change (pmask (Raw (Tk k x))) with (omask k None).
  assert (A : forallb (fun k => forallb (fun h => forallb (fun t => implb (open_for t k) (N.eqb (N.land (N.lor (hmask h) (tmask t)) (omask k None)) 0))
     [AtEnd; AtField; AtPath true; AtPath false; AtType true; AtType false; AtRest true; AtRest false]) [Free; Blocky; Called; Barred])
     (map fst binary_operators ++ [KDoublePeriod; KTriplePeriod; KDoublePeriodEquals]) = true) by (vm_compute; reflexivity).
  rewrite forallb_forall in A. specialize (A k I). rewrite forallb_forall in A.
  assert (IH : In h [Free; Blocky; Called; Barred]) by (destruct h; cbn; auto).
  specialize (A h IH). rewrite forallb_forall in A.
  assert (IT : In t [AtEnd; AtField; AtPath true; AtPath false; AtType true; AtType false; AtRest true; AtRest false]) by (destruct t as [| |[]|[]|[]]; cbn; tauto).
  specialize (A t IT). rewrite O in A. now apply N.eqb_eq.
Qed.

Lemma operated_free h stmt : (stmt = true -> operated h <> Barred) -> (stmt = true -> h <> Barred) /\ forall s, state_of stmt h s -> operator_state s.
Proof.
  intros NB. destruct stmt; [|split; [discriminate|auto]]. specialize (NB eq_refl). destruct h; cbn in *; split; try discriminate; auto; congruence.
Qed.

Lemma chain_infix l h t ps v k x t' qs w e : chained l h t ps v -> open_for t k = true -> operand l (range_kind k) t' qs w -> infix k v w e ->
  chained l (operated h) t' (ps ++ Raw (Tk k x) :: qs) (bare e).
Proof.
  intros [B N RJ _ _ K] OF [B' N' K'] IX. pose proof (infix_kinds _ _ _ _ IX) as IK.
  pose proof (open_infix h t k x OF IK) as OC.
  constructor.
  - apply begins_app; [exact B|congruence].
  - intros E. apply app_eq_nil in E as [E _]. auto.
  - intros NB. eapply rejected_app; [apply RJ; destruct h; cbn in NB; congruence|].
    intros toks q C p R. cbn [reads] in R. destruct R as (r & T & _). eapply clear_takes; [exact T|exact OC].
  - reflexivity.
  - destruct IX; destruct h; try exact I; reflexivity.
  - intros toks stmt p q NB R C. rd. destruct (operated_free _ _ NB) as [NB1 ST].
    match goal with R1 : reads toks p ps ?m, T : takes toks ?m _ ?n, R2 : reads toks ?n qs q |- _ =>
      destruct (K toks stmt p m NB1 R1) as (w1 & O1 & K1);
        [eapply clear_takes; [exact T|]; rewrite N.land_lor_distr_l in OC; now apply N.lor_eq_0_iff in OC|];
      destruct (K' _ _ _ R2 C) as (w2 & O2 & K2);
      destruct (infix_applies toks k x v w e IX m n T) as (op & HS & RG & A);
      destruct (A w1 w2 p m n q O1 O2) as (wr & OR & AR) end.
    exists wr. split; [exact OR|]. intros u KU. apply K1. intros y s CY S.
    eapply shunts_infix; [exact (ST s S)|apply HS|apply (add_left toks y (OpInfix op)); [reflexivity|exact CY]|].
    apply K2; [exact I| |discriminate|].
    { rewrite RG. unfold operand_level. destruct l, (range_kind k); reflexivity. }
    intros y' NY AD. apply KU; [|unfold state_of; destruct stmt; [destruct h|]; try exact I; now specialize (NB eq_refl)].
    apply AD. cbn [y_ops y_res apply_all c_val c_spt c_ept].
    match goal with |- ayields (abind ?r _) _ => destruct r; cbn [ayields abind] in * end; [subst; reflexivity|contradiction|exact I].
Qed.

(** ** Postfix operators *)
Definition postfixed (toks : list token) (l : place) (limited : bool) (p q : point) (v e : val) : Prop :=
  exists op, (forall en, sem toks (amb l) (GNT N_expression_infix_or_postfix) en p (SOk q (VVar "InfixOrPostfix" "Postfix" op))) /\
    (limited = true -> forall en, sem toks (amb l) (GNT N_operator_postfix_limited) en p (SOk q op)) /\
    forall w p1 q1, outline w = v ->
      exists wr, outline wr = bare e /\ ayields (apply_one toks [mkCar w p1 q1] (OpPostfix op) p q) [mkCar wr p1 q].

Lemma open_postfix h t k : open_for t k = true -> In k [KPeriod; KQuestionMark; KLeftParen; KLeftSquare; KAs; KColon] ->
  N.land (N.lor (hmask h) (tmask t)) (pmask (Sym k)) = 0%N.
Proof.
  intros O I. cbn [In] in I. repeat destruct I as [<-|I]; try contradiction; destruct h, t as [| |[]|[]|[]]; try discriminate O; vm_compute; reflexivity.
Qed.

Lemma chain_postfix (limited : bool) l h t ps v t' k qs e : chained l h t ps v -> open_for t k = true ->
  In k [KPeriod; KQuestionMark; KLeftParen; KLeftSquare; KAs; KColon] ->
  (forall toks p q, reads toks p (Sym k :: qs) q -> clear toks (tmask t') q -> postfixed toks l limited p q v e) ->
  may_terminate_statement (bare e) = false ->
  chained l (if limited then accessed h else operated h) t' (ps ++ Sym k :: qs) (bare e).
Proof.
  intros [B N RJ _ _ K] OF IK PF MT. pose proof (open_postfix h t k OF IK) as OC.
  constructor.
  - apply begins_app; [exact B|congruence].
  - intros E. apply app_eq_nil in E as [E _]. auto.
  - intros NB. eapply rejected_app; [apply RJ; destruct limited, h; cbn in NB; congruence|].
    intros toks q C p R. cbn [reads] in R. destruct R as (r & T & _). eapply clear_takes; [exact T|exact OC].
  - reflexivity.
  - destruct limited, h; try exact I; exact MT.
  - intros toks stmt p q NB R C. apply reads_app in R as (m & R1 & R2).
    destruct (K toks stmt p m) as (w & O & K1); [intros E; specialize (NB E); destruct limited, h; cbn in NB; congruence|exact R1| |].
    { cbn [reads] in R2. destruct R2 as (r & T & _). eapply clear_takes; [exact T|]. rewrite N.land_lor_distr_l in OC. now apply N.lor_eq_0_iff in OC. }
    destruct (PF toks m q R2 C) as (op & HS & HL & A). destruct (A w p m O) as (wr & OR & AR).
    exists wr. split; [exact OR|]. intros u KU. apply K1. intros y s CY S.
    assert (AD : ayields (add_op toks y (OpPostfix op) m q) (mkYard [mkCar (OpPostfix op) m q] [mkCar w p m]))
      by (apply add_left; [reflexivity|exact CY]).
    assert (G : shunts toks (amb l) stmt (mkYard [mkCar (OpPostfix op) m q] [mkCar w p m]) SPostfix q u).
    { apply KU; [|unfold state_of; destruct stmt; [|exact I]; destruct limited, h; cbn [accessed operated]; try exact I; now specialize (NB eq_refl)].
      unfold complete. cbn [y_ops y_res apply_all c_val c_spt c_ept].
      match goal with |- ayields (abind ?r _) _ => destruct r; cbn [ayields abind] in * end; [subst; reflexivity|contradiction|exact I]. }
    destruct limited.
    + destruct stmt; [|eapply shunts_postfix; [exact S|apply HS|exact AD|exact G]].
      destruct h; try (eapply shunts_postfix; [exact S|apply HS|exact AD|exact G]). cbn [state_of] in S. subst s.
      eapply shunts_limited; [apply HL; reflexivity|exact AD|exact G].
    + destruct (operated_free _ _ NB) as [_ ST]. eapply shunts_postfix; [exact (ST s S)|apply HS|exact AD|exact G].
Qed.

Ltac applied :=
  intros ? ? ? ?; cbn [apply_one String.eqb Ascii.eqb Bool.eqb]; eexists; (split; [|
    unfold apply_postfix; cbn [pop_expression abind c_ept c_val c_spt]; apply ex_bind; reflexivity]);
  unfold bare, expr, expression, node; cbn; unfold hole in *; try congruence.

Lemma chain_field l h t ps v cs c : chained l h t ps v -> open_for t KPeriod = true -> good l PathComponent cs c ->
    chained l (accessed h) AtField (ps ++ Sym KPeriod :: cs) (bare (expr "FieldAccess" [v; VVar "FieldName" "Path" c])).
Proof.
  intros C OF G. apply (chain_postfix true l h t ps v); auto; [cbn; auto|].
  intros toks p q R F. cbn [tmask] in F. rd. tk.
  destruct (good_sem toks l _ _ _ _ q G ltac:(eassumption)) as (w & HS & O); [now left|]. names.
  eexists. split; [intros ?; run|]. split; [intros _ ?; run|]. applied.
Qed.

Lemma sem_simple toks a x err e p q n r : sem toks a x e p (SOk q (VNum n)) -> into_simple n = Some r -> sem toks a (GSimple x err) e p (SOk q (VExt r)).
Proof.
  intros H R [|m] pm Ha; [exact I|]. cbn [Grammar.run]. specialize (H m pm Ha).
  destruct (Grammar.run table toks m x e pm p) as [pm1 [q1 v1|q1 er1|w1]]; cbn [snd agrees] in *; [|discriminate|exact I].
  injection H as <- <-. rewrite R. reflexivity.
Qed.

Lemma chain_indexed l h t ps v n : chained l h t ps v -> open_for t KPeriod = true ->
    n_radix n = RDecimal -> n_fractional n = None -> n_exponent n = None -> n_type_suffix n = None -> n_underscores n = 0 ->
    chained l (accessed h) AtEnd (ps ++ [Sym KPeriod; Num n]) (bare (expr "FieldAccess" [v; VVar "FieldName" "Number" hole])).
Proof.
  intros C OF N1 N2 N3 N4 N5. apply (chain_postfix true l h t ps v); auto; [cbn; auto|].
  intros toks p q R F. rd. tk.
  assert (S : into_simple n = Some (n_extent n)) by (unfold into_simple; now rewrite N1, N2, N3, N4, N5).
  match goal with T : takes toks ?x (Num n) q |- _ =>
    assert (HN : forall e, sem toks (amb l) (GNT N_field_name_number) e x (SOk q (VExt (n_extent n))));
    [intros e; enter; eapply sem_simple; [apply (sem_gets toks); exact T|exact S]|] end.
  eexists. split; [intros ?; run|]. split; [intros _ ?; run|]. applied.
Qed.

Lemma chain_try l h t ps v : chained l h t ps v -> open_for t KQuestionMark = true ->
    chained l (accessed h) AtEnd (ps ++ [Sym KQuestionMark]) (bare (expr "TryOperator" [v])).
Proof.
  intros C OF. apply (chain_postfix true l h t ps v); auto; [cbn; auto|].
  intros toks p q R F. rd. tk. eexists. split; [intros ?; run|]. split; [intros _ ?; run|]. applied.
Qed.

Lemma chain_call l h t ps v args c : chained l h t ps v -> open_for t KLeftParen = true -> goods Anywhere (Expr false) args ->
    chained l (operated h) AtEnd (ps ++ Sym KLeftParen :: commas (spelled args) c ++ [Sym KRightParen]) (bare (expr "Call" [v; VList (asts args)])).
Proof.
  intros C OF G. apply (chain_postfix false l h t ps v); auto; [cbn; auto|].
  intros toks p q R F. parts. eexists. split; [intros ?; run|]. split; [discriminate|]. applied. unfold outlines in *. congruence.
Qed.

Lemma chain_slice l h t ps v qs w : chained l h t ps v -> open_for t KLeftSquare = true -> good Anywhere (Expr false) qs w ->
    chained l (operated h) AtEnd (ps ++ Sym KLeftSquare :: qs ++ [Sym KRightSquare]) (bare (expr "Slice" [v; w])).
Proof.
  intros C OF G. apply (chain_postfix false l h t ps v); auto; [cbn; auto 6|].
  intros toks p q R F. parts. eexists. split; [intros ?; run|]. split; [discriminate|]. applied.
Qed.

Lemma chain_as l h t ps v o qs k : chained l h t ps v -> open_for t KAs = true -> good l (TyKind o) qs k ->
    chained l (operated h) (AtType o) (ps ++ Sym KAs :: qs) (bare (expr "AsType" [v; node "Type" [k; VList []]])).
Proof.
  intros C OF G. apply (chain_postfix false l h t ps v); auto; [cbn; auto 6|].
  intros toks p q R F. cbn [tmask] in F. rd. tk.
  destruct (good_sem toks l _ _ _ _ q G ltac:(eassumption)) as (w & HS & O); [exact F|]. names.
  eexists. split; [intros ?; run|]. split; [discriminate|]. applied.
Qed.

Lemma chain_ascription l h t ps v qs w : chained l h t ps v -> open_for t KColon = true -> good l Ty qs w ->
    chained l (operated h) (AtType true) (ps ++ Sym KColon :: qs) (bare (expr "Ascription" [v; w])).
Proof.
  intros C OF G. apply (chain_postfix false l h t ps v); auto; [cbn; auto 7|].
  intros toks p q R F. cbn [tmask] in F. rd. tk.
  destruct (good_sem toks l _ _ _ _ q G ltac:(eassumption)) as (u & HS & O); [exact F|]. names.
  eexists. split; [intros ?; run|]. split; [discriminate|]. applied.
Qed.

(** * Expressions *)
Lemma back_mask b t : (b = true -> before_brace t = true) -> subset (tmask t) (expr_mask b) = true.
Proof. intros E. destruct b, t as [| |[]|[]|[]]; try (now specialize (E eq_refl)); vm_compute; reflexivity. Qed.

Lemma expr_stops toks a b e q : clear toks (expr_mask b) q -> sem toks a (GNT N_expression_infix_or_postfix) e q (SFail q).
Proof. intros C. eapply sem_clear; [exact C| |reflexivity]. destruct b; compute_mask. Qed.

Lemma expr_chain_ok l b h t ps v : chained l h t ps v -> (b = true -> before_brace t = true) -> good l (Expr b) ps v.
Proof.
  intros [B N _ SD _ K] E. constructor; [exact B|intros X; congruence|exact SD|exact I|].
  intros toks p q R F. cbn [follow fmask] in F.
  destruct (K toks false p q) as (w & O & K1); [discriminate|exact R|eapply clear_subset; [exact F|now apply back_mask]|].
  exists w. split; [|exact O]. intros e. cbn [gram]. enter. apply sem_shunt. apply K1. intros y s C S.
  change (SOk q w) with (SOk (c_ept (mkCar w p q)) (c_val (mkCar w p q))).
  eapply shunts_stop; [exact S|eapply expr_stops; exact F|]. apply finish_complete. exact C.
Qed.

(** Nothing that could end a range comes next. *)
Lemma no_operand toks l b s q : operand_state s -> clear toks (expr_mask b) q -> (b = true -> operand_level (amb l) s = Maximum) ->
  exists u, sem toks (operand_level (amb l) s) (GNT N_expression_prefix_or_atom) [] q (SFail u).
Proof.
  intros S C E. destruct b.
  - rewrite (E eq_refl). cbn [expr_mask] in C. clear E.
    assert (HB : forall e, sem toks Maximum (GNT N_expr_block) e q (SFail q)) by (intros e; enter; apply sem_ifmax_fail; reflexivity).
    assert (HM : forall e, sem toks Maximum (GMany (GNT N_attribute)) e q (SOk q (VList []))) by (intros e; eapply many_none; cannot).
    eexists. fails.
  - exists q. eapply sem_clear; [exact C|compute_mask|reflexivity].
Qed.

Lemma expr_from_ok l b h t ps v : chained l h t ps v -> open_for t KDoublePeriod = true -> (b = true -> restricted l = true) ->
    good l (Expr b) (ps ++ [Sym KDoublePeriod]) (bare (expr "Range" [VSome v; VNone])).
Proof.
  intros [B N _ _ _ K] OF RS. constructor; [apply begins_app; [exact B|congruence]|intros X; apply app_eq_nil in X as [X _]; congruence|reflexivity|exact I|].
  intros toks p q R F. cbn [follow fmask] in F. apply reads_app in R as (x & R1 & q' & T & R2). cbn [reads] in R2. subst q'. tk.
  assert (OC : N.land (tmask t) (pmask (Sym KDoublePeriod)) = 0%N) by (destruct t as [| |[]|[]|[]]; try discriminate OF; vm_compute; reflexivity).
  destruct (K toks false p x) as (w & O & K1); [discriminate|exact R1|eapply clear_takes; [exact T|exact OC]|].
  destruct (no_operand toks l b (SInfix true) q I F) as (u & HF).
  { intros Eb. specialize (RS Eb). destruct l; try discriminate; reflexivity. }
  assert (HS : exists pl, forall e, sem toks (amb l) (GNT N_expression_infix_or_postfix) e x (SOk q (VVar "InfixOrPostfix" "Infix" (VVar "OperatorInfix" "RangeExclusive" pl)))).
  { eexists. intros e. run. }
  destruct HS as (pl & HS).
  set (y := mkYard [mkCar (OpInfix (VVar "OperatorInfix" "RangeExclusive" pl)) x q] [mkCar w p x]).
  assert (HC : exists wr, outline wr = bare (expr "Range" [VSome v; VNone]) /\ complete toks y wr p q).
  { eexists. split; cycle 1.
    - unfold complete, y. cbn [y_ops y_res apply_all apply_one c_val c_spt c_ept String.eqb Ascii.eqb Bool.eqb].
      unfold apply_maybe_infix. cbn [List.length Nat.leb pop_expression abind c_val c_spt c_ept].
      match goal with |- ayields (abind (abind (a_of_b (ex toks ?s ?e)) ?f) ?g) ?r =>
        change (ayields (abind (abind (a_of_b (ex toks s e)) f) g) r);
        generalize (ex_bind toks s e f); intros X end.
      eassert (Y : ayields _ _) by (apply X; reflexivity). clear X.
      match type of Y with ayields ?r _ => destruct r; cbn [ayields abind] in * end; [subst; reflexivity|contradiction|exact I].
    - unfold bare, expr, expression, node; cbn; unfold hole in *; congruence. }
  destruct HC as (wr & OR & CR).
  exists wr. split; [|exact OR]. intros e. cbn [gram]. enter. apply sem_shunt. apply K1. intros y' s CY S.
  eapply shunts_infix; [exact S|apply HS|apply (add_left toks y' (OpInfix _)); [reflexivity|exact CY]|].
  change (SOk q wr) with (SOk (c_ept (mkCar wr p q)) (c_val (mkCar wr p q))).
  eapply shunts_stop_operand; [exact I|exact HF|]. apply finish_complete. exact CR.
Qed.

Lemma expr_all_ok l : good l (Expr false) [Sym KDoublePeriod] (bare (expr "Range" [VNone; VNone])).
Proof.
  constructor; [compute_mask|discriminate|reflexivity|exact I|].
  intros toks p q R F. cbn [follow fmask] in F.
  pose proof (with_ok l "OperatorPrefix" PrefixOp [] _ _ eq_refl (Forall_nil _) (op_up_to_ok l)) as G. cbn [spelled map concat app asts] in G.
  destruct (sem_prefix toks l _ _ p q G R) as (wo & O & HS); [eapply clear_subset; [exact F|compute_mask]|].
  destruct (no_operand toks l false SPrefix q I F) as (u & HF); [discriminate|].
  expose. extents.
  match goal with O : outline ?x = VVar _ _ _ |- _ => apply outline_var in O; destruct O as (p' & -> & O) end.
  match type of HS with forall e, sem _ _ _ _ _ (SOk _ (VVar _ _ ?w)) =>
    assert (HC : exists wr, outline wr = bare (expr "Range" [VNone; VNone]) /\ complete toks (mkYard [mkCar (OpPrefix w) p q] []) wr p q) end.
  { eexists. split; cycle 1.
    - unfold complete. cbn [y_ops y_res apply_all apply_one c_val c_spt c_ept String.eqb Ascii.eqb Bool.eqb].
      unfold apply_maybe_prefix.
      match goal with |- ayields (abind (abind (a_of_b (ex toks ?s ?e)) ?f) ?g) ?r =>
        generalize (ex_bind toks s e f); intros X end.
      eassert (Y : ayields _ _) by (apply X; reflexivity). clear X.
      match type of Y with ayields ?r _ => destruct r; cbn [ayields abind] in * end; [subst; reflexivity|contradiction|exact I].
    - unfold bare, expr, expression, node; cbn; unfold hole in *; congruence. }
  destruct HC as (wr & OR & CR).
  exists wr. split; [|exact OR]. intros e. cbn [gram]. enter. apply sem_shunt.
  eapply shunts_prefix; [exact I|apply HS|apply add_prefix|].
  change (SOk q wr) with (SOk (c_ept (mkCar wr p q)) (c_val (mkCar wr p q))).
  eapply shunts_stop_operand; [exact I|exact HF|]. apply finish_complete. exact CR.
Qed.

(** * Statements *)
Definition smask (h : front) (t : back) : N :=
  N.lor (N.lor (hmask h) (tmask t))
    (match h with Blocky => firstg (GNT N_operator_postfix_limited) | _ => firstg (GNT N_expression_infix_or_postfix) end).

Lemma statement_ok l h t ps v toks p q : chained l h t ps v -> h <> Barred -> reads toks p ps q -> clear toks (smask h t) q ->
  exists w, outline w = v /\ forall e, sem toks (amb l) (GNT N_statement) e p (SOk q (VVar "Statement" "Expression" w)).
Proof.
  intros [B N RJ _ _ K] NB R F. unfold smask in F.
  assert (F1 : clear toks (N.lor (hmask h) (tmask t)) q) by (eapply clear_subset; [exact F|apply subset_lor_l, subset_refl]).
  assert (F2 : clear toks (match h with Blocky => firstg (GNT N_operator_postfix_limited) | _ => firstg (GNT N_expression_infix_or_postfix) end) q)
    by (eapply clear_subset; [exact F|apply subset_lor_r, subset_refl]).
  destruct (K toks true p q (fun _ => NB) R) as (w & O & K1); [eapply clear_subset; [exact F1|apply subset_lor_r, subset_refl]|].
  destruct (RJ NB toks p q R F1) as (s & HF).
  assert (HS : forall e, sem toks (amb l) (GNT N_statement_expression) e p (SOk q w)).
  { intros e. enter. apply sem_shunt. apply K1. intros y s' C S.
    change (SOk q w) with (SOk (c_ept (mkCar w p q)) (c_val (mkCar w p q))).
    destruct h; cbn [state_of] in S; try congruence;
      try (eapply shunts_stop; [exact S|eapply sem_clear; [exact F2|apply subset_refl|reflexivity]|apply finish_complete; exact C]).
    subst s'. eapply shunts_limited_stop; [eapply sem_clear; [exact F2|apply subset_refl|reflexivity]|apply finish_complete; exact C]. }
  exists w. split; [exact O|]. intros e. enter. apply sem_alt. eapply alts_skip; [fails|]. apply alts_hit. run.
Qed.
