(** The parser follows the rules for statements, blocks and match expressions. *)

From Coq Require Import String List NArith Arith Bool Lia.
From Verif Require Import Base Peresil Token Schema Value Nt Grammar Points Table Static Amb Sem First OutlineSpec Reads Syntax UseSpec UseOk RustSpec Rules NestedOk TypesOk BoundsOk ItemsOk MembersOk PatternsOk AtomsOk YardOk ExprOk.
Import ListNotations.
Local Open Scope string_scope.
Local Open Scope list_scope.
Local Open Scope nat_scope.

(** * Lists with implicit separators *)

(** Whether the last separator was spelled. *)
Definition flag_of (a : after) : bool := match a with AfterSep => true | _ => false end.

Definition ends (a : after) (ws : list val) : Prop :=
  match a with Start => ws = [] | AfterItem => exists us u, ws = us ++ [VVar "Statement" "Item" u] | _ => True end.

Definition listed (l : place) (x sep : g) (mask : after -> N) (a : after) (ps : list piece) (vs : list val) : Prop :=
  forall toks p q, reads toks p ps q -> clear toks (mask a) q ->
    exists ws n, outlines ws = vs /\ ends a ws /\ forall e s u,
      impls toks (amb l) sep x e ws n (flag_of a) q s u -> impls toks (amb l) sep x e [] 0 false p s u.

Definition stmts_mask (a : after) : N :=
  match a with
  | Start | AfterSep => 0%N
  | AfterItem => bit KSemicolon
  | AfterBlock => N.lor (bit KSemicolon) (smask Blocky AtEnd)
  end.
Definition arms_mask (a : after) : N := match a with AfterBlock => bit KComma | _ => 0%N end.

Definition stmts (l : place) := listed l (GNT N_statement) t_semicolon stmts_mask.
Definition arms (l : place) := listed l (GNT N_match_arm) t_comma arms_mask.

Lemma listed_nil l x sep mask : listed l x sep mask Start [] [].
Proof. intros toks p q R C. cbn [reads] in R. subst q. exists [], 0. repeat split. auto. Qed.

Lemma implicit_outline w : is_implicit_separator (outline w) = is_implicit_separator w.
Proof.
  destruct w; try reflexivity.
  - cbn [outline]. destruct (leaf k) eqn:L; [reflexivity|]. cbn [is_implicit_separator].
    destruct (get_field_outline "hand" (VNode k fs)) as [E|E]; cbn [outline] in E; rewrite L in E; rewrite E; [reflexivity|].
    destruct (get_field "hand" (VNode k fs)) as [u|]; [|reflexivity]. cbn [option_map]. pose proof (outline_variant u) as U.
    destruct (outline u); destruct u; try contradiction; try reflexivity. destruct U as [-> ->]. reflexivity.
  - cbn [outline is_implicit_separator]. rewrite may_terminate_outline. reflexivity.
Qed.

(** One more element. *)
Lemma listed_implicit l x sep mask a a' ps vs qs v : listed l x sep mask a ps vs -> is_whitespace v = false ->
  (forall toks p q, reads toks p qs q -> clear toks (mask a) p) ->
  (forall toks p q, reads toks p qs q -> clear toks (mask a') q -> exists w, outline w = v /\
     (forall e, sem toks (amb l) x e p (SOk q w)) /\ (forall e, sem toks (amb l) sep e q (SFail q)) /\ is_implicit_separator w = true /\
     (a' = AfterItem -> exists u, w = VVar "Statement" "Item" u)) ->
  flag_of a' = false -> a' <> Start -> listed l x sep mask a' (ps ++ qs) (vs ++ [v]).
Proof.
  intros L W C P F NS toks p q R CQ. apply reads_app in R as (m & R1 & R2).
  destruct (L toks p m R1 (C _ _ _ R2)) as (ws & n & O & _ & K). destruct (P _ _ _ R2 CQ) as (w & OW & HS & HF & IM & EI).
  exists (ws ++ [w]), (S n). split; [|split].
  - rewrite outlines_app, O, (outlines_one w v OW W). reflexivity.
  - destruct a'; try exact I; [congruence|]. destruct (EI eq_refl) as (u & ->). cbn [ends]. eauto.
  - rewrite F. intros e s u H. apply K. eapply impls_implicit; [apply HS|apply HF|exact IM|exact H].
Qed.

Lemma listed_more l x sep mask a ps vs qs v k err : listed l x sep mask a ps vs -> is_whitespace v = false -> sep = GTok (MK k) err ->
  (forall toks p q, reads toks p qs q -> clear toks (mask a) p) ->
  (forall toks p q r, reads toks p qs q -> takes toks q (Sym k) r -> exists w, outline w = v /\ (forall e, sem toks (amb l) x e p (SOk q w))) ->
  listed l x sep mask AfterSep (ps ++ qs ++ [Sym k]) (vs ++ [v]).
Proof.
  intros L W -> C P toks p q R CQ. apply reads_app in R as (m & R1 & R2). apply reads_app in R2 as (r & R2 & q' & T & E). cbn [reads] in E. subst q'.
  destruct (L toks p m R1 (C _ _ _ R2)) as (ws & n & O & _ & K). destruct (P _ _ _ _ R2 T) as (w & OW & HS).
  exists (ws ++ [w]), (S n). split; [|split; [exact I|]].
  - rewrite outlines_app, O, (outlines_one w v OW W). reflexivity.
  - intros e s u H. destruct (sem_sym toks (amb l) k err e r q T) as (v' & HS'). apply K. eapply impls_more; [apply HS|exact HS'|exact H].
Qed.

(** * Statements *)
Lemma stmts_nil_ok l : stmts l Start [] [].
Proof. apply listed_nil. Qed.

Lemma chain_clear l h t ps v F toks p q : chained l h t ps v -> reads toks p ps q ->
  N.land F (opened (firstg (GNT N_expression))) = 0%N -> clear toks F p.
Proof. intros [B N _ _ _ _] R D. eapply begins_clear; [exact B|exact N|exact R|exact D]. Qed.

Lemma stmts_chain l a h t ps v toks p q : chained l h t ps v -> reads toks p ps q -> clear toks (stmts_mask a) p.
Proof. intros C R. eapply chain_clear; [exact C|exact R|]. destruct a; reflexivity. Qed.

Lemma stmts_item_ok l a ps vs qs v : stmts l a ps vs -> good l (With "Item" Item) qs v ->
  stmts l AfterItem (ps ++ qs) (vs ++ [VVar "Statement" "Item" v]).
Proof.
  intros L G. eapply listed_implicit; [exact L|reflexivity| | |reflexivity|discriminate].
  - intros toks p q R. eapply good_clear; [exact G|exact R|reflexivity|]. destruct a; reflexivity.
  - intros toks p q R C. cbn [stmts_mask] in C. destruct (good_sem toks l _ _ _ p q G R) as (w & HS & O).
    { now apply clear_zero. }
    exists (VVar "Statement" "Item" w). split; [cbn [outline]; rewrite O; reflexivity|]. split; [|split; [|split; [reflexivity|eauto]]].
    + intros e. enter. apply sem_alt. apply alts_hit. cbn [gram] in HS. run.
    + intros e. eapply sem_clear; [exact C|compute_mask|reflexivity].
Qed.

(** A separator behind an item is no statement of its own. *)
Lemma stmts_item_sep_ok l a ps vs qs v : stmts l a ps vs -> good l (With "Item" Item) qs v ->
  stmts l AfterSep (ps ++ qs ++ [Sym KSemicolon]) (vs ++ [VVar "Statement" "Item" v]).
Proof.
  intros L G. eapply listed_more; [exact L|reflexivity|reflexivity| |].
  - intros toks p q R. eapply good_clear; [exact G|exact R|reflexivity|]. destruct a; reflexivity.
  - intros toks p q r R T. destruct (good_sem toks l _ _ _ p q G R) as (w & HS & O); [now apply clear_zero|].
    exists (VVar "Statement" "Item" w). split; [cbn [outline]; rewrite O; reflexivity|].
    intros e. enter. apply sem_alt. apply alts_hit. cbn [gram] in HS. run.
Qed.

Lemma stmts_empty_ok l a ps vs : stmts l a ps vs -> In a [Start; AfterSep] ->
  stmts l AfterSep (ps ++ [Sym KSemicolon]) (vs ++ [VVar "Statement" "Empty" hole]).
Proof.
  intros L IA. apply (listed_more l (GNT N_statement) t_semicolon stmts_mask a ps vs [] _ KSemicolon ExpectedSemicolon L); [reflexivity|reflexivity| |].
  - intros toks p q _. destruct IA as [<-|[<-|[]]]; now apply clear_zero.
  - intros toks p q r R T. cbn [reads] in R. subst q.
    assert (C : forall F, N.land F (pmask (Sym KSemicolon)) = 0%N -> clear toks F p) by (intros F D; eapply clear_takes; [exact T|exact D]).
    assert (FI : forall e, sem toks (amb l) (attributed "Item" (GNT N_item)) e p (SFail p)) by (intros e; eapply sem_clear; [apply (C (firstg (attributed "Item" (GNT N_item)))); reflexivity|apply subset_refl|reflexivity]).
    assert (FE : forall e, sem toks (amb l) (GNT N_statement_expression) e p (SFail p)) by (intros e; eapply sem_clear; [apply (C (firstg (GNT N_statement_expression))); reflexivity|apply subset_refl|reflexivity]).
    assert (HP : forall e, exists v, sem toks (amb l) t_semicolon e p (SOk r v)) by (intros e; exact (sem_sym toks (amb l) KSemicolon _ e p r T)).
    assert (HE : forall e, sem toks (amb l) (GPeek t_semicolon) e p (SOk p VUnit)) by (intros e; destruct (HP e) as (v & HV); eapply sem_peek; exact HV).
    eexists. split; [|intros e; enter; run]. reflexivity.
Qed.

Lemma semi_mask h t : In h [Free; Blocky] -> N.land (smask h t) (pmask (Sym KSemicolon)) = 0%N.
Proof. intros [<-|[<-|[]]]; destruct t as [| |[]|[]|[]]; reflexivity. Qed.

Lemma not_barred h hs : In h hs -> existsb (fun h => match h with Barred => true | _ => false end) hs = false -> h <> Barred.
Proof. intros I E ->. enough (existsb (fun h => match h with Barred => true | _ => false end) hs = true) by congruence. apply existsb_exists. eauto. Qed.

Lemma stmts_expr_ok l a ps vs h t qs v : stmts l a ps vs -> chained l h t qs v -> In h [Free; Blocky] ->
  stmts l AfterSep (ps ++ qs ++ [Sym KSemicolon]) (vs ++ [VVar "Statement" "Expression" v]).
Proof.
  intros L C H. eapply listed_more; [exact L|reflexivity|reflexivity| |].
  - intros toks p q R. eapply stmts_chain; eauto.
  - intros toks p q r R T. destruct (statement_ok l h t qs v toks p q C) as (w & O & HS); [eapply not_barred; [exact H|reflexivity]|exact R| |].
    { eapply clear_takes; [exact T|]. apply semi_mask, H. }
    exists (VVar "Statement" "Expression" w). split; [cbn [outline]; rewrite O; reflexivity|exact HS].
Qed.

Lemma blocky_shape l t ps v w : chained l Blocky t ps v -> outline w = v -> is_implicit_separator (VVar "Statement" "Expression" w) = true.
Proof. intros [_ _ _ _ H _] <-. cbn [shaped] in H. cbn [is_implicit_separator]. rewrite <- may_terminate_outline. exact H. Qed.

Lemma stmts_blocky_ok l a ps vs qs v : stmts l a ps vs -> chained l Blocky AtEnd qs v ->
  stmts l AfterBlock (ps ++ qs) (vs ++ [VVar "Statement" "Expression" v]).
Proof.
  intros L G. eapply listed_implicit; [exact L|reflexivity| | |reflexivity|discriminate].
  - intros toks p q R. eapply stmts_chain; eauto.
  - intros toks p q R C. cbn [stmts_mask] in C. destruct (statement_ok l _ _ qs v toks p q G) as (w & O & HS); [discriminate|exact R| |].
    { eapply clear_subset; [exact C|compute_mask]. }
    exists (VVar "Statement" "Expression" w). split; [cbn [outline]; rewrite O; reflexivity|]. split; [exact HS|]. split; [|split; [eapply blocky_shape; eauto|discriminate]].
    intros e. eapply sem_clear; [eapply clear_subset; [exact C|apply subset_lor_l, subset_refl]|compute_mask|reflexivity].
Qed.

(** * Blocks *)
Lemma block_from l ps vs o : 
  (forall toks p q r, reads toks p ps q -> takes toks q (Sym KRightCurly) r -> exists ws n b,
     (forall e, impls toks (amb l) t_semicolon (GNT N_statement) e [] 0 false p q (vtailed ws n b)) /\
     outlines (fst (block_split ws b)) = vs /\ outline (snd (block_split ws b)) = o) ->
  good l Block (Sym KLeftCurly :: ps ++ [Sym KRightCurly]) (node "Block" [VList vs; o]).
Proof.
  intros H. rule. destruct R as (m & T1 & R). apply reads_app in R as (r & R & q' & T2 & E). cbn [reads] in E. subst q'.
  destruct (H _ _ _ _ R T2) as (ws & n & b & HI & OS & OE).
  assert (HS : forall e, sem toks (amb l) (implicit_values_terminated t_semicolon (GNT N_statement)) e m (SOk r (VPair (VList ws) (VBool b)))).
  { assert (HI' : forall e, sem toks (amb l) (GImplicit t_semicolon (GNT N_statement)) e m (SOk r (vtailed ws n b))) by (intros e; apply sem_implicit, HI).
    intros e. unfold implicit_values_terminated. run. }
  tk. names. eexists. split; [intros e; run|]. destruct (block_split ws b). cbn [fst snd] in *. unfold outlines in OS. cbn. rewrite OS, OE. reflexivity.
Qed.

Lemma brace_mask F : N.land F (opened (bit KRightCurly)) = 0%N -> forall toks q r, takes toks q (Sym KRightCurly) r -> clear toks F q.
Proof. intros D toks q r T. eapply (begins_clear toks (bit KRightCurly) [Sym KRightCurly] q r F); [compute_mask|discriminate|cbn [reads]; eauto|exact D]. Qed.

Lemma stmts_stop l e toks q r : takes toks q (Sym KRightCurly) r -> sem toks (amb l) (GNT N_statement) e q (SFail q).
Proof. intros T. eapply sem_clear; [|apply subset_refl|reflexivity]. eapply brace_mask; [|exact T]. reflexivity. Qed.
Lemma stmts_unseparated l e toks q r : takes toks q (Sym KRightCurly) r -> sem toks (amb l) t_semicolon e q (SFail q).
Proof. intros T. eapply sem_clear; [|apply subset_refl|reflexivity]. eapply brace_mask; [|exact T]. reflexivity. Qed.

Lemma split_value ws w : block_split (ws ++ [VVar "Statement" "Expression" w]) false = (ws, VSome w).
Proof. unfold block_split. rewrite rev_app_distr. cbn [rev app]. rewrite rev_involutive. reflexivity. Qed.
Lemma split_lost ws : block_split ws true = (ws, VNone).
Proof.
  unfold block_split. destruct (rev ws) as [|[] ?]; try reflexivity.
  repeat match goal with |- context [match ?x with _ => _ end] => destruct x; try reflexivity end.
Qed.

Lemma block_of_ok l a ps vs : stmts l a ps vs -> a <> AfterBlock ->
  good l Block (Sym KLeftCurly :: ps ++ [Sym KRightCurly]) (node "Block" [VList vs; VNone]).
Proof.
  intros L N. apply block_from. intros toks p q r R T. destruct (L toks p q R) as (ws & n & O & E & K).
  { eapply brace_mask; [|exact T]. destruct a; reflexivity. }
  exists ws, n, (flag_of a). split; [intros e; apply K, impls_end; eapply stmts_stop; exact T|].
  enough (B : block_split ws (flag_of a) = (ws, VNone)) by (rewrite B; split; [exact O|reflexivity]).
  destruct a; cbn [flag_of ends] in *; try congruence; [subst ws; reflexivity|apply split_lost|].
  destruct E as (us & u & ->). unfold block_split. rewrite rev_app_distr. reflexivity.
Qed.

Lemma block_blocky_ok l a ps vs qs v : stmts l a ps vs -> chained l Blocky AtEnd qs v ->
  good l Block (Sym KLeftCurly :: ps ++ qs ++ [Sym KRightCurly]) (node "Block" [VList vs; VSome v]).
Proof.
  intros L C. rewrite app_assoc. apply block_from. intros toks p q r R T. apply reads_app in R as (m & R1 & R2).
  destruct (L toks p m R1) as (ws & n & O & _ & K); [eapply stmts_chain; eauto|].
  destruct (statement_ok l _ _ qs v toks m q C) as (w & OW & HS); [discriminate|exact R2|eapply brace_mask; [|exact T]; reflexivity|].
  exists (ws ++ [VVar "Statement" "Expression" w]), (S n), false. split.
  - intros e. apply K. eapply impls_implicit; [apply HS|eapply stmts_unseparated; exact T|eapply blocky_shape; eauto|].
    apply impls_end. eapply stmts_stop; exact T.
  - rewrite split_value. cbn [fst snd outline]. rewrite OW. split; [exact O|reflexivity].
Qed.

Lemma last_chain l a h t ps vs qs v toks p q r : stmts l a ps vs -> chained l h t qs v -> In h [Free; Called] ->
  reads toks p (ps ++ qs) q -> takes toks q (Sym KRightCurly) r -> exists ws w n,
    outlines ws = vs /\ outline w = v /\
    forall e, impls toks (amb l) t_semicolon (GNT N_statement) e [] 0 false p q (vtailed (ws ++ [VVar "Statement" "Expression" w]) n (flag_of a)).
Proof.
  intros L C H R T. apply reads_app in R as (m & R1 & R2).
  destruct (L toks p m R1) as (ws & n & O & _ & K); [eapply stmts_chain; eauto|].
  destruct (statement_ok l _ _ qs v toks m q C) as (w & OW & HS); [eapply not_barred; [exact H|reflexivity]|exact R2| |].
  { eapply brace_mask; [|exact T]. destruct H as [<-|[<-|[]]]; destruct t as [| |[]|[]|[]]; reflexivity. }
  exists ws, w, n. split; [exact O|]. split; [exact OW|]. intros e. apply K.
  eapply impls_last; [apply HS|eapply stmts_unseparated; exact T|].
  cbn [is_implicit_separator]. rewrite <- may_terminate_outline, OW. pose proof (ch_shaped _ _ _ _ _ C) as S. destruct H as [<-|[<-|[]]]; exact S.
Qed.

Lemma block_value_ok l a ps vs h t qs v : stmts l a ps vs -> a <> AfterSep -> chained l h t qs v -> In h [Free; Called] ->
  good l Block (Sym KLeftCurly :: ps ++ qs ++ [Sym KRightCurly]) (node "Block" [VList vs; VSome v]).
Proof.
  intros L N C H. rewrite app_assoc. apply block_from. intros toks p q r R T.
  destruct (last_chain _ _ _ _ _ _ _ _ _ _ _ _ L C H R T) as (ws & w & n & O & OW & K).
  exists (ws ++ [VVar "Statement" "Expression" w]), n, false. split.
  - assert (E : flag_of a = false) by (destruct a; [reflexivity|congruence|reflexivity|reflexivity]). rewrite E in K. exact K.
  - rewrite split_value. cbn [fst snd outline]. rewrite OW. split; [exact O|reflexivity].
Qed.

Lemma block_lost_ok l ps vs h t qs v : stmts l AfterSep ps vs -> chained l h t qs v -> In h [Free; Called] ->
  good l Block (Sym KLeftCurly :: ps ++ qs ++ [Sym KRightCurly])
    (node "Block" [VList (vs ++ [VVar "Statement" "Expression" v]); VNone]).
Proof.
  intros L C H. rewrite app_assoc. apply block_from. intros toks p q r R T.
  destruct (last_chain _ _ _ _ _ _ _ _ _ _ _ _ L C H R T) as (ws & w & n & O & OW & K).
  exists (ws ++ [VVar "Statement" "Expression" w]), n, true. split; [exact K|]. rewrite split_lost. cbn [fst snd outline]. split; [|reflexivity].
  rewrite outlines_app, O. f_equal. apply outlines_one; [cbn [outline]; rewrite OW; reflexivity|reflexivity].
Qed.

(** * Match expressions *)
Lemma arms_nil_ok l : arms l Start [] [].
Proof. apply listed_nil. Qed.

Lemma arms_before l a b qs v toks p q : good l (Arm b) qs v -> reads toks p qs q -> clear toks (arms_mask a) p.
Proof. intros G R. eapply good_clear; [exact G|exact R|reflexivity|]. destruct a; reflexivity. Qed.

Lemma arms_comma_ok l a b ps vs qs v : arms l a ps vs -> good l (Arm b) qs v ->
  arms l AfterSep (ps ++ qs ++ [Sym KComma]) (vs ++ [v]).
Proof.
  intros L G. eapply listed_more; [exact L|exact (g_solid _ _ _ _ G)|reflexivity| |].
  - intros toks p q R. eapply arms_before; eauto.
  - intros toks p q r R T. destruct (good_sem toks l _ _ _ p q G R) as (w & HS & O).
    { eapply clear_takes; [exact T|]. destruct b; reflexivity. }
    exists w. split; [exact O|exact HS].
Qed.

Lemma arms_brace_ok l a ps vs qs v : arms l a ps vs -> good l (Arm true) qs v -> is_implicit_separator v = true ->
  arms l AfterBlock (ps ++ qs) (vs ++ [v]).
Proof.
  intros L G I. eapply listed_implicit; [exact L|exact (g_solid _ _ _ _ G)| | |reflexivity|discriminate].
  - intros toks p q R. eapply arms_before; eauto.
  - intros toks p q R C. cbn [arms_mask] in C. destruct (good_sem toks l _ _ _ p q G R) as (w & HS & O).
    { now apply clear_zero. }
    exists w. split; [exact O|]. split; [exact HS|]. split; [|split; [rewrite <- implicit_outline, O; exact I|discriminate]].
    intros e. eapply sem_clear; [exact C|compute_mask|reflexivity].
Qed.

Lemma match_from l cs c ps vs : good BeforeBlock (Expr true) cs c ->
  (forall toks p q r, reads toks p ps q -> takes toks q (Sym KRightCurly) r -> exists ws n b,
     (forall e, impls toks (amb l) t_comma (GNT N_match_arm) e [] 0 false p q (vtailed ws n b)) /\ outlines ws = vs) ->
  good l (Atom Blocky AtEnd) (Sym KMatch :: cs ++ Sym KLeftCurly :: ps ++ [Sym KRightCurly]) (expr "Match" [c; VList vs]).
Proof.
  intros G H. rule; [no_item|]. destruct R as (m & T1 & R). apply reads_app in R as (k & RC & k' & TC & R).
  apply reads_app in R as (r & R & q' & T2 & E). cbn [reads] in E. subst q'.
  destruct (H _ _ _ _ R T2) as (ws & n & b & HI & OS).
  assert (HS : forall e, sem toks (amb l) (implicit_values t_comma (GNT N_match_arm)) e k' (SOk r (VList ws))).
  { assert (HI' : forall e, sem toks (amb l) (GImplicit t_comma (GNT N_match_arm)) e k' (SOk r (vtailed ws n b))) by (intros e; apply sem_implicit, HI).
    intros e. unfold implicit_values. run. }
  clear H HI. subst vs. tk. use_all. names. finish.
Qed.

Lemma arms_stop l e toks q r : takes toks q (Sym KRightCurly) r -> sem toks (amb l) (GNT N_match_arm) e q (SFail q).
Proof. intros T. eapply sem_clear; [|apply subset_refl|reflexivity]. eapply brace_mask; [|exact T]. reflexivity. Qed.
Lemma arms_unseparated l e toks q r : takes toks q (Sym KRightCurly) r -> sem toks (amb l) t_comma e q (SFail q).
Proof. intros T. eapply sem_clear; [|apply subset_refl|reflexivity]. eapply brace_mask; [|exact T]. reflexivity. Qed.

Lemma atom_match_ok l cs c a ps vs : good BeforeBlock (Expr true) cs c -> arms l a ps vs ->
  good l (Atom Blocky AtEnd) (Sym KMatch :: cs ++ Sym KLeftCurly :: ps ++ [Sym KRightCurly]) (expr "Match" [c; VList vs]).
Proof.
  intros G L. apply match_from; [exact G|]. intros toks p q r R T. destruct (L toks p q R) as (ws & n & O & _ & K).
  { eapply brace_mask; [|exact T]. destruct a; reflexivity. }
  exists ws, n, (flag_of a). split; [intros e; apply K, impls_end; eapply arms_stop; exact T|exact O].
Qed.

Lemma atom_match_last_ok l cs c a ps vs qs v : good BeforeBlock (Expr true) cs c -> arms l a ps vs -> good l (Arm false) qs v ->
  is_implicit_separator v = false ->
  good l (Atom Blocky AtEnd) (Sym KMatch :: cs ++ Sym KLeftCurly :: ps ++ qs ++ [Sym KRightCurly]) (expr "Match" [c; VList (vs ++ [v])]).
Proof.
  intros G L GA I. rewrite (app_assoc ps qs). apply match_from; [exact G|]. intros toks p q r R T. apply reads_app in R as (m & R1 & R2).
  destruct (L toks p m R1) as (ws & n & O & _ & K); [eapply arms_before; eauto|].
  destruct (good_sem toks l _ _ _ m q GA R2) as (w & HS & OW); [eapply brace_mask; [|exact T]; reflexivity|].
  exists (ws ++ [w]), n, (flag_of a). split.
  - intros e. apply K. eapply impls_last; [apply HS|eapply arms_unseparated; exact T|]. rewrite <- implicit_outline, OW. exact I.
  - rewrite outlines_app, O. f_equal. apply outlines_one; [exact OW|exact (g_solid _ _ _ _ GA)].
Qed.
