(** The parser follows the rules for patterns. *)

From Coq Require Import String List NArith Arith Bool Lia.
From Verif Require Import Base Peresil Token Schema Value Nt Grammar Points Table Static Amb Sem First OutlineSpec Reads Syntax UseSpec UseOk RustSpec Rules NestedOk TypesOk BoundsOk ItemsOk.
Import ListNotations.
Local Open Scope string_scope.
Local Open Scope list_scope.
Local Open Scope nat_scope.

(** * Literals *)
Lemma char_lit_ok l x : good l CharLit [Word KCharacter x] (VNode "Character" [VExt x; VExt x]).
Proof. rule. parts. finish. Qed.

Lemma byte_lit_ok l x : good l ByteLit [Word KByte x] (VNode "Byte" [hole; VNode "Character" [VExt x; VExt x]]).
Proof. rule. parts. finish. Qed.

Lemma byte_str_ok l k x : In k [KByteString; KByteStringRaw] ->
    good l ByteStr [Word k x] (VNode "ByteString" [hole; VNode "String" [VExt x; VExt x]]).
Proof. intros [<-|[<-|[]]]; rule; parts; finish. Qed.

Lemma num_lit_ok l n : good l NumLit [Num n] (number_ast n).
Proof.
  rule. rd. cbn [takes] in *. exists (convert_number n). split.
  - intros e. names. enter. apply sem_alt. apply alts_last. apply sem_seq. eapply sems_cons; [|cbn [bind_pat]; reflexivity|].
    + eapply sem_gets. eassumption.
    + seq_done.
  - destruct n as [r x i f e s]. unfold convert_number, number_ast, node. cbn [n_radix n_extent n_integral n_fractional n_exponent n_type_suffix].
    destruct r, f, e, s; reflexivity.
Qed.

(** * Patterns *)
Ltac pair := cbn [fst snd].
Ltac plain_reject := let n := fresh "n" in let I := fresh "I" in let toks := fresh "toks" in let p := fresh "p" in let q := fresh "q" in let R := fresh "R" in
  intros n I toks p q R ?; rd; tk; use_all; names; reject I.

Lemma pattern_number_ok l m ps v : good l NumLit ps v ->
    good l PatternNumber (flag m KMinus ++ ps) (node "PatternNumber" [mark m; v]).
Proof. rule. parts. finish. Qed.

(** What does not start with a name has no name. *)
Definition unnamed : N :=
  N.lor (N.lor (firstg (GNT N_pattern_number)) (N.lor (firstg (GNT N_pattern_char)) (firstg (GNT N_pattern_byte))))
  (N.lor (N.lor (firstg (GNT N_pattern_string)) (firstg (GNT N_pattern_byte_string)))
  (bits [KBox; KLeftParen; KLeftSquare])).
Lemma begins_not m k ps : begins m ps -> subset (bit k) m = false -> starts_with k ps = false.
Proof.
  intros B S. unfold starts_with. destruct (head_kind ps) as [k'|] eqn:E; [|reflexivity]. destruct (tkind_eqb k k') eqn:Q; [|reflexivity].
  apply tkind_eqb_eq in Q. subst k'. destruct ps as [|[k'|k' x|n|[k' x|n]] ps]; try discriminate; injection E as ->; cbn [begins pbit tbit] in B; first [contradiction|congruence].
Qed.

Lemma nameless l ps F : begins unnamed ps -> ps <> [] ->
  starts_with KSelfIdent ps = false /\
  forall n, In n [N_self_argument; N_pattern_slice_subslice; N_pattern_name] -> rejected l (GNT n) F ps.
Proof.
  intros B NE. split.
  - apply (begins_not unnamed); [exact B|compute_mask].
  - intros n I toks p q R _. reject I.
Qed.
Ltac nameless := apply nameless; [begin|nonempty].

(** What a node of the AST looks like. *)
Lemma outline_node w k fs : outline w = VNode k fs -> leaf k = false -> exists gs, w = VNode k gs /\ map outline gs = fs.
Proof.
  destruct w; try discriminate. cbn [outline]. destruct (leaf k0) eqn:L; intros E N.
  - injection E as -> ->. congruence.
  - injection E as -> <-. eauto.
Qed.
Lemma outline_leaf w k fs : outline w = VNode k fs -> leaf k = true -> w = VNode k fs.
Proof.
  destruct w; try discriminate. cbn [outline]. destruct (leaf k0) eqn:L; intros E N.
  - exact E.
  - injection E as -> <-. congruence.
Qed.

(** The start of a range, which it is not. *)
Ltac component l :=
  match goal with
  | HS : forall e, sem ?t (amb l) (GNT ?n) e ?p (SOk ?q ?w) |- _ =>
      lazymatch n with
      | N_pathed_ident => idtac | N_character_literal => idtac | N_expr_byte => idtac | N_pattern_number => idtac
      end;
      let X := fresh "X" in let v := fresh "v" in
      assert (X : exists v, forall e, sem t (amb l) (GNT N_pattern_range_component) e p (SOk q v)) by (eexists; intros ?; run);
      destruct X as (v & X)
  end.
Ltac expose :=
  repeat match goal with
  | O : outline ?w = VNode _ _ |- _ => is_var w; apply outline_leaf in O; [|reflexivity]; subst w
  | O : outline ?w = VNode _ _ |- _ => is_var w; apply outline_node in O; [|reflexivity]; destruct O as (? & -> & O)
  | O : outline ?w = node _ _ |- _ => is_var w; apply outline_node in O; [|reflexivity]; destruct O as (? & -> & O)
  | O : map outline ?gs = _ |- _ =>
      cbn [node app map] in O;
      lazymatch type of O with
      | map outline ?gs = [] => destruct gs; [clear O|discriminate O]
      | map outline ?gs = _ :: _ => destruct gs; [discriminate O|cbn [map] in O; injection O as ? O]
      end
  end.

Lemma pattern_char_ok l ps x y : good l CharLit ps (VNode "Character" [VExt x; y]) ->
    good l PatternKind ps (VVar "PatternKind" "Character" (VNode "PatternCharacter" [hole; VNode "Character" [VExt x; y]])).
Proof. rule; [nameless|]. parts. component l. expose. finish. Qed.

Lemma pattern_byte_ok l ps v : good l ByteLit ps (VNode "Byte" [hole; v]) ->
    good l PatternKind ps (VVar "PatternKind" "Byte" (VNode "PatternByte" [hole; VNode "Byte" [hole; v]])).
Proof. rule; [nameless|]. parts. component l. expose. finish. Qed.

Lemma pattern_num_ok l ps v : good l PatternNumber ps v -> good l PatternKind ps (VVar "PatternKind" "Number" v).
Proof. rule; [nameless|]. parts. component l. finish. Qed.

Lemma pattern_byte_str_ok l ps v : good l ByteStr ps (VNode "ByteString" [hole; v]) ->
    good l PatternKind ps (VVar "PatternKind" "ByteString" (VNode "PatternByteString" [hole; VNode "ByteString" [hole; v]])).
Proof. rule; [nameless|]. parts. expose. finish. Qed.

Lemma pattern_str_ok l ps x y : good l Str ps (VNode "String" [VExt x; y]) ->
    good l PatternKind ps (VVar "PatternKind" "String" (VNode "PatternString" [hole; VNode "String" [VExt x; y]])).
Proof. rule; [nameless|]. parts. expose. finish. Qed.

Lemma pattern_boxed_ok l ps v : good l Pattern ps v ->
    good l PatternKind (Sym KBox :: ps) (VVar "PatternKind" "Box" (node "PatternBox" [v])).
Proof. rule; [nameless|]. parts. finish. Qed.

Lemma pattern_tupled_ok l ps v : good l PatternTuple ps v -> good l PatternKind ps (VVar "PatternKind" "Tuple" v).
Proof. rule; [nameless|]. parts. finish. Qed.

Lemma pattern_tuple_ok l ms c : goods l TupleMember ms ->
    good l PatternTuple (Sym KLeftParen :: commas (spelled ms) c ++ [Sym KRightParen]) (node "PatternTuple" [VList (asts ms)]).
Proof. rule. parts. finish. Qed.

Lemma tuple_pattern_ok l ps v : good l Pattern ps v -> good l TupleMember ps (VVar "PatternTupleMember" "Pattern" v).
Proof. rule. parts. finish. Qed.

Lemma tuple_rest_ok l : good l TupleMember [Sym KDoublePeriod] (VVar "PatternTupleMember" "Wildcard" hole).
Proof. rule. parts. finish. Qed.

Lemma pattern_slice_ok l ms c : goods l SliceMember ms ->
    good l PatternKind (Sym KLeftSquare :: commas (spelled ms) c ++ [Sym KRightSquare])
      (VVar "PatternKind" "Slice" (node "PatternSlice" [VList (asts ms)])).
Proof. rule; [nameless|]. parts. finish. Qed.

Lemma slice_rest_ok l : good l SliceMember [Sym KDoublePeriod] (VVar "PatternSliceMember" "Wildcard" hole).
Proof. rule. parts. finish. Qed.

Lemma slice_pattern_ok l ps v : good l Pattern ps v -> good l SliceMember ps (VVar "PatternSliceMember" "Pattern" v).
Proof.
  intros G. pose proof (proj2 (good_extra _ _ _ _ G) _ (or_intror (or_introl eq_refl))) as X.
  rule. rejections. parts. finish.
Qed.

Lemma slice_sub_ok l r m ns n : good l Name ns n ->
    good l SliceMember (flag r KRef ++ flag m KMut ++ ns ++ [Sym KAt; Sym KDoublePeriod])
      (VVar "PatternSliceMember" "Subslice" (node "PatternSliceSubslice" [mark r; mark m; n])).
Proof. rule. parts. finish. Qed.

Lemma range_legacy_ok l : good l RangeOp [Sym KTriplePeriod] (VVar "RangeInclusiveOperator" "Legacy" hole).
Proof. rule. parts. finish. Qed.

Lemma range_op_ok l : good l RangeOp [Sym KDoublePeriodEquals] (VVar "RangeInclusiveOperator" "Recommended" hole).
Proof. rule. parts. finish. Qed.

Lemma range_char_ok l ps v : good l CharLit ps v -> good l RangeEnd ps (VVar "PatternRangeComponent" "Character" v).
Proof. rule; [nameless|]. parts. finish. Qed.

Lemma range_byte_ok l ps v : good l ByteLit ps v -> good l RangeEnd ps (VVar "PatternRangeComponent" "Byte" v).
Proof. rule; [nameless|]. parts. finish. Qed.

Lemma range_num_ok l ps v : good l PatternNumber ps v -> good l RangeEnd ps (VVar "PatternRangeComponent" "Number" v).
Proof. rule; [nameless|]. parts. finish. Qed.

(** A path without [self] in front. *)
Ltac selfless G S :=
  let B := fresh "B" in let NE := fresh "NE" in
  pose proof (begins_without _ _ _ (g_begins _ _ _ _ G) S) as B; pose proof (good_nonempty _ _ _ _ G eq_refl) as NE.

Lemma range_ident_ok l ps v : good l PathedIdent ps v -> starts_with KSelfIdent ps = false ->
    good l RangeEnd ps (VVar "PatternRangeComponent" "Ident" v).
Proof.
  intros G S. selfless G S. rule.
  - split; [exact S|]. intros n I toks p q R F. use_all; names.
    destruct (not_named toks (amb l) _ (bits [KAt]) ps p q (g_begins _ _ _ _ G) NE _ (good_extra _ _ _ _ G)) as [(s & X)|(r & w' & X & Y)];
      [compute_mask|exact R|clr| |]; reject I.
  - parts. finish.
Qed.

Lemma starts_app k a b : a <> [] -> starts_with k (a ++ b) = starts_with k a.
Proof. destruct a as [|x a]; [congruence|]. now destruct x. Qed.

(** A rejected spelling stays rejected with something behind it. *)
Lemma rejected_app l x F F' a b : rejected l x F a -> (forall toks q, clear toks F' q -> forall p, reads toks p b q -> clear toks F p) ->
  rejected l x F' (a ++ b).
Proof.
  intros H C toks p q R D. apply reads_app in R as (r & R & R'). apply (H toks p r R). eapply C; eauto.
Qed.

Lemma pattern_exclusive_ok l ss s es e : good l RangeEnd ss s -> good l RangeEnd es e ->
    good l PatternKind (ss ++ Sym KDoublePeriod :: es) (VVar "PatternKind" "RangeExclusive" (node "PatternRangeExclusive" [s; e])).
Proof.
  intros G G'. destruct (good_extra _ _ _ _ G) as (S & E). rule.
  - split; [rewrite starts_app by (exact (good_nonempty _ _ _ _ G eq_refl)); exact S|].
    intros n I. eapply rejected_app; [exact (E n I)|]. intros toks q _ p R. rd. clr.
  - parts. finish.
Qed.

Lemma pattern_inclusive_ok l ss s os o es e : good l RangeEnd ss s -> good l RangeOp os o -> good l RangeEnd es e ->
    good l PatternKind (ss ++ os ++ es) (VVar "PatternKind" "RangeInclusive" (node "PatternRangeInclusive" [s; o; e])).
Proof.
  intros G GO G'. destruct (good_extra _ _ _ _ G) as (S & E). rule.
  - split; [rewrite starts_app by (exact (good_nonempty _ _ _ _ G eq_refl)); exact S|].
    intros n I. eapply rejected_app; [exact (E n I)|]. intros toks q _ p R. rd. clr.
  - parts. finish.
Qed.

Lemma pattern_ref_ok l (m : bool) ps v : good l Pattern ps v -> (m = false -> starts_with KMut ps = false) ->
    good l PatternKind (Sym KAmpersand :: flag m KMut ++ ps)
      (VVar "PatternKind" "Reference" (node "PatternReference" [mark m; v])).
Proof.
  intros G M. destruct (good_extra _ _ _ _ G) as (S & E). selfless G S.
  destruct m; [|specialize (M eq_refl); pose proof (begins_without _ _ _ B M) as B']; cbn [flag app mark].
  all: rule; [split; [reflexivity|]|].
  - intros n I toks p q R F. rd. tk.
    assert (X : exists w, forall e, sem toks (amb l) (GNT N_typ_reference_kind) e p (SOk x0 w)) by (eexists; intros ?; run).
    assert (Y : exists w, forall e, sem toks (amb l) (GNT N_self_argument_qualifier) e p (SOk x0 w)).
    { destruct X as (w & X). eexists; intros ?; run. }
    destruct Y as (w & Y). reject I.
  - parts. finish.
  - intros n I toks p q R F. rd. tk.
    assert (X : exists w, forall e, sem toks (amb l) (GNT N_typ_reference_kind) e p (SOk x w)) by (eexists; intros ?; run).
    assert (Y : exists w, forall e, sem toks (amb l) (GNT N_self_argument_qualifier) e p (SOk x w)).
    { destruct X as (w & X). eexists; intros ?; run. }
    destruct Y as (w & Y). reject I.
  - parts. finish.
Qed.

Lemma field_long_ok l ns n ps v : good l Name ns n -> good l Pattern ps v ->
    good l FieldPattern (ns ++ Sym KColon :: ps)
      (VVar "PatternStructField" "Long" (node "PatternStructFieldLong" [n; v])).
Proof. rule. parts. finish. Qed.

Lemma field_short_ok l ps r m v t : good l PatternIdent ps (node "PatternIdent" [r; m; v; t]) ->
    good l FieldPattern ps (VVar "PatternStructField" "Short" (node "PatternStructFieldShort" [node "PatternIdent" [r; m; v; t]])).
Proof.
  intros G. destruct (good_extra _ _ _ _ G) as (_ & _ & X).
  rule. rejections. parts. expose. finish.
Qed.

Lemma pattern_struct_ok l ps v fs c (w : bool) : good l PathedIdent ps v -> starts_with KSelfIdent ps = false -> goods l FieldPattern fs ->
    (fs <> [] -> w = true -> c = true) ->
    good l PatternKind (ps ++ Sym KLeftCurly :: commas (spelled fs) c ++ flag w KDoublePeriod ++ [Sym KRightCurly])
      (VVar "PatternKind" "Struct" (node "PatternStruct" [v; VList (asts fs); VBool w])).
Proof.
  intros G S GF W. selfless G S. rule.
  - split; [rewrite starts_app by exact NE; exact S|]. intros n I toks p q R F. rd. tk. use_all. names. path_head l [KAt]; reject I.
  - destruct w; cbn [flag app] in *; [|parts; component l; finish]. assert (E : fs <> [] -> c = true) by auto.
    rd. destruct (goods_list_trailed toks l FieldPattern KComma eq_refl (fun _ H => H) eq_refl fs c x0 x1 GF E H0) as (vs & HF & OF).
    { clr. }
    tk. use_all. names. component l. finish.
Qed.

Lemma mut_qualifier toks a p q : takes toks p (Sym KMut) q ->
  exists w, forall e, sem toks a (GNT N_self_argument_qualifier) e p (SOk q w).
Proof. intros T. tk. eexists; intros ?; run. Qed.
Ltac qualifier l :=
  try match goal with H : takes ?t ?p (Sym KMut) ?q |- _ => destruct (mut_qualifier t (amb l) p q H) as (? & ?) end.

Lemma pattern_ident_ok l r m ps v ts t : good l PathedIdent ps v -> starts_with KSelfIdent ps = false -> goodo l PatternTuple ts t ->
    good l PatternIdent (flag r KRef ++ flag m KMut ++ ps ++ ts) (node "PatternIdent" [mark r; mark m; v; t]).
Proof.
  intros G S GT. selfless G S. rule.
  - split; [destruct r, m; cbn [flag app]; try reflexivity; rewrite starts_app by exact NE; exact S|].
    split.
    + intros n I toks p q R F. rd. tk. use_all. names. path_head l [KAt]; destruct r, m; cbn [flag app] in *; rd; tk; use_all; names; try component l; qualifier l; reject I.
    + intros toks p q R F. destruct r, m; cbn [flag app] in R; rd; tk; [..|path_head l [KColon]]; eexists; intros ?; fails.
  - parts. finish.
Qed.

Lemma pattern_idented_ok l ps v : good l PatternIdent ps v -> good l PatternKind ps (VVar "PatternKind" "Ident" v).
Proof.
  intros G. destruct (good_extra _ _ _ _ G) as (S & E & _). rule.
  - split; [exact S|]. intros n I. apply E. cbn [In] in *. tauto.
  - assert (X : forall n, In n [N_self_argument; N_pattern_slice_subslice; N_pattern_name; N_pattern_range_exclusive; N_pattern_range_inclusive;
         N_pattern_struct; N_pattern_macro_call] -> exists s, forall e, sem toks (amb l) (GNT n) e p (SFail s)).
    { intros n I. apply (E n I toks p q R). clr. }
    destruct (X N_pattern_range_exclusive) as (s1 & X1); [cbn; tauto|].
    destruct (X N_pattern_range_inclusive) as (s2 & X2); [cbn; tauto|].
    destruct (X N_pattern_struct) as (s3 & X3); [cbn; tauto|].
    destruct (X N_pattern_macro_call) as (s4 & X4); [cbn; tauto|].
    parts. finish.
Qed.

Lemma pattern_macro_ok l ps v n a : good l MacroCall ps (node "MacroCall" [v; n; a]) -> starts_with KSelfIdent ps = false ->
    good l PatternKind ps (VVar "PatternKind" "MacroCall" (node "PatternMacroCall" [node "MacroCall" [v; n; a]])).
Proof.
  intros G S. pose proof (good_extra _ _ _ _ G) as E. cbn [extra] in E. selfless G S. rule.
  - split; [exact S|]. intros n' I toks p q R F. destruct I as [<-|I]; [eexists; intros ?; fails|].
    apply (E n' ltac:(cbn [In] in *; tauto) toks p q R). now apply clear_zero.
  - assert (X : forall n, In n [N_pattern_range_exclusive; N_pattern_range_inclusive; N_pattern_struct] ->
      exists s, forall e, sem toks (amb l) (GNT n) e p (SFail s)).
    { intros n' I. apply (E n' ltac:(cbn [In] in *; tauto) toks p q R). now apply clear_zero. }
    destruct (X N_pattern_range_exclusive) as (s1 & X1); [cbn; tauto|].
    destruct (X N_pattern_range_inclusive) as (s2 & X2); [cbn; tauto|].
    destruct (X N_pattern_struct) as (s3 & X3); [cbn; tauto|].
    parts. expose. finish.
Qed.

Lemma pattern_of_ok l ps v : good l PatternKind ps v -> good l Pattern ps (node "Pattern" [VNone; v]).
Proof.
  intros G. destruct (good_extra _ _ _ _ G) as (S & E). rule.
  - split; [exact S|]. intros n I. apply E. cbn [In] in *. tauto.
  - destruct (E N_pattern_name ltac:(cbn; tauto) toks p q R F) as (s & X). parts. finish.
Qed.

Lemma pattern_at_ok l r m ns n ps v : good l Name ns n -> starts_with KSelfIdent ns = false -> good l PatternKind ps v ->
    good l Pattern (flag r KRef ++ flag m KMut ++ ns ++ Sym KAt :: ps)
      (node "Pattern" [VSome (node "PatternName" [mark r; mark m; n]); v]).
Proof.
  intros G S GK. selfless G S. rule.
  - split; [destruct r, m; cbn [flag app]; try reflexivity; rewrite starts_app by exact NE; exact S|].
    intros n' I toks p q R F. destruct r, m; cbn [flag app] in *; rd; tk; use_all; names; qualifier l; reject I.
  - parts. finish.
Qed.
