(** The parser follows the rules for the parts of expressions. *)

From Coq Require Import String List NArith Arith Bool Lia.
From Verif Require Import Base Peresil Token Schema Value Nt Grammar Points Table Static Amb Sem First OutlineSpec Reads Syntax UseSpec UseOk RustSpec Rules NestedOk TypesOk BoundsOk ItemsOk MembersOk PatternsOk.
Import ListNotations.
Local Open Scope string_scope.
Local Open Scope list_scope.
Local Open Scope nat_scope.

(** * Prefix operators *)
Lemma op_deref_ok l : good l PrefixOp [Sym KAsterisk] (VVar "OperatorPrefix" "Dereference" hole).
Proof. rule. parts. finish. Qed.
Lemma op_not_ok l : good l PrefixOp [Sym KBang] (VVar "OperatorPrefix" "Not" hole).
Proof. rule. parts. finish. Qed.
Lemma op_negate_ok l : good l PrefixOp [Sym KMinus] (VVar "OperatorPrefix" "Negate" hole).
Proof. rule. parts. finish. Qed.
Lemma op_box_ok l : good l PrefixOp [Sym KBox] (VVar "OperatorPrefix" "Box" hole).
Proof. rule. parts. finish. Qed.
Lemma op_ref_ok l m : good l PrefixOp (Sym KAmpersand :: flag m KMut) (VVar "OperatorPrefix" "Reference" (mark m)).
Proof. rule. parts. finish. Qed.
Lemma op_up_to_ok l : good l PrefixOp [Sym KDoublePeriod] (VVar "OperatorPrefix" "RangeExclusive" hole).
Proof. rule. parts. finish. Qed.
Lemma op_through_ok l os o : good l RangeOp os o -> good l PrefixOp os (VVar "OperatorPrefix" "RangeInclusive" o).
Proof. rule. parts. finish. Qed.

(** * Statements and items

    What does not start like an item is not one. *)
Ltac no_item := intros _ toks p q R F; cbn [hmask tmask] in F; rd; tk; eexists; intros ?; cannot.

Lemma label_ok l ps v : good l Lifetime ps v -> good l Label (ps ++ [Sym KColon]) v.
Proof. rule. parts. finish. Qed.
Lemma guard_ok l ps v : good Anywhere (Expr false) ps v -> good l Guard (Sym KIf :: ps) v.
Proof. rule. parts. finish. Qed.
Lemma let_ty_ok l ps v : good l Ty ps v -> good l LetTy (Sym KColon :: ps) v.
Proof. rule. parts. finish. Qed.
Lemma closure_arg_ty_ok l ps v : good l Ty ps v -> good l ClosureArgTy (Sym KColon :: ps) v.
Proof. rule. parts. finish. Qed.
Lemma closure_arg_ok l ps x ts t : good l Pattern ps x -> goodo l ClosureArgTy ts t ->
    good l ClosureArg (ps ++ ts) (node "ClosureArg" [x; t]).
Proof. rule. parts. finish. Qed.
Lemma splat_ok l ps v : good Anywhere (Expr false) ps v -> good l Splat (Sym KDoublePeriod :: ps) v.
Proof. rule. parts. finish. Qed.

(** * Control flow *)
Lemma many_none toks a x e p s : sem toks a x e p (SFail s) -> sem toks a (GMany x) e p (SOk p (VList [])).
Proof. intros H. apply sem_many. eapply manys_nil. exact H. Qed.

Lemma if_plain_ok l cs c bs b : good BeforeBlock (Expr true) cs c -> good l Block bs b ->
    good l If (Sym KIf :: cs ++ bs) (node "If" [c; b; VList []; VNone]).
Proof.
  rule. parts. assert (forall e, sem toks (amb l) (GMany (GNT N_expr_if_else_if)) e q (SOk q (VList []))).
  { intros e. eapply many_none. cannot. }
  finish.
Qed.

Lemma if_else_ok l cs c bs b es e : good BeforeBlock (Expr true) cs c -> good l Block bs b -> good l Block es e ->
    good l If (Sym KIf :: cs ++ bs ++ Sym KElse :: es) (node "If" [c; b; VList []; VSome e]).
Proof.
  rule. parts. assert (forall e, sem toks (amb l) (GMany (GNT N_expr_if_else_if)) e x1 (SOk x1 (VList []))).
  { intros e'. eapply many_none. fails. }
  finish.
Qed.

Lemma if_else_if_ok l cs c bs b es e : good BeforeBlock (Expr true) cs c -> good l Block bs b -> good l If es e ->
    good l If (Sym KIf :: cs ++ bs ++ Sym KElse :: es) (node "If" [c; b; VList [e]; VNone]).
Proof.
  rule. parts. 
  assert (forall e, sem toks (amb l) (GMany (GNT N_expr_if_else_if)) e x1 (SOk q (VList [w]))).
  { intros e'. apply sem_many. eapply manys_cons; [run|]. eapply manys_nil. cannot. }
  assert (outlines [w] = [e]) by (apply outlines_one; [assumption|solid]).
  finish.
Qed.

Lemma atom_if_ok l ps v : good l If ps v -> good l (Atom Blocky AtEnd) ps (expression "If" v).
Proof. rule; [no_item|]. parts. finish. Qed.

Lemma atom_for_ok l ls lv ps x cs c bs b : goodo l Label ls lv -> good l Pattern ps x -> good BeforeBlock (Expr true) cs c -> good l Block bs b ->
    good l (Atom Blocky AtEnd) (ls ++ Sym KFor :: ps ++ Sym KIn :: cs ++ bs) (expr "ForLoop" [lv; x; c; b]).
Proof. rule; [no_item|]. parts. finish. Qed.

Lemma atom_loop_ok l ls lv bs b : goodo l Label ls lv -> good l Block bs b ->
    good l (Atom Blocky AtEnd) (ls ++ Sym KLoop :: bs) (expr "Loop" [lv; b]).
Proof. rule; [no_item|]. parts. finish. Qed.

Lemma atom_while_ok l ls lv cs c bs b : goodo l Label ls lv -> good BeforeBlock (Expr true) cs c -> good l Block bs b ->
    good l (Atom Blocky AtEnd) (ls ++ Sym KWhile :: cs ++ bs) (expr "While" [lv; c; b]).
Proof. rule; [no_item|]. parts. finish. Qed.

(** The qualifiers of a function that is none. *)
Lemma async_only toks l a p q : reads toks p (flag a KAsync) q -> clear toks (fmask Qualifiers) q ->
  exists w, forall e, sem toks (amb l) (GNT N_function_qualifiers) e p (SOk q w).
Proof.
  intros R C. pose proof (qualifiers_ok l false false false a) as Q. cbn [flag app] in Q. 
  destruct (good_sem toks l _ _ _ p q Q R C) as (w & HS & _). exists w. exact HS.
Qed.

Lemma atom_unsafe_ok l bs b : good l Block bs b -> good l (Atom Blocky AtEnd) (Sym KUnsafe :: bs) (expr "UnsafeBlock" [b]).
Proof.
  rule; [intros _|]; [intros toks p q R F|]; rd; tk.
  - destruct (unsafe_only toks l true p x) as (w & HS); [cbn [flag reads]; eauto|clr|].
    eexists. intros e. fails.
  - use_all. names. finish.
Qed.

Lemma atom_async_ok l m bs b : good l Block bs b ->
    good l (Atom Free AtEnd) (Sym KAsync :: flag m KMove ++ bs) (expr "AsyncBlock" [b; mark m]).
Proof.
  rule; [intros _|]; [intros toks p q R F|]; rd; tk.
  - destruct (async_only toks l true p x) as (w & HS); [cbn [flag reads]; eauto|clr|].
    eexists. intros e. fails.
  - use_all. names. finish.
Qed.

Lemma amb_maximum l : l <> RangeBeforeBlock -> is_maximum (amb l) = false.
Proof. destruct l; congruence || reflexivity. Qed.

Lemma atom_block_ok l bs b : good l Block bs b -> l <> RangeBeforeBlock -> good l (Atom Blocky AtEnd) bs (expression "Block" b).
Proof.
  intros G N. pose proof (amb_maximum l N) as M. rule; [no_item|]. parts. finish.
Qed.

Lemma atom_return_ok l : good l (Atom Free (AtRest false)) [Sym KReturn] (expr "Return" [VNone]).
Proof. rule; [no_item|]. parts. finish. Qed.

Lemma atom_return_value_ok l b ps v : good l (Expr b) ps v -> good l (Atom Free (AtRest b)) (Sym KReturn :: ps) (expr "Return" [VSome v]).
Proof. rule; [no_item|]. parts. finish. Qed.

Lemma atom_continue_ok l : good l (Atom Free (AtRest true)) [Sym KContinue] (expr "Continue" [VNone]).
Proof. rule; [no_item|]. parts. finish. Qed.

Lemma atom_continue_at_ok l ps v : good l Lifetime ps v -> good l (Atom Free AtEnd) (Sym KContinue :: ps) (expr "Continue" [VSome v]).
Proof. rule; [no_item|]. parts. finish. Qed.

Lemma atom_break_ok l ls lv : goodo l Lifetime ls lv -> good l (Atom Free (AtRest false)) (Sym KBreak :: ls) (expr "Break" [lv; VNone]).
Proof. rule; [no_item|]. parts. finish. Qed.

Lemma atom_break_value_ok l ls lv b ps v : goodo l Lifetime ls lv -> good l (Expr b) ps v -> (ls = [] -> starts_with KLifetime ps = false) ->
    good l (Atom Free (AtRest b)) (Sym KBreak :: ls ++ ps) (expr "Break" [lv; VSome v]).
Proof.
  intros [[-> ->]|(w & -> & G)] GE S; [specialize (S eq_refl); pose proof (begins_without _ _ _ (g_begins _ _ _ _ GE) S) as B|clear S];
    pose proof (good_nonempty _ _ _ _ GE eq_refl) as NE; (rule; [no_item|]); parts; finish.
Qed.

Lemma atom_let_ok l ps x ts t : good l Pattern ps x -> goodo l LetTy ts t ->
    good l (Atom Free (AtRest false)) (Sym KLet :: ps ++ ts) (expr "Let" [x; t; VNone]).
Proof. rule; [no_item|]. parts. finish. Qed.

Lemma atom_let_value_ok l b ps x ts t es e : good l Pattern ps x -> goodo l LetTy ts t -> good l (Assigned (OfLet b)) es e ->
    good l (Atom Free (AtRest b)) (Sym KLet :: ps ++ ts ++ es) (expr "Let" [x; t; VSome e]).
Proof. rule; [no_item|]. parts. finish. Qed.

(** * Values *)
Lemma atom_array_ok l ts c : goods Anywhere (Expr false) ts ->
    good l (Atom Free AtEnd) (Sym KLeftSquare :: commas (spelled ts) c ++ [Sym KRightSquare])
      (expression "Array" (VVar "Array" "Explicit" (node "ArrayExplicit" [VList (asts ts)]))).
Proof. rule; [no_item|]. parts. finish. Qed.

Lemma atom_char_ok l ps v : good l CharLit ps v -> good l (Atom Free AtEnd) ps (expression "Character" v).
Proof. rule; [no_item|]. parts. finish. Qed.
Lemma atom_str_ok l ps v : good l Str ps v -> good l (Atom Free AtEnd) ps (expression "String" v).
Proof. rule; [no_item|]. parts. finish. Qed.
Lemma atom_byte_ok l ps v : good l ByteLit ps v -> good l (Atom Free AtEnd) ps (expression "Byte" v).
Proof. rule; [no_item|]. parts. finish. Qed.
Lemma atom_byte_str_ok l ps v : good l ByteStr ps v -> good l (Atom Free AtEnd) ps (expression "ByteString" v).
Proof. rule; [no_item|]. parts. finish. Qed.
Lemma atom_number_ok l ps v : good l NumLit ps v -> good l (Atom Free AtEnd) ps (expression "Number" v).
Proof. rule; [no_item|]. parts. finish. Qed.

(** A list and its number of separators. *)
Lemma goods_tailed toks l ts tr p q : goods l (Expr false) ts ->
  reads toks p (separated KComma (spelled ts) tr) q -> clear toks (list_mask true (Expr false) KComma) q ->
  exists vs n b, (forall e err, sem toks (amb l) (GTailed BNil (GTok (MK KComma) err) (GNT N_expression)) e p (SOk q (vtailed vs n b))) /\
    outlines vs = asts ts /\ List.length vs = List.length (asts ts) /\ (asts ts <> [] -> n = List.length (asts ts) - (if tr then 0 else 1)).
Proof.
  intros G R C.
  destruct (tails_separated toks t_ast t_spell (fun x : cat * text => follow toks (fst x)) (list_mask true (Expr false) KComma) KComma (amb l) (GNT N_expression))
    with (ts := tag (Expr false) ts) (c := tr) (p := p) (q := q) (vs := @nil val) (n := 0) (b := false) as (ws & n' & b' & T & O & W & L).
  - reflexivity.
  - apply list_mask_sep.
  - intros _. now apply (list_mask_first true (Expr false)).
  - apply all_good_elems. now apply (tag_good l (Expr false)).
  - apply (tag_spaced toks (Expr false)); [plain|compute_mask|apply list_mask_fol].
  - rewrite tag_spell. exact R.
  - exact C.
  - exists ws, n', b'. split; [|split; [|split]].
    + intros e err. eapply sem_tailed; [build|apply T].
    + rewrite O. apply tag_ast.
    + unfold tag, asts in *. rewrite map_length in *. exact W.
    + intros N. destruct L as [L _]; [destruct ts; [now destruct N|discriminate]|]. unfold tag, asts in *. rewrite map_length in *. exact L.
Qed.

Lemma paren_value x v w n : n = 0 -> outline w = v -> outline (paren_or_tuple x [w] n) = expr "Parenthetical" [v].
Proof. intros -> <-. reflexivity. Qed.
Lemma tuple_value x ws vs n (c : bool) : outlines ws = vs -> List.length ws = List.length vs -> (vs <> [] -> n = List.length vs - (if c then 0 else 1)) ->
  (List.length vs = 1 -> c = true) -> outline (paren_or_tuple x ws n) = expr "Tuple" [VList vs].
Proof.
  intros O E N C. assert (X : paren_or_tuple x ws n = VVar "Expression" "Tuple" (VNode "Tuple" [VExt x; VList ws; VList []])).
  { destruct ws as [|w [|w' ws]]; try reflexivity. destruct vs as [|v [|v' vs]]; try discriminate.
    rewrite (C eq_refl) in N. rewrite N by discriminate. reflexivity. }
  rewrite X. unfold expr, expression, node. outl.
Qed.

Ltac tailed :=
  match goal with
  | G : goods ?l (Expr false) ?ts, R : reads ?t ?p (separated KComma (spelled ?ts) ?tr) ?q |- _ =>
      let vs := fresh "vs" in let n := fresh "n" in let b := fresh "b" in let HT := fresh "HT" in let TO := fresh "TO" in let TL := fresh "TL" in let TN := fresh "TN" in
      destruct (goods_tailed t l ts tr p q G R) as (vs & n & b & HT & TO & TL & TN); [clr|]
  end.

Lemma atom_tuple_ok l ts c : goods Anywhere (Expr false) ts -> (List.length ts = 1 -> c = true) ->
    good l (Atom Free AtEnd) (Sym KLeftParen :: commas (spelled ts) c ++ [Sym KRightParen]) (expr "Tuple" [VList (asts ts)]).
Proof.
  rule; [no_item|]. rd. tailed. tk. names. 
  assert (X : forall e, sem toks Unambiguous (GTailed BNil t_comma (GNT N_expression)) e x (SOk x0 (vtailed vs n b))) by (intros e; apply HT).
  eexists. split.
  - intros e. run.
  - eapply tuple_value; eauto. unfold asts. rewrite map_length. assumption.
Qed.

Lemma atom_paren_ok l ps v : good Anywhere (Expr false) ps v ->
    good l (Atom Free AtEnd) (Sym KLeftParen :: ps ++ [Sym KRightParen]) (expr "Parenthetical" [v]).
Proof.
  intros G. assert (GS : goods Anywhere (Expr false) [(ps, v)]) by (constructor; [exact G|constructor]).
  rule; [no_item|]. rd. 
  assert (R : reads toks x (separated KComma (spelled [(ps, v)]) false) x0) by (cbn [spelled map fst separated]; rewrite app_nil_r; assumption).
  tailed. tk. names. 
  assert (X : forall e, sem toks Unambiguous (GTailed BNil t_comma (GNT N_expression)) e x (SOk x0 (vtailed vs n b))) by (intros e; apply HT).
  cbn [asts map snd List.length] in *. destruct vs as [|w [|w' vs]]; try discriminate.
  eexists. split.
  - intros e. run.
  - apply paren_value; [rewrite TN; [reflexivity|discriminate]|]. unfold outlines in TO. cbn [flat_map] in TO. destruct (is_whitespace w); [discriminate|].
    now injection TO.
Qed.

Lemma atom_repeat_ok l ps v qs w : good Anywhere (Expr false) ps v -> good l (Expr false) qs w ->
    good l (Atom Free AtEnd) (Sym KLeftSquare :: ps ++ Sym KSemicolon :: qs ++ [Sym KRightSquare])
      (expression "Array" (VVar "Array" "Repeated" (node "ArrayRepeated" [v; w]))).
Proof.
  intros G G'. assert (GS : goods Anywhere (Expr false) [(ps, v)]) by (constructor; [exact G|constructor]).
  rule; [no_item|]. rd. 
  assert (R : reads toks x (separated KComma (spelled [(ps, v)]) false) x0) by (cbn [spelled map fst separated]; rewrite app_nil_r; assumption).
  parts. finish.
Qed.

(** ** Paths *)
Lemma path_front_cases h ps : path_front h ps <> Barred -> path_front h ps = h /\
  ((starts_with KCrate ps = false /\ starts_with KDefault ps = false /\ starts_with KUnion ps = false) \/
   exists pc pc' rest, ps = pc :: pc' :: rest).
Proof.
  destruct ps as [|pc [|pc' rest]]; cbn [path_front].
  - intros _. split; [reflexivity|left]. repeat split.
  - cbn [existsb]. destruct (starts_with KCrate [pc]), (starts_with KDefault [pc]), (starts_with KUnion [pc]); cbn [orb]; intros N;
      try (exfalso; apply N; reflexivity). auto.
  - intros _. split; [reflexivity|right]. eauto.
Qed.

Lemma member_words k : In k [KCrate; KDefault; KUnion] -> member_kind k = true.
Proof. intros [<-|[<-|[<-|[]]]]; reflexivity. Qed.

Lemma word_no_item toks l k p m ps q : In k [KCrate; KDefault; KUnion] -> takes toks p (Sym k) m ->
  begins (bit KDoubleColon) ps -> ps <> [] -> reads toks m ps q ->
  (exists s, forall e, sem toks (amb l) (GNT N_item_macro_call) e p (SFail s)) ->
  exists s, forall e, sem toks (amb l) (GNT N_item) e p (SFail s).
Proof.
  intros IK T B NE R [s NM].
  assert (W : forall n, In n item_starts -> exists s, forall e, sem toks (amb l) (GNT n) e p (SFail s)) by (intros n; eapply word_fails; eassumption).
  unfold item_starts in W. repeat (match type of W with forall n, In n (?x :: ?r) -> _ =>
    let s := fresh "s" in let H := fresh "H" in destruct (W x (or_introl eq_refl)) as [s H];
    assert (W' : forall n, In n r -> exists s, forall e, sem toks (amb l) (GNT n) e p (SFail s)) by (intros n I; exact (W n (or_intror I))); clear W; rename W' into W end).
  eexists. intros e. enter. apply sem_alt.
  repeat (match goal with |- alts _ _ _ _ (_ :: _ :: _) _ => idtac end; eapply alts_skip; [apply sem_seq; eapply sems_fail; match goal with H : forall e, sem _ _ (GNT ?n) e _ _ |- sem _ _ (GNT ?n) _ _ _ => exact (H _) end|]).
  apply alts_last, sem_seq. eapply sems_fail. match goal with H : forall e, sem _ _ (GNT ?n) e _ _ |- sem _ _ (GNT ?n) _ _ _ => exact (H _) end.
Qed.

(** What starts with a path is an item only if it is a macro call. *)
Lemma path_no_item l h ps v toks p q : good l PathedIdent ps v -> path_front h ps <> Barred -> reads toks p ps q ->
  (exists s, forall e, sem toks (amb l) (GNT N_item_macro_call) e p (SFail s)) ->
  exists s, forall e, sem toks (amb l) (GNT N_item) e p (SFail s).
Proof.
  intros G NB R [s NM]. destruct (path_front_cases _ _ NB) as [_ [(X & Y & Z)|(pc & pc' & rest & ->)]].
  - pose proof (begins_without _ _ _ (begins_without _ _ _ (begins_without _ _ _ (g_begins _ _ _ _ G) X) Y) Z) as B.
    pose proof (good_nonempty _ _ _ _ G eq_refl) as NE. clear G. eexists. intros e. fails.
  - destruct (existsb (fun k => starts_with k (pc :: pc' :: rest)) [KCrate; KDefault; KUnion]) eqn:EX.
    + apply existsb_exists in EX as (k & IK & S). destruct (starting _ _ _ S (g_begins _ _ _ _ G)) as (pc0 & r & E & T). injection E as <- <-.
      pose proof (g_extra _ _ _ _ G) as A. cbn [extra apart_in] in A. cbn [reads] in R. destruct R as (m & T1 & R1).
      assert (B : begins (bit KDoubleColon) (pc' :: rest)).
      { assert (B1 : begins (bit KDoubleColon) [pc']).
        { destruct pc as [k'|k' x|n|t]; try exact (False_ind _ (g_begins _ _ _ _ G)); try discriminate S;
            apply tkind_eqb_eq in S as <-; apply A, member_words, IK. }
        destruct pc'; exact B1. }
      eapply word_no_item; [exact IK|apply T; exact T1|exact B|discriminate|exact R1|eauto].
    + cbn [existsb] in EX. apply orb_false_iff in EX as [X EX]. apply orb_false_iff in EX as [Y EX]. apply orb_false_iff in EX as [Z _].
      pose proof (begins_without _ _ _ (begins_without _ _ _ (begins_without _ _ _ (g_begins _ _ _ _ G) X) Y) Z) as B.
      pose proof (good_nonempty _ _ _ _ G eq_refl) as NE. clear G. eexists. intros e. fails.
Qed.

Lemma atom_value_ok l ps v : good l PathedIdent ps v ->
    good l (Atom (path_front Free ps) (AtPath (restricted l))) ps (expr "Value" [v; VNone]).
Proof.
  intros G. rule.
  - intros NB toks p q R F. rewrite (proj1 (path_front_cases _ _ NB)) in F. apply (path_no_item _ _ _ _ _ _ _ G NB R).
    destruct l; cbn [restricted] in F; parts; eexists; intros e; fails.
  - destruct l; cbn [restricted] in F; parts; finish.
Qed.

Lemma atom_macro_ok l ps v ns n d o c ts : good l PathedIdent ps v -> goodo l Name ns n -> In (d, (o, c)) delimiters -> balanced o c ts ->
    good l (Atom (if String.eqb d "Curly" then Barred else path_front Called ps) AtEnd)
      (ps ++ Sym KBang :: ns ++ Sym o :: map Raw ts ++ [Sym c])
      (expr "MacroCall" [v; n; VVar "MacroCallArgs" d hole]).
Proof.
  intros G G' I B. pose proof (good_nonempty _ _ _ _ G eq_refl) as NE.
  destruct I as [I|[I|[I|[]]]]; injection I as <- <- <-; cbn [String.eqb Ascii.eqb Bool.eqb].
  all: rule; [intros NB toks p q R F|]; [first [congruence|rewrite (proj1 (path_front_cases _ _ NB)) in F; rd; eapply path_no_item; [exact G|exact NB|eassumption|]; between l; parts; eexists; intros e; fails]|].
  all: rd; between l; parts; finish.
Qed.

(** ** Struct literals *)
Lemma field_init_ok l ns n ps v : good l Name ns n -> good Anywhere (Expr false) ps v ->
    good l FieldInit (ns ++ Sym KColon :: ps) (node "StructLiteralField" [n; v]).
Proof. rule. parts. finish. Qed.

Lemma field_init_short_ok l ns x : good l Name ns (VNode "Ident" [VExt x]) ->
    good l FieldInit ns (node "StructLiteralField" [VNode "Ident" [VExt x];
      bare (expr "Value" [node "PathedIdent" [VList [node "PathComponent" [VNode "Ident" [VExt x]; VNone]]]; VNone])]).
Proof. rule. parts. expose. finish. Qed.

Lemma atom_struct_ok l ps v fs c ss s : l = Anywhere -> good l PathedIdent ps v -> goods l FieldInit fs -> goodo l Splat ss s ->
    (fs <> [] -> ss <> [] -> c = true) ->
    good l (Atom (path_front Free ps) AtEnd) (ps ++ Sym KLeftCurly :: commas (spelled fs) c ++ ss ++ [Sym KRightCurly])
      (expr "Value" [v; VSome (node "StructLiteral" [VList (asts fs); s])]).
Proof.
  intros -> G GS S C. rule.
  - intros NB toks p q R F. rewrite (proj1 (path_front_cases _ _ NB)) in F. rd. eapply path_no_item; [exact G|exact NB|eassumption|].
    parts. eexists. intros e. fails.
  - destruct S as [[-> ->]|(w & -> & S)].
    + parts. finish.
    + assert (TR : fs <> [] -> c = true) by (intros N; apply C; [exact N|exact (good_nonempty _ _ _ _ S eq_refl)]).
      rd. match goal with R : reads toks ?p (separated KComma (spelled fs) c) ?q |- _ =>
        destruct (goods_list_trailed toks Anywhere FieldInit KComma eq_refl (fun _ H => H) eq_refl fs c p q GS TR R) as (vs & HS & O); [clr|] end.
      clear GS. tk. use_all. names. finish.
Qed.

(** ** Qualified paths *)
Lemma atom_disambiguation_ok l ps v ts tv cs : good l Ty ps v -> goodo l AsNamed ts tv -> goods l PathComponent cs ->
    good l (Atom Free AtField)
      (Sym KLeftAngle :: ps ++ ts ++ [Sym KRightAngle] ++
       (match cs with [] => [] | _ => Sym KDoubleColon :: separated KDoubleColon (spelled cs) false end))
      (expr "Disambiguation" [v; tv; VList (asts cs)]).
Proof.
  intros G GT GC. destruct cs as [|c cs]; (rule; [no_item|]); rd.
  - parts. finish.
  - match goal with T : takes toks ?p (Sym KDoubleColon) ?r, R : reads toks ?r (separated KDoubleColon _ _) ?q |- _ =>
      destruct (path_resumed toks l (c :: cs) p r q GC ltac:(discriminate) T R) as (vs & HS & O); [clr|] end.
    clear GC. tk. use_all. names. finish.
Qed.

(** ** Closures *)
Lemma atom_closure_ok l a m args c b ps v : goods l ClosureArg args -> good l (Expr b) ps v ->
    good l (Atom Free (AtRest b)) (flag a KAsync ++ flag m KMove ++ Sym KPipe :: commas (spelled args) c ++ Sym KPipe :: ps)
      (expr "Closure" [mark a; mark m; VList (asts args); VNone; v]).
Proof.
  rule.
  - intros _ toks p q R F. rd. destruct (async_only toks l a p x) as (w & HS); [assumption|clr|].
    destruct a; cbn [flag app reads] in *; rd; eexists; intros e; fails.
  - assert (exists s, forall e, sem toks (amb l) (GNT N_expr_async_block) e p (SFail s)) as (s & NA).
    { rd. destruct a; cbn [flag app reads] in *; parts; eexists; intros e; fails. }
    parts. finish.
Qed.

Lemma outline_hole w : outline w = hole -> exists x, w = VExt x.
Proof. destruct w; try discriminate; eauto. cbn [outline]. destruct (leaf _); discriminate. Qed.
Ltac extents := repeat match goal with O : outline ?w = hole |- _ => is_var w; destruct (outline_hole _ O) as (? & ->); clear O end.

Lemma atom_closure_typed_ok l a m args c ts t bs b : goods l ClosureArg args -> good l Ty ts t -> good l Block bs (node "Block" b) ->
    l <> RangeBeforeBlock ->
    good l (Atom Free AtEnd)
      (flag a KAsync ++ flag m KMove ++ Sym KPipe :: commas (spelled args) c ++ [Sym KPipe; Sym KThinArrow] ++ ts ++ bs)
      (expr "Closure" [mark a; mark m; VList (asts args); VSome t; bare (expression "Block" (node "Block" b))]).
Proof.
  intros GA G GB N. pose proof (amb_maximum l N) as M. rule.
  - intros _ toks p q R F. rd. destruct (async_only toks l a p x) as (w & HS); [assumption|clr|].
    destruct a; cbn [flag app reads] in *; rd; eexists; intros e; fails.
  - assert (exists s, forall e, sem toks (amb l) (GNT N_expr_async_block) e p (SFail s)) as (s & NA).
    { rd. destruct a; cbn [flag app reads] in *; parts; eexists; intros e; fails. }
    parts. expose. extents.
    assert (exists w w', (forall e, sem toks (amb l) (GNT N_expr_closure_return) e x3 (SOk q (VPair w w'))) /\
      outline w = VSome t /\ outline w' = bare (expression "Block" (node "Block" b))) as (r & r' & HR & OR & OR').
    { do 2 eexists. split; [intros e; run|split; [cbn [outline]; congruence|]]. cbn [outline outlines leaf map]. cbn. rewrite O. reflexivity. }
    clear O. finish.
Qed.

(** * Match arms *)
Lemma goods_concat_begins l c ts m : goods l c ts -> nullg (gram c) = false -> subset (firstg (gram c)) m = true ->
    begins m (concat (spelled ts)).
Proof.
  intros G N S. destruct ts as [|t ts]; [exact I|]. inversion_clear G. cbn [spelled map concat].
  apply begins_app; [apply (begins_sub _ _ _ (g_begins _ _ _ _ H) S)|]. intros E. now apply (good_nonempty _ _ _ _ H) in E.
Qed.

Ltac arm :=
  intros; constructor;
  [ apply begins_app; [eapply goods_concat_begins; [eassumption|reflexivity|compute_mask]|intros _; begin]
  | nonempty | reflexivity | exact I | intros toks p q R F; cbn [follow] in F ].

Lemma arm_brace_ok l attrs pats gs gv bs b : goods l Attribute attrs -> pats <> [] -> goods l Pattern pats -> goodo l Guard gs gv ->
    good Anywhere Block bs (node "Block" b) ->
    good l (Arm true) (concat (spelled attrs) ++ separated KPipe (spelled pats) false ++ gs ++ Sym KThickArrow :: bs)
      (node "MatchArm" [VList (asts attrs); VList (asts pats); gv;
        VVar "MatchHand" "Brace" (bare (expression "Block" (node "Block" b)))]).
Proof.
  assert (M : is_maximum Unambiguous = false) by reflexivity. arm. parts. expose. extents.
  assert (exists w, (forall e, sem toks (amb l) (GNT N_match_arm_hand) e x2 (SOk q w)) /\
    outline w = VVar "MatchHand" "Brace" (bare (expression "Block" (node "Block" b)))) as (r & HR & OR).
  { eexists. split; [intros e; run|]. cbn. rewrite O. reflexivity. }
  clear O. finish.
Qed.

Lemma arm_expr_ok l attrs pats gs gv es e : goods l Attribute attrs -> pats <> [] -> goods l Pattern pats -> goodo l Guard gs gv ->
    good Anywhere (Expr false) es e -> starts_with KLeftCurly es = false ->
    good l (Arm false) (concat (spelled attrs) ++ separated KPipe (spelled pats) false ++ gs ++ Sym KThickArrow :: es)
      (node "MatchArm" [VList (asts attrs); VList (asts pats); gv; VVar "MatchHand" "Expression" e]).
Proof.
  intros GA NE GP GG GE S. pose proof (begins_without _ _ _ (g_begins _ _ _ _ GE) S) as B. pose proof (good_nonempty _ _ _ _ GE eq_refl) as NE'.
  arm. parts. finish.
Qed.
