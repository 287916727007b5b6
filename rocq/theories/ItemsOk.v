(** The parser follows the rules for items. *)

From Coq Require Import String List NArith Arith Bool Lia.
From Verif Require Import Base Peresil Token Schema Value Nt Grammar Points Table Static Amb Sem First OutlineSpec Reads Syntax UseSpec UseOk RustSpec Rules NestedOk TypesOk BoundsOk.
Import ListNotations.
Local Open Scope string_scope.
Local Open Scope list_scope.
Local Open Scope nat_scope.

(** * Parts of items *)
Lemma brace_fields_ok l fs c : goods l (With "StructDefinitionFieldNamed" FieldNamed) fs ->
    good l BraceFields (Sym KLeftCurly :: commas (spelled fs) c ++ [Sym KRightCurly])
      (node "StructDefinitionBodyBrace" [VList (asts fs)]).
Proof. rule. parts. finish. Qed.

Lemma tuple_fields_ok l fs c : goods l (With "StructDefinitionFieldUnnamed" FieldUnnamed) fs ->
    good l TupleFields (Sym KLeftParen :: commas (spelled fs) c ++ [Sym KRightParen]) (VList (asts fs)).
Proof. rule. parts. finish. Qed.

Lemma use_tree_ok l t : use_ok t -> good l UseTree (spell_use t) (ast_use t).
Proof.
  intros U. constructor; [| |apply ast_use_solid|exact I|].
  - inversion U as [path tail FP TO]; subst. cbn [spell_use]. destruct FP as [|w path W FP].
    + cbn [flat_map app]. inversion TO; subst; cbn [spell_tail]; [destruct r| |]; try compute_mask;
        (refine (begins_word ident_kind _ n _ _); [compute_mask|assumption]).
    + cbn [flat_map app]. refine (begins_word member_kind _ w _ _); [compute_mask|assumption].
  - destruct t as [[|w path] tail]; [|discriminate]. destruct tail as [n [r|]| |]; discriminate.
  - intros toks p q R F. eapply use_parsed; [apply le_n|exact U|exact R|exact F].
Qed.

Lemma rename_ok l ns n : good l Name ns n -> good l Rename (Sym KAs :: ns) n.
Proof. rule. parts. finish. Qed.

Lemma assigned_ok l r ps v : good l (Expr (braced r)) ps v -> good l (Assigned r) (Sym KEquals :: ps) v.
Proof. destruct r; rule; parts; finish. Qed.

Ltac inner := let t := fresh "toks" in let p := fresh "p" in let q := fresh "q" in
  intros t p q ? _; rd; tk; eexists; intros ?; fails.

Lemma inner_line_ok l x : good l InnerAttribute [Word KDocCommentInnerLine x] (VVar "AttributeContaining" "DocCommentLine" hole).
Proof. rule; [inner|]. parts. finish. Qed.

Lemma inner_block_ok l x : good l InnerAttribute [Word KDocCommentInnerBlock x] (VVar "AttributeContaining" "DocCommentBlock" hole).
Proof. rule; [inner|]. parts. finish. Qed.

Lemma inner_literal_ok l ts : balanced KLeftSquare KRightSquare ts ->
    good l InnerAttribute ([Sym KHash; Sym KBang; Sym KLeftSquare] ++ map Raw ts ++ [Sym KRightSquare])
      (VVar "AttributeContaining" "Literal" (node "AttributeContainingLiteral" [hole])).
Proof. rule; [inner|]. rd. between l. parts. finish. Qed.

Lemma macro_item_ok l ps v ns n d o c ts : good l PathedIdent ps v -> goodo l Name ns n -> In (d, (o, c)) delimiters -> balanced o c ts ->
    good l MacroItem
      (ps ++ Sym KBang :: ns ++ Sym o :: map Raw ts ++ Sym c :: (if String.eqb d "Curly" then [] else [Sym KSemicolon]))
      (node "MacroCall" [v; n; VVar "MacroCallArgs" d hole]).
Proof.
  intros G G' I B. destruct I as [I|[I|[I|[]]]]; injection I as <- <- <-; cbn [String.eqb Ascii.eqb Bool.eqb].
  all: rule; rd; between l; parts; finish.
Qed.

(** What a path starts with. *)
Ltac path_head l ks :=
  match goal with
  | G : good l PathedIdent ?ps ?v, R : reads ?t ?p ?ps ?q |- _ =>
      let s := fresh "s" in let r := fresh "r" in let w := fresh "w" in let X := fresh "X" in let Y := fresh "Y" in
      destruct (not_named t (amb l) _ (bits ks) ps p q (g_begins _ _ _ _ G) (good_nonempty _ _ _ _ G eq_refl) _
        (good_extra _ _ _ _ G)) as [(s & X)|(r & w & X & Y)]; [compute_mask|exact R|clr| |]
  end.
Ltac path_component l :=
  match goal with
  | HS : forall e, sem ?t (amb l) (GNT N_pathed_ident) e ?p (SOk ?q ?w) |- _ =>
      let X := fresh "X" in let v := fresh "v" in
      assert (X : exists v, forall e, sem t (amb l) (GNT N_pattern_range_component) e p (SOk q v)) by (eexists; intros ?; run);
      destruct X as (v & X)
  end.
Ltac reject I := repeat destruct I as [<-|I]; [..|destruct I]; eexists; intros ?; fails.

Lemma macro_call_ok l ps v ns n d o c ts : good l PathedIdent ps v -> goodo l Name ns n -> In (d, (o, c)) delimiters -> balanced o c ts ->
    good l MacroCall (ps ++ Sym KBang :: ns ++ Sym o :: map Raw ts ++ [Sym c])
      (node "MacroCall" [v; n; VVar "MacroCallArgs" d hole]).
Proof.
  intros G G' I B. pose proof (good_nonempty _ _ _ _ G eq_refl) as NE.
  destruct I as [I|[I|[I|[]]]]; injection I as <- <- <-.
  all: rule; [intros n' I toks p q R _; rd; tk; use_all; names; path_head l [KAt]; path_component l; reject I|].
  all: rd; between l; parts; finish.
Qed.

(** * Items *)

(** Nothing of a function before this. *)
Lemma no_qualifiers toks l p : clear toks (fmask Qualifiers) p ->
  exists w, forall e, sem toks (amb l) (GNT N_function_qualifiers) e p (SOk p w).
Proof.
  intros C. destruct (good_sem toks l Qualifiers [] _ p p (qualifiers_ok l false false false false) eq_refl C) as (w & HS & _).
  exists w. exact HS.
Qed.

(** A word is a path. *)
Lemma word_path toks l w p q : member_kind (fst w) = true -> takes toks p (spell_word w) q -> clear toks (bit KDoubleColon) q ->
  exists v, forall e, sem toks (amb l) (GNT N_pathed_ident) e p (SOk q v).
Proof.
  intros K T C. assert (G : good l PathedIdent [spell_word w] (node "PathedIdent" [VList [node "PathComponent" [ident w; VNone]]])).
  { apply (pathed_ok l false [([spell_word w], node "PathComponent" [ident w; VNone])]); [discriminate|].
    constructor; [|constructor]. apply path_component_plain_ok, member_ok, K. }
  destruct (good_sem toks l _ _ _ p q G) as (v & HS & _); [cbn [reads]; eauto|exact C|]. exists v. exact HS.
Qed.

(** What has a visibility and a keyword is not a macro call. *)
Lemma vis_not_macro toks l vs vv p q : goodo l (Vis false) vs vv -> reads toks p vs q ->
  clear toks (N.lor (bits [KDoubleColon; KBang; KCrate]) (firstg (GNT N_ident))) q ->
  exists s, forall e, sem toks (amb l) (GNT N_item_macro_call) e p (SFail s).
Proof.
  intros [[-> ->]|(w & -> & G)] R C.
  - cbn in R. subst q. eexists. intros e. fails.
  - destruct (good_extra _ _ _ _ G) as [-> |B].
    + rd. tk. destruct (word_path toks l (KCrate, x) p q) as (v & HS); [reflexivity|exact K|clr|].
      eexists. intros e. fails.
    + pose proof (good_nonempty _ _ _ _ G eq_refl) as NE. eexists. intros e. fails.
Qed.

(** Not a function, not a macro call. *)
Ltac no_function l :=
  match goal with
  | G : goodo l (Vis false) ?vs ?vv, R : reads ?t ?p ?vs ?q |- _ =>
      let w := fresh "w" in let HS := fresh "HS" in let s := fresh "s" in let HF := fresh "HF" in
      destruct (no_qualifiers t l q) as (w & HS); [clr|];
      destruct (vis_not_macro t l vs vv p q G R) as (s & HF); [clr|]
  end.
Ltac item l := rule; rd; no_function l; tk; use_all; names; finish.

(** A word that starts items, and [::] behind it. *)
Definition item_starts : list nt :=
  [N_attribute_containing; N_p_const; N_extern_crate; N_extern_block; N_function; N_module; N_p_enum; N_p_impl; N_p_static;
   N_p_struct; N_p_trait; N_p_union; N_p_use; N_type_alias; N_impl_const; N_impl_function; N_impl_type; N_trait_member_function; N_trait_member_type; N_trait_member_const].
Lemma word_fails toks l k p m ps q n : In k [KCrate; KDefault; KUnion] -> takes toks p (Sym k) m ->
  begins (bit KDoubleColon) ps -> ps <> [] -> reads toks m ps q -> In n item_starts ->
  exists s, forall e, sem toks (amb l) (GNT n) e p (SFail s).
Proof.
  intros IK T B NE R I. destruct IK as [<-|[<-|[<-|[]]]]; tk.
  - assert (HV : exists v, forall e, sem toks (amb l) (GNT N_visibility) e p (SOk m v)) by (eexists; intros e; run).
    destruct HV as [v HV].
    assert (HQ : exists w, forall e, sem toks (amb l) (GNT N_function_qualifiers) e m (SOk m w)) by (eexists; intros e; run).
    destruct HQ as [w HQ]. cbn [item_starts In] in I. repeat destruct I as [<-|I]; try contradiction; (eexists; intros e; fails).
  - assert (HQ : exists w, forall e, sem toks (amb l) (GNT N_function_qualifiers) e p (SOk m w)) by (eexists; intros e; run).
    destruct HQ as [w HQ]. cbn [item_starts In] in I. repeat destruct I as [<-|I]; try contradiction; (eexists; intros e; fails).
  - cbn [item_starts In] in I. repeat destruct I as [<-|I]; try contradiction; (eexists; intros e; fails).
Qed.

Lemma starting k m ps : starts_with k ps = true -> begins m ps ->
  exists pc r, ps = pc :: r /\ forall toks p q, takes toks p pc q -> takes toks p (Sym k) q.
Proof.
  unfold starts_with. destruct ps as [|[k'|k' x|n|t] r]; cbn [head_kind]; try discriminate; [| |intros _ []]; intros E _; 
    apply tkind_eqb_eq in E as ->; eexists _, _; (split; [reflexivity|]); intros toks p q T; [exact T|eexists; exact T].
Qed.

Lemma macro_head_fails l ps v toks p q n : good l MacroItem ps v -> macro_start ps = true -> reads toks p ps q ->
  In n [N_p_const; N_extern_crate; N_extern_block; N_function; N_impl_const; N_impl_function; N_impl_type;
    N_trait_member_function; N_trait_member_type; N_trait_member_const] ->
  exists s, forall e, sem toks (amb l) (GNT n) e p (SFail s).
Proof.
  intros G S R I. destruct (existsb (fun k => starts_with k ps) [KCrate; KDefault]) eqn:EX.
  - apply existsb_exists in EX as (k & IK & SK). destruct (starting _ _ _ SK (g_begins _ _ _ _ G)) as (pc & r & -> & T).
    cbn [reads] in R. destruct R as (m & T1 & R1).
    assert (exists r', r = Sym KDoubleColon :: r') as [r' ->].
    { assert (X : negb (existsb (fun k => starts_with k (pc :: r)) [KCrate; KDefault]) = false).
      { apply negb_false_iff, existsb_exists. eauto. }
      unfold macro_start in S. rewrite X in S. destruct r as [|[[]| | |] r]; try discriminate S. eauto. }
    eapply (word_fails toks l k p m (Sym KDoubleColon :: r') q); [|apply T; exact T1| |discriminate|exact R1|].
    + cbn [In] in *. tauto.
    + reflexivity.
    + cbn [item_starts In] in *. tauto.
  - cbn [existsb] in EX. apply orb_false_iff in EX as [X EX]. apply orb_false_iff in EX as [Y _].
    pose proof (begins_without _ _ _ (begins_without _ _ _ (g_begins _ _ _ _ G) X) Y) as B.
    pose proof (good_nonempty _ _ _ _ G eq_refl) as NE. clear G.
    cbn [In] in I. repeat destruct I as [<-|I]; try contradiction; (eexists; intros e; fails).
Qed.

Ltac macro_heads l ps G S ns :=
  match goal with
  | R : reads ?t ?p ps ?q |- _ =>
      let rec go ns := lazymatch ns with
        | ?n :: ?r => let s := fresh "s" in let HF := fresh "HF" in
            destruct (macro_head_fails l ps _ t p q n G S R ltac:(cbn [In]; tauto)) as [s HF]; go r
        | [] => idtac end in go ns
  end.

Lemma macro_item_item_ok l ps v : good l MacroItem ps v -> macro_start ps = true -> good l Item ps (item "MacroCall" v).
Proof. intros G S. rule. macro_heads l ps G S [N_p_const; N_extern_crate; N_extern_block; N_function]. parts. finish. Qed.

Lemma use_item_ok l vs vv g ps v : goodo l (Vis false) vs vv -> good l UseTree ps v ->
    good l Item (vs ++ Sym KUse :: flag g KDoubleColon ++ ps ++ [Sym KSemicolon]) (item "Use" (node "Use" [vv; v])).
Proof. item l. Qed.

Lemma extern_crate_item_ok l vs vv ns n rs r : goodo l (Vis false) vs vv -> good l Name ns n -> goodo l Rename rs r ->
    good l Item (vs ++ [Sym KExtern; Sym KCrate] ++ ns ++ rs ++ [Sym KSemicolon]) (item "ExternCrate" (node "Crate" [vv; n; r])).
Proof. rule. parts. finish. Qed.

Lemma const_item_ok l vs vv ns n ps v es e : goodo l (Vis false) vs vv -> good l Name ns n -> good l Ty ps v -> good l (Expr false) es e ->
    good l Item (vs ++ Sym KConst :: ns ++ Sym KColon :: ps ++ Sym KEquals :: es ++ [Sym KSemicolon]) (item "Const" (node "Const" [vv; n; v; e])).
Proof. rule. parts. finish. Qed.

Lemma static_item_ok l vs vv m ns n ps v es e : goodo l (Vis false) vs vv -> good l Name ns n -> good l Ty ps v -> good l (Expr false) es e ->
    good l Item (vs ++ Sym KStatic :: flag m KMut ++ ns ++ Sym KColon :: ps ++ Sym KEquals :: es ++ [Sym KSemicolon])
      (item "Static" (node "Static" [vv; mark m; n; v; e])).
Proof. item l. Qed.

Lemma module_item_ok l vs vv ns n its : goodo l (Vis false) vs vv -> good l Name ns n -> goods l (With "Item" Item) its ->
    good l Item (vs ++ Sym KMod :: ns ++ Sym KLeftCurly :: concat (spelled its) ++ [Sym KRightCurly])
      (item "Module" (node "Module" [vv; n; VSome (VList (asts its))])).
Proof. item l. Qed.

Lemma module_file_item_ok l vs vv ns n : goodo l (Vis false) vs vv -> good l Name ns n ->
    good l Item (vs ++ Sym KMod :: ns ++ [Sym KSemicolon]) (item "Module" (node "Module" [vv; n; VNone])).
Proof. item l. Qed.

Lemma type_alias_item_ok l vs vv ns n gs gv ws wv ps v : goodo l Wheres ws wv -> goodo l (Vis false) vs vv -> good l Name ns n -> goodo l Generics gs gv ->
    good l Ty ps v ->
    good l Item (vs ++ Sym KType :: ns ++ gs ++ ws ++ Sym KEquals :: ps ++ [Sym KSemicolon])
      (item "TypeAlias" (node "TypeAlias" [vv; n; gv; or_nil wv; v])).
Proof. intros [[-> ->]|(w & -> & G)]; item l. Qed.

Lemma struct_brace_ok l vs vv ns n gs gv ws wv fs fv : goodo l (Vis false) vs vv -> good l Name ns n -> goodo l Generics gs gv ->
    goodo l Wheres ws wv -> good l BraceFields fs fv ->
    good l Item (vs ++ Sym KStruct :: ns ++ gs ++ ws ++ fs)
      (item "Struct" (node "Struct" [vv; n; gv; or_nil wv; VVar "StructDefinitionBody" "Brace" fv])).
Proof. intros V N Ge [[-> ->]|(w & -> & G)]; item l. Qed.

Lemma struct_tuple_ok l vs vv ns n gs gv ws wv fs fv : goodo l (Vis false) vs vv -> good l Name ns n -> goodo l Generics gs gv ->
    good l TupleFields fs fv -> goodo l Wheres ws wv ->
    good l Item (vs ++ Sym KStruct :: ns ++ gs ++ fs ++ ws ++ [Sym KSemicolon])
      (item "Struct" (node "Struct"
        [vv; n; gv; or_nil wv; VVar "StructDefinitionBody" "Tuple" (node "StructDefinitionBodyTuple" [fv])])).
Proof. intros V N Ge T [[-> ->]|(w & -> & G)]; item l. Qed.

Lemma struct_unit_ok l vs vv ns n gs gv : goodo l (Vis false) vs vv -> good l Name ns n -> goodo l Generics gs gv ->
    good l Item (vs ++ Sym KStruct :: ns ++ gs ++ [Sym KSemicolon])
      (item "Struct" (node "Struct" [vv; n; gv; VList []; VVar "StructDefinitionBody" "Empty" hole])).
Proof. item l. Qed.

Lemma enum_item_ok l vs vv ns n gs gv ws wv xs c : goodo l (Vis false) vs vv -> good l Name ns n -> goodo l Generics gs gv ->
    goodo l Wheres ws wv -> goods l (With "EnumVariant" Variant) xs ->
    good l Item (vs ++ Sym KEnum :: ns ++ gs ++ ws ++ Sym KLeftCurly :: commas (spelled xs) c ++ [Sym KRightCurly])
      (item "Enum" (node "Enum" [vv; n; gv; or_nil wv; VList (asts xs)])).
Proof. intros V N Ge [[-> ->]|(w & -> & G)]; item l. Qed.

Lemma variant_ok l ns n bs b : good l Name ns n -> good l VariantBody bs b -> good l Variant (ns ++ bs) (node "EnumVariant" [n; b]).
Proof. rule. parts. finish. Qed.

Lemma variant_tuple_ok l ps v : good l TupleFields ps v -> good l VariantBody ps (VVar "EnumVariantBody" "Tuple" v).
Proof. rule. parts. finish. Qed.

Lemma variant_struct_ok l ps v : good l BraceFields ps v -> good l VariantBody ps (VVar "EnumVariantBody" "Struct" v).
Proof. rule. parts. finish. Qed.

Lemma variant_unit_ok l ps v : goodo l (Assigned OfVariant) ps v -> good l VariantBody ps (VVar "EnumVariantBody" "Unit" v).
Proof. rule. parts. finish. Qed.

Lemma extern_item_ok l ss s ms : goodo l Str ss s -> goods l (With "ExternBlockMember" ExternMember) ms ->
    good l Item (Sym KExtern :: ss ++ Sym KLeftCurly :: concat (spelled ms) ++ [Sym KRightCurly])
      (item "ExternBlock" (node "ExternBlock" [s; VList (asts ms)])).
Proof. rule. parts. finish. Qed.

(** [union] is an identifier, too. *)
Lemma union_not_macro toks l vs vv p q r : goodo l (Vis false) vs vv -> reads toks p vs q -> takes toks q (Sym KUnion) r ->
  clear toks (bits [KDoubleColon; KBang]) r ->
  exists s, forall e, sem toks (amb l) (GNT N_item_macro_call) e p (SFail s).
Proof.
  intros [[-> ->]|(w & -> & G)] R T C.
  - cbn in R. subst q. destruct T as (x & T). destruct (word_path toks l (KUnion, x) p r) as (v & HS); [reflexivity|exact T|clr|].
    eexists. intros e. fails.
  - destruct (good_extra _ _ _ _ G) as [-> |B].
    + rd. tk. destruct (word_path toks l (KCrate, x0) p q) as (v & HS); [reflexivity|exact K0|clr|].
      eexists. intros e. fails.
    + pose proof (good_nonempty _ _ _ _ G eq_refl) as NE. eexists. intros e. fails.
Qed.

Lemma union_item_ok l vs vv ns n gs gv ws wv fs c : goodo l (Vis false) vs vv -> good l Name ns n -> goodo l Generics gs gv ->
    goodo l Wheres ws wv -> goods l (With "StructDefinitionFieldNamed" FieldNamed) fs ->
    good l Item (vs ++ Sym KUnion :: ns ++ gs ++ ws ++ Sym KLeftCurly :: commas (spelled fs) c ++ [Sym KRightCurly])
      (item "Union" (node "Union" [vv; n; gv; or_nil wv; VList (asts fs)])).
Proof.
  intros V N Ge [[-> ->]|(w & -> & G)].
  all: rule; rd.
  all: match goal with
    V : goodo ?l (Vis false) ?vs ?vv, R : reads ?t ?p ?vs ?q, T : takes ?t ?q (Sym KUnion) ?r |- _ =>
      let s := fresh "s" in let HF := fresh "HF" in let w := fresh "w" in let HS := fresh "HS" in
      destruct (union_not_macro t l vs vv p q r V R T) as (s & HF); [clr|];
      destruct (no_qualifiers t l q) as (w & HS); [clr|]
  end.
  all: tk; use_all; names; finish.
Qed.

(** [unsafe] on its own. *)
Lemma unsafe_only toks l u p q : reads toks p (flag u KUnsafe) q -> clear toks (fmask Qualifiers) q ->
  exists w, forall e, sem toks (amb l) (GNT N_function_qualifiers) e p (SOk q w).
Proof.
  intros R C. pose proof (qualifiers_ok l false false u false) as Q. cbn [flag app] in Q. rewrite app_nil_r in Q.
  destruct (good_sem toks l _ _ _ p q Q R C) as (w & HS & _). exists w. exact HS.
Qed.
Ltac unsafe l :=
  match goal with
  | R : reads ?t ?p (flag ?u KUnsafe) ?q |- _ =>
      let w := fresh "w" in let HS := fresh "HS" in destruct (unsafe_only t l u p q R) as (w & HS); [clr|]
  end.
Ltac no_macro l :=
  match goal with
  | G : goodo l (Vis false) ?vs ?vv, R : reads ?t ?p ?vs ?q |- _ =>
      let s := fresh "s" in let HF := fresh "HF" in
      destruct (vis_not_macro t l vs vv p q G R) as (s & HF); [clr|]
  end.

Lemma trait_item_ok l vs vv u a ns n gs gv ds d ws wv ms : goodo l (Vis false) vs vv -> good l Name ns n -> goodo l Generics gs gv ->
    goodo l BoundsDecl ds d -> goodo l Wheres ws wv -> goods l (With "TraitMember" TraitMember) ms ->
    good l Item
      (vs ++ flag u KUnsafe ++ flag a KAuto ++ Sym KTrait :: ns ++ gs ++ ds ++ ws ++
       Sym KLeftCurly :: concat (spelled ms) ++ [Sym KRightCurly])
      (item "Trait" (node "Trait" [vv; mark u; mark a; n; gv; d; or_nil wv; VList (asts ms)])).
Proof.
  intros V N Ge B [[-> ->]|(w & -> & G)]; rule; rd; unsafe l; no_macro l.
  all: destruct V as [[-> ->]|(v & -> & GV)]; [cbn [app reads] in *; subst|].
  all: tk; use_all; names; finish.
Qed.

Lemma impl_item_ok l u gs gv ks k ws wv ms : goodo l Generics gs gv -> good l ImplSubject ks k -> goodo l Wheres ws wv ->
    goods l (With "ImplMember" ImplMember) ms -> (gs = [] -> starts_with KLeftAngle ks = false) ->
    good l Item
      (flag u KUnsafe ++ Sym KImpl :: gs ++ ks ++ ws ++ Sym KLeftCurly :: concat (spelled ms) ++ [Sym KRightCurly])
      (item "Impl" (node "Impl" [mark u; gv; k; or_nil wv; VList (asts ms)])).
Proof.
  intros [[-> ->]|(gw & -> & GG)] GK [[-> ->]|(w & -> & G)] M S; 
  try (specialize (S eq_refl); pose proof (begins_without _ _ _ (g_begins _ _ _ _ GK) S) as B);
  pose proof (good_nonempty _ _ _ _ GK eq_refl) as NE;
  rule; rd; unsafe l; tk; use_all; names; finish.
Qed.

Lemma fn_item_ok l hs h bs b : good l FnHeader hs h -> good l Block bs b -> good l Item (hs ++ bs) (item "Function" (node "Function" [h; b])).
Proof.
  intros G GB. destruct (good_extra _ _ _ _ G) as (X1 & X2 & X3 & _).
  rule. rd. rejections. tk. use_all. names. finish.
Qed.
