(** Properties C35, C38, C39, C43, C44 and C46: texts that follow the rules of the
    language are accepted, with the AST the rules give them.

    The vocabulary is in OutlineSpec.v ([spells]: which tokens spell which pieces of
    source, glued or not; [outline]: the AST without whitespace and without the
    extents of inner nodes), RustSpec.v ([syn], [syns]: the rules; [balanced]),
    UseSpec.v ([use_tree]) and FileSpec.v ([solid]: the tokens without whitespace
    and comments). *)

From Coq Require Import String List NArith Arith Bool Lia.
From Verif Require Import Base Peresil Token Tokenizer TokenizerSpec.
From Verif Require Import Schema Value Nt Grammar Points Table Static Lib FileSpec Amb Sem First OutlineSpec UseSpec Reads Syntax RustSpec NestedOk SyntaxOk.
Import ListNotations.
Local Open Scope string_scope.
Local Open Scope list_scope.
Local Open Scope nat_scope.

(** The text, without whitespace and comments, reads as [ps]. *)
Definition text_reads (X : xid) (code : list N) (ps : list piece) : Prop :=
  exists ts body x, tokenize X code = TokOk ts /\ solid ts = body ++ [Tk KEndOfFile x] /\ spells body ps.

(** The text is accepted, and the file's items have these outlines. *)
Definition accepted_as (X : xid) (code : list N) (items : list val) : Prop :=
  exists f, parse_rust_file X code = FileOk f /\ outline f = VNode "File" [VList items; VList []].

(** ** C46: a text made of items that follow the rules is accepted, and its AST is
    the one the rules give it. *)
Theorem C46_parsed_as_spelled : forall X code its, xid_sane X ->
  syns Anywhere (With "Item" Item) its -> text_reads X code (concat (spelled its)) ->
  accepted_as X code (asts its).
Proof.
  intros X code its XS SY (ts & body & x & T & S & SP). eapply parsed_as_spelled; eauto.
Qed.

(** Two texts that read alike have the same outline. *)
Theorem C46_unambiguous : forall X code its its', xid_sane X ->
  syns Anywhere (With "Item" Item) its -> text_reads X code (concat (spelled its)) ->
  syns Anywhere (With "Item" Item) its' -> text_reads X code (concat (spelled its')) ->
  asts its = asts its'.
Proof.
  intros X code its its' XS SY R SY' R'.
  destruct (C46_parsed_as_spelled X code its XS SY R) as (f & E & O).
  destruct (C46_parsed_as_spelled X code its' XS SY' R') as (f' & E' & O'). congruence.
Qed.

(** One item without attributes. *)
Lemma one_item X code ps v : xid_sane X -> syn Anywhere Item ps v -> text_reads X code ps ->
  accepted_as X code [node "Attributed<Item>" [VList []; v]].
Proof.
  intros XS S R. apply (C46_parsed_as_spelled X code [(ps, node "Attributed<Item>" [VList []; v])] XS).
  - constructor; [|constructor]. apply (WithAttributes Anywhere "Item" Item [] ps v eq_refl); [constructor|exact S].
  - cbn [spelled map concat fst]. now rewrite app_nil_r.
Qed.

(** ** C39: attributes and doc comments in front of an item are its attributes, in order. *)
Theorem C39_attributes : forall X code attrs ps v, xid_sane X ->
  syns Anywhere Attribute attrs -> syn Anywhere Item ps v -> text_reads X code (concat (spelled attrs) ++ ps) ->
  accepted_as X code [node "Attributed<Item>" [VList (asts attrs); v]].
Proof.
  intros X code attrs ps v XS A S R.
  apply (C46_parsed_as_spelled X code [(concat (spelled attrs) ++ ps, node "Attributed<Item>" [VList (asts attrs); v])] XS).
  - constructor; [|constructor]. now apply (WithAttributes Anywhere "Item" Item attrs ps v eq_refl).
  - cbn [spelled map concat fst]. now rewrite app_nil_r.
Qed.

(** ** C43: use declarations of any depth. *)
Theorem C43_use : forall X code t leading, xid_sane X -> use_ok t ->
  text_reads X code (Sym KUse :: flag leading KDoubleColon ++ spell_use t ++ [Sym KSemicolon]) ->
  accepted_as X code [node "Attributed<Item>" [VList []; VVar "Item" "Use" (node "Use" [VNone; ast_use t])]].
Proof.
  intros X code t g XS U R. eapply one_item; [exact XS| |exact R].
  apply (UseItem Anywhere [] VNone g (spell_use t) (ast_use t)); [constructor|now constructor].
Qed.

(** ** C44: types, as the right hand side of a type alias. *)
Theorem C44_types : forall X code name ps v, xid_sane X -> ident_kind (fst name) = true -> syn Anywhere Ty ps v ->
  text_reads X code (Sym KType :: spell_word name :: Sym KEquals :: ps ++ [Sym KSemicolon]) ->
  accepted_as X code
    [node "Attributed<Item>" [VList []; VVar "Item" "TypeAlias" (node "TypeAlias" [VNone; ident name; VNone; VList []; v])]].
Proof.
  intros X code n ps v XS I S R. eapply one_item; [exact XS| |exact R].
  apply (TypeAliasItem Anywhere [] VNone [spell_word n] (ident n) [] VNone [] VNone ps v); try constructor; auto.
Qed.

(** ** C35: names with generic arguments, nested to any depth. *)
Inductive generic : Type := Generic (name : word) (args : list generic).

Fixpoint spell_generic (t : generic) : list piece :=
  match t with
  | Generic w [] => [spell_word w]
  | Generic w args => spell_word w :: Sym KLeftAngle :: commas (map spell_generic args) false ++ [Sym KRightAngle]
  end.

Fixpoint generic_ast (t : generic) : val :=
  match t with
  | Generic w args =>
      node "Type" [VVar "TypeKind" "Named" (node "TypeNamed" [VList [node "TypeNamedComponent" [ident w;
        match args with
        | [] => VNone
        | _ => VSome (VVar "TypeGenerics" "Angle" (node "TypeGenericsAngle"
                 [VList (map (fun a => VVar "TypeGenericsAngleMember" "Type" (generic_ast a)) args)]))
        end]]]); VList []]
  end.

Inductive generic_ok : generic -> Prop :=
| GenericOk x args : (forall a, In a args -> generic_ok a) -> generic_ok (Generic (KIdent, x) args).

Fixpoint size (t : generic) : nat := match t with Generic _ args => S (fold_right (fun a n => size a + n) 0 args) end.

Lemma generic_syn n : forall t, size t < n -> generic_ok t -> syn Anywhere Ty (spell_generic t) (generic_ast t).
Proof.
  induction n as [|n IH]; intros t L O; [lia|]. destruct O as [x args A].
  assert (M : syns Anywhere TyMember (map (fun a => (spell_generic a, VVar "TypeGenericsAngleMember" "Type" (generic_ast a))) args)).
  { cbn [size] in L. clear -IH L A. induction args as [|a args IHa]; [constructor|]. cbn [map fold_right] in *.
    constructor.
    - constructor. apply IH; [lia|]. apply A. now left.
    - apply IHa; [lia|]. intros b B. apply A. now right. }
  assert (N : syn Anywhere Member [spell_word (KIdent, x)] (ident (KIdent, x))) by (constructor; reflexivity).
  assert (G : syn Anywhere (TyComponent false) (spell_generic (Generic (KIdent, x) args))
    (node "TypeNamedComponent" [ident (KIdent, x);
      match args with [] => VNone | _ => VSome (VVar "TypeGenerics" "Angle" (node "TypeGenericsAngle"
        [VList (map (fun a => VVar "TypeGenericsAngleMember" "Type" (generic_ast a)) args)])) end])).
  { destruct args as [|a args]; [now apply TyComponentPlain|].
    pose proof (GenericsAngle Anywhere _ false M) as GA.
    pose proof (TyComponentGeneric Anywhere _ _ _ _ _ N GA) as C. unfold spelled, asts in C. rewrite !map_map in C. exact C. }
  pose proof (NamedOf Anywhere false [] _ _ _ (Nil _ _) G) as H. cbn [flag app spelled map asts separated] in H. rewrite app_nil_r in H.
  apply TyPlain with (o := false). apply TyName; [exact H| |]; destruct args; reflexivity.
Qed.

(** Whether the closing brackets make one token or several, the tree is the same. *)
Theorem C35_nested_generics : forall X code name t, xid_sane X -> ident_kind (fst name) = true -> generic_ok t ->
  text_reads X code (Sym KType :: spell_word name :: Sym KEquals :: spell_generic t ++ [Sym KSemicolon]) ->
  accepted_as X code
    [node "Attributed<Item>" [VList []; VVar "Item" "TypeAlias" (node "TypeAlias" [VNone; ident name; VNone; VList []; generic_ast t])]].
Proof.
  intros X code n t XS I O R. eapply C44_types; [exact XS|exact I| |exact R]. eapply generic_syn; [|exact O]. apply Nat.lt_succ_diag_r.
Qed.

(** ** C38: the arguments of macros *)

(** Balanced arguments are accepted. *)
Theorem C38_accepted : forall X code name x d o c args, xid_sane X -> In (d, (o, c)) delimiters -> balanced o c args ->
  text_reads X code
    (Word KIdent name :: Sym KBang :: Sym o :: map Raw args ++ Sym c :: (if String.eqb d "Curly" then [] else [Sym KSemicolon])) ->
  x = VNode "Ident" [VExt name] ->
  accepted_as X code
    [node "Attributed<Item>" [VList []; VVar "Item" "MacroCall" (node "MacroCall"
      [node "PathedIdent" [VList [node "PathComponent" [x; VNone]]]; VNone; VVar "MacroCallArgs" d hole])]].
Proof.
  intros X code nm x d o c args XS D B R ->. eapply one_item; [exact XS| |exact R].
  apply MacroItemItem; [|reflexivity].
  assert (N : syn Anywhere Member [spell_word (KIdent, nm)] (ident (KIdent, nm))) by (constructor; reflexivity).
  apply (MacroItemOf Anywhere [spell_word (KIdent, nm)] (node "PathedIdent" [VList [node "PathComponent" [ident (KIdent, nm); VNone]]]) [] VNone d o c args);
    [|constructor|exact D|exact B].
  apply (Pathed Anywhere false [([spell_word (KIdent, nm)], node "PathComponent" [ident (KIdent, nm); VNone])]); [discriminate|].
  constructor; [|constructor]. now apply ComponentPlain.
Qed.

(** The productions of the grammar that read such arguments, with their delimiters. *)
Definition argument_readers : list (nt * (tkind * tkind)) :=
  [(N_item_macro_call_paren, (KLeftParen, KRightParen)); (N_item_macro_call_square, (KLeftSquare, KRightSquare));
   (N_item_macro_call_curly, (KLeftCurly, KRightCurly)); (N_expr_macro_call_paren, (KLeftParen, KRightParen));
   (N_expr_macro_call_square, (KLeftSquare, KRightSquare)); (N_expr_macro_call_curly, (KLeftCurly, KRightCurly))].

Lemma reader_shape n o c : In (n, (o, c)) argument_readers -> reads_arguments n o c.
Proof.
  cbn [In argument_readers]. intros I. repeat destruct I as [I|I]; try contradiction; injection I as <- <- <-;
    (split; [reflexivity|split; [reflexivity|]]); eexists _, _, _; (split; [reflexivity|]); first [left; reflexivity|right; eexists; reflexivity].
Qed.

(** Whatever the tokens, if arguments are accepted then they stand between an opening
    delimiter and the first closing one that is not matched inside, and their extent
    in the AST is that of the tokens between. *)
Theorem C38_balanced : forall toks fuel n o c pm p pm' q v, In (n, (o, c)) argument_readers ->
  run table toks fuel (GNT n) [] pm p = (pm', Success q v) ->
  exists t args u rest x, skipn (off p) toks = t :: args ++ u :: rest /\
    token_is o t = true /\ balanced o c args /\ token_is c u = true /\
    v = VExt x /\ ex toks (at_ (off p + 1)) (at_ (off p + 1 + List.length args)) = BOk x.
Proof.
  intros toks fuel n o c pm p pm' q v I H. apply arguments_read with (1 := reader_shape n o c I) (2 := H).
Qed.

(** There is only one way to find that closing delimiter. *)
Theorem C38_unique : forall d o c args args' u u' rest rest', In (d, (o, c)) delimiters ->
  balanced o c args -> balanced o c args' -> token_is c u = true -> token_is c u' = true ->
  args ++ u :: rest = args' ++ u' :: rest' -> args = args' /\ u = u' /\ rest = rest'.
Proof.
  intros d o c args args' u u' rest rest' D B B' U U' E.
  assert (L : List.length args = List.length args').
  { assert (S : forall a w r, balanced o c a -> token_is c w = true -> nested_skip o c 0 (a ++ w :: r) = List.length a).
    { intros a w r Ba Uw. assert (K : o <> c /\ o <> KEndOfFile /\ c <> KEndOfFile).
      { cbn [In delimiters] in D. destruct D as [D|[D|[D|[]]]]; injection D as <- <- <-; repeat split; discriminate. }
      destruct K as (K1 & K2 & K3). rewrite (skip_balanced o c a K1 K2 K3 Ba). destruct w as [k y|]; [|discriminate].
      cbn [token_is] in Uw. apply tkind_eqb_eq in Uw. subst k. cbn [nested_skip is_kind].
      destruct (tkind_eqb KEndOfFile c) eqn:E1; [apply tkind_eqb_eq in E1; congruence|].
      destruct (tkind_eqb o c) eqn:E2; [apply tkind_eqb_eq in E2; congruence|].
      replace (tkind_eqb c c) with true by (now destruct c). lia. }
    rewrite <- (S args u rest B U), <- (S args' u' rest' B' U'). now rewrite E. }
  assert (F : args = args').
  { apply (f_equal (firstn (List.length args))) in E. rewrite L in E at 2.
    rewrite !firstn_app, !Nat.sub_diag, !firstn_all in E. cbn [firstn] in E. now rewrite !app_nil_r in E. }
  subst args'. apply app_inv_head in E. injection E as -> ->. auto.
Qed.

(** ** Concrete cases *)

Lemma text_reads_intro X code ts ps : tokenize X code = TokOk ts ->
  match rev (solid ts) with
  | Tk KEndOfFile _ :: body => spells (rev body) ps
  | _ => False
  end -> text_reads X code ps.
Proof.
  intros T S. destruct (rev (solid ts)) as [|[k x|] body] eqn:E; try contradiction.
  exists ts, (rev body), x. split; [exact T|]. destruct k; try contradiction. split; [|exact S].
  rewrite <- (rev_involutive (solid ts)), E. reflexivity.
Qed.

(** Find the tokens of a spelling one by one. *)
Ltac spell :=
  repeat first
    [ apply SP_nil | apply SP_sym | apply SP_word | apply SP_num | apply SP_raw
    | apply (SP_glued KDoubleRightAngle [KRightAngle; KRightAngle]); [vm_compute; tauto|] ].
Ltac text_reads_as := eapply text_reads_intro; [vm_compute; reflexivity|vm_compute; spell].

(** A named type without arguments. *)
Lemma plain_ty x : syn Anywhere Ty [Word KIdent x] (generic_ast (Generic (KIdent, x) [])).
Proof. apply (generic_syn 2 (Generic (KIdent, x) [])); [cbn; lia|]. constructor. intros a []. Qed.

Example C35_ex :
  let t := Generic (KIdent, (9, 10)) [Generic (KIdent, (11, 12)) [Generic (KIdent, (13, 14)) []]] in
  generic_ok t /\
  text_reads ascii_xid (str "type T = A<B<C>>;") (Sym KType :: spell_word (KIdent, (5, 6)) :: Sym KEquals :: spell_generic t ++ [Sym KSemicolon]) /\
  text_reads ascii_xid (str "type T = A<B<C> >;") (Sym KType :: spell_word (KIdent, (5, 6)) :: Sym KEquals :: spell_generic t ++ [Sym KSemicolon]).
Proof.
  split; [|split]; [|text_reads_as|text_reads_as].
  constructor. intros a [<-|[]]. constructor. intros a [<-|[]]. constructor. intros a [].
Qed.

Example C38_ex :
  let args := [Tk KLeftParen (3, 4); Tk KRightCurly (4, 5); Tk KRightParen (5, 6); Tk KPlus (7, 8)] in
  balanced KLeftParen KRightParen args /\
  text_reads ascii_xid (str "m!((}) +);")
    (Word KIdent (0, 1) :: Sym KBang :: Sym KLeftParen :: map Raw args ++ Sym KRightParen :: [Sym KSemicolon]) /\
  exists q x pm', run table [Tk KLeftParen (2, 3); Tk KIdent (3, 4); Tk KRightParen (4, 5); Tk KRightParen (5, 6); Tk KEndOfFile (6, 6)] 10
    (GNT N_expr_macro_call_paren) [] (new_master pt_zero Unambiguous) pt_zero = (pm', Success q (VExt x)).
Proof.
  split; [|split; [text_reads_as|]].
  - apply (BL_nest _ _ (Tk KLeftParen (3, 4)) (Tk KRightParen (5, 6)) [Tk KRightCurly (4, 5)] [Tk KPlus (7, 8)]); try reflexivity;
      (apply BL_one; [reflexivity|reflexivity|reflexivity|constructor]).
  - eexists _, _, _. vm_compute. reflexivity.
Qed.

Example C39_ex :
  let attrs := [([Word KDocCommentOuterLine (0, 5)], VVar "Attribute" "DocCommentLine" hole);
                ([Sym KHash; Sym KLeftSquare; Raw (Tk KIdent (8, 9)); Sym KRightSquare],
                 VVar "Attribute" "Literal" (node "AttributeLiteral" [hole]))] in
  syns Anywhere Attribute attrs /\
  syn Anywhere Item [Sym KStruct; Word KIdent (18, 19); Sym KSemicolon]
    (item "Struct" (node "Struct" [VNone; ident (KIdent, (18, 19)); VNone; VList []; VVar "StructDefinitionBody" "Empty" hole])) /\
  text_reads ascii_xid (str "/// d
#[a] struct S;") (concat (spelled attrs) ++ [Sym KStruct; Word KIdent (18, 19); Sym KSemicolon]).
Proof.
  split; [|split; [|text_reads_as]].
  - apply Cons; [apply AttrLine|]. apply Cons; [|apply Nil].
    apply (AttrLiteral Anywhere [Tk KIdent (8, 9)]). apply BL_one; [reflexivity|reflexivity|reflexivity|constructor].
  - apply (StructUnit Anywhere [] VNone [spell_word (KIdent, (18, 19))] _ [] VNone); try constructor. reflexivity.
Qed.

Example C43_ex :
  let t := Use [(KCrate, (4, 9))] (UseMulti [Use [] (UseName (KIdent, (12, 13)) (Some (KIdent, (17, 18)))); Use [(KIdent, (20, 21))] UseGlob] true) in
  use_ok t /\
  text_reads ascii_xid (str "use crate::{a as b, c::*,};") (Sym KUse :: flag false KDoubleColon ++ spell_use t ++ [Sym KSemicolon]).
Proof.
  split; [|text_reads_as]. constructor; [repeat constructor|]. constructor. intros t [<-|[<-|[]]].
  - constructor; [constructor|]. constructor; [reflexivity|]. intros w W. injection W as <-. reflexivity.
  - constructor; [repeat constructor|constructor].
Qed.

Example C44_ex : exists ps v,
  syn Anywhere Ty ps v /\
  text_reads ascii_xid (str "type T = &'a mut [(u8, !)];")
    (Sym KType :: spell_word (KIdent, (5, 6)) :: Sym KEquals :: ps ++ [Sym KSemicolon]).
Proof.
  eexists _, _. split.
  - eapply TyPlain with (o := true). eapply (TyReference Anywhere [Sym KAmpersand; Word KLifetime (10, 12); Sym KMut]).
    + eapply (RefKindOf Anywhere [Word KLifetime (10, 12)] _ true). eapply Present, LifetimeOf.
    + eapply TyPlain with (o := false). eapply TySlice. eapply TyPlain with (o := false).
      eapply (TyTuple Anywhere [_; _] false). eapply Cons; [eapply (plain_ty (19, 21))|]. eapply Cons; [|eapply Nil].
      eapply TyPlain with (o := false). eapply TyNever.
  - text_reads_as.
Qed.

Example C46_ex : exists its, List.length its = 2 /\ syns Anywhere (With "Item" Item) its /\
  text_reads ascii_xid (str "/** d */ pub mod m { trait Q { fn f(&self, (a, _): T); } } enum E { A(u8), B { x: T } }")
    (concat (spelled its)).
Proof.
  assert (name : forall x, syn Anywhere Name [spell_word (KIdent, x)] (ident (KIdent, x))) by (intros; constructor; reflexivity).
  assert (plain : forall t c ps v, attributable c = Some t -> syn Anywhere c ps v ->
    syn Anywhere (With t c) ps (node ("Attributed<" ++ t ++ ">") [VList []; v])).
  { intros t c ps v A S. eapply (WithAttributes Anywhere t c [] ps v A (Nil _ _) S). }
  assert (path : forall x, syn Anywhere PatternKind [Word KIdent x]
    (VVar "PatternKind" "Ident" (node "PatternIdent" [VNone; VNone;
      node "PathedIdent" [VList [node "PathComponent" [ident (KIdent, x); VNone]]]; VNone]))).
  { intros x. eapply PatternIdented.
    eapply (PatternIdentOf Anywhere false false [Word KIdent x] _ [] VNone); [|reflexivity|constructor].
    eapply (Pathed Anywhere false [([Word KIdent x], _)]); [discriminate|]. eapply Cons; [|eapply Nil].
    eapply ComponentPlain. eapply (MemberOf Anywhere (KIdent, x)). reflexivity. }
  eapply ex_intro with (x := [(_, _); (_, _)]). split; [reflexivity|]. split.
  - eapply Cons; [|eapply Cons; [|eapply Nil]].
    + eapply (WithAttributes Anywhere "Item" Item [([Word KDocCommentOuterBlock (0, 8)], _)]); [reflexivity| |].
      { eapply Cons; [eapply AttrBlock|eapply Nil]. }
      eapply (ModuleItem Anywhere [Sym KPub] _ _ _ [(_, _)]); [eapply Present, VisPub|eapply (name (17, 18))|].
      eapply Cons; [|eapply Nil]. eapply plain; [reflexivity|].
      eapply (TraitItem Anywhere [] VNone false false _ _ [] VNone [] VNone [] VNone [(_, _)]); try apply Absent; [eapply (name (27, 28))|].
      eapply Cons; [|eapply Nil]. eapply plain; [reflexivity|].
      eapply TraitFn; [|eapply TraitFnRequired].
      eapply (TraitHeaderOf Anywhere [] VNone [] _ _ _ [] VNone _ _ [] VNone [] VNone); try apply Absent;
        [eapply (QualifiersOf Anywhere false false false false)|eapply (name (34, 35))|].
      eapply (TraitArgsSelf Anywhere _ _ [(_, _)] false).
      * eapply (SelfReference Anywhere [Sym KAmpersand] _ (37, 41) true). eapply (RefKindOf Anywhere [] VNone false). eapply Absent.
      * eapply Cons; [|eapply Nil]. eapply TraitArgOf; [|eapply (plain_ty (51, 52))]. eapply PatternOf, PatternTupled.
        eapply (PatternTupleOf Anywhere [(_, _); (_, _)] false). eapply Cons; [|eapply Cons; [|eapply Nil]];
          eapply TuplePattern, PatternOf; [eapply (path (44, 45))|eapply (path (47, 48))].
    + eapply plain; [reflexivity|].
      eapply (EnumItem Anywhere [] VNone _ _ [] VNone [] VNone [(_, _); (_, _)] false); try apply Absent; [eapply (name (64, 65))|].
      eapply Cons; [|eapply Cons; [|eapply Nil]]; (apply plain; [reflexivity|]); eapply VariantOf;
        [eapply (name (68, 69))|eapply VariantTuple|eapply (name (75, 76))|eapply VariantStruct].
      * eapply (TupleFieldsOf Anywhere [(_, _)] false). eapply Cons; [|eapply Nil]. eapply plain; [reflexivity|].
        eapply (UnnamedField Anywhere [] VNone); [eapply Absent|eapply (plain_ty (70, 72))|reflexivity].
      * eapply (BraceFieldsOf Anywhere [(_, _)] false). eapply Cons; [|eapply Nil]. eapply plain; [reflexivity|].
        eapply (NamedField Anywhere [] VNone); [eapply Absent|eapply (name (79, 80))|eapply (plain_ty (82, 83))].
  - text_reads_as.
Qed.

Print Assumptions C35_nested_generics.
Print Assumptions C38_accepted.
Print Assumptions C38_balanced.
Print Assumptions C38_unique.
Print Assumptions C39_attributes.
Print Assumptions C43_use.
Print Assumptions C44_types.
Print Assumptions C46_parsed_as_spelled.
Print Assumptions C46_unambiguous.
