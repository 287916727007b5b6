(** Properties C36, C37, C41 and C46 for expressions and blocks.

    The vocabulary is that of PropertiesSyntax.v.  In RustSpec.v, the categories of
    expressions are [With "Expression" (Atom h t)] (an expression that is no
    application of an operator), [Operand r t] (prefix operators in front of such
    an expression), [Chain h t] (what operators make of these) and [Expr b]; [h] tells how
    the expression starts and [t] how it ends. *)

From Coq Require Import String List NArith Arith Bool Lia.
From Verif Require Import Base Peresil Token Tokenizer TokenizerSpec.
From Verif Require Import Schema Value Nt Grammar Points Table Static Lib FileSpec Amb Sem First OutlineSpec UseSpec Reads Syntax RustSpec NestedOk SyntaxOk PropertiesSyntax.
Import ListNotations.
Local Open Scope string_scope.
Local Open Scope list_scope.
Local Open Scope nat_scope.

(** ** C36: infix operators associate to the left, all of them alike. *)

(** The tree of [v k w]. *)
Definition join (v : val) (k : tkind) (w : val) : val :=
  bare (match find (fun o => tkind_eqb (fst o) k) binary_operators with
        | Some (_, op) => expr "Binary" [VVar "BinaryOp" op VUnit; v; w]
        | None =>
            match k with
            | KDoublePeriod => expr "Range" [VSome v; VSome w]
            | KTriplePeriod => expr "RangeInclusive" [VSome v; VVar "RangeInclusiveOperator" "Legacy" hole; VSome w]
            | _ => expr "RangeInclusive" [VSome v; VVar "RangeInclusiveOperator" "Recommended" hole; VSome w]
            end
        end).

Definition infix_operators : list tkind := map fst binary_operators ++ [KDoublePeriod; KTriplePeriod; KDoublePeriodEquals].

(** [(((v k1 w1) k2 w2) ...)] *)
Definition left_nested (v : val) (rest : list (tkind * val)) : val := fold_left (fun v r => join v (fst r) (snd r)) rest v.

(** An operand that ends by itself: it does not, like [return] or a closure, take what follows. *)
Definition closed (t : back) : bool := match t with AtEnd | AtField | AtPath _ => true | _ => false end.

(** An operator, where it stands, and its right operand. *)
Record joined : Type := Joined { jk : tkind; jx : extent; jt : text }.
Definition joined_ok (j : joined) : Prop :=
  In (jk j) infix_operators /\ exists t, closed t = true /\ syn Anywhere (Operand (range_kind (jk j)) t) (fst (jt j)) (snd (jt j)).

Definition spell_joined (js : list joined) : list piece := concat (map (fun j => Raw (Tk (jk j) (jx j)) :: fst (jt j)) js).

Definition const_of (name ty : word) (e : val) : val :=
  node "Attributed<Item>" [VList []; VVar "Item" "Const" (node "Const" [VNone; ident name; generic_ast (Generic ty []); e])].
Definition spell_const (name : word) (ty : extent) (es : list piece) : list piece :=
  Sym KConst :: spell_word name :: Sym KColon :: Word KIdent ty :: Sym KEquals :: es ++ [Sym KSemicolon].

Lemma join_infix k v w : In k infix_operators -> exists e, infix k v w e /\ join v k w = bare e.
Proof.
  intros I. vm_compute in I. repeat (destruct I as [<-|I]; [eexists; split; [|reflexivity]; first
    [ apply InfixBinary; vm_compute; tauto | apply InfixRange | apply InfixThrough; vm_compute; tauto ]|]). contradiction.
Qed.

Lemma closed_open t k : closed t = true -> open_for t k = true.
Proof. destruct t; cbn; congruence. Qed.

Lemma joined_chain js : forall h t ps v, closed t = true -> syn Anywhere (Chain h t) ps v -> Forall joined_ok js ->
  exists h' t', closed t' = true /\ syn Anywhere (Chain h' t') (ps ++ spell_joined js) (left_nested v (map (fun j => (jk j, snd (jt j))) js)).
Proof.
  induction js as [|j js IH]; intros h t ps v C S F.
  - exists h, t. split; [exact C|]. unfold spell_joined. cbn [map concat left_nested fold_left]. now rewrite app_nil_r.
  - pose proof (Forall_inv F) as (I & t' & C' & SO). apply Forall_inv_tail in F as F'. destruct (join_infix (jk j) v (snd (jt j)) I) as (e & E & J).
    destruct (IH _ t' _ _ C' (ChainInfix Anywhere h t ps v (jk j) (jx j) t' _ _ e S (closed_open _ _ C) SO E) F') as (h2 & t2 & C2 & S2).
    exists h2, t2. split; [exact C2|]. unfold spell_joined in *. cbn [map concat left_nested fold_left fst snd] in *.
    rewrite J. rewrite <- app_assoc in S2. exact S2.
Qed.

Lemma const_accepted X code name ty es e : xid_sane X -> ident_kind (fst name) = true -> syn Anywhere (Expr false) es e ->
  text_reads X code (spell_const name ty es) -> accepted_as X code [const_of name (KIdent, ty) e].
Proof.
  intros XS I S R. eapply one_item; [exact XS| |exact R].
  apply (ConstItem Anywhere [] VNone [spell_word name] (ident name) [Word KIdent ty] _ es e); [constructor|now constructor|apply plain_ty|exact S].
Qed.

Theorem C36_left_nested : forall X code name ty h t ps v js, xid_sane X -> ident_kind (fst name) = true ->
  syn Anywhere (With "Expression" (Atom h t)) ps v -> closed t = true -> Forall joined_ok js ->
  text_reads X code (spell_const name ty (ps ++ spell_joined js)) ->
  accepted_as X code [const_of name (KIdent, ty) (left_nested v (map (fun j => (jk j, snd (jt j))) js))].
Proof.
  intros X code name ty h t ps v js XS I S C F R.
  destruct (joined_chain js h t ps v C (ChainAtom _ _ _ _ _ S) F) as (h' & t' & C' & S').
  eapply const_accepted; [exact XS|exact I| |exact R]. eapply ExprChain; [exact S'|discriminate].
Qed.

(** ** C37: what is kept of Rust's precedence is that prefix operators apply before infix ones. *)
Theorem C37_prefix_before_infix_partial : forall X code name ty os a o t ps v e js, xid_sane X -> ident_kind (fst name) = true ->
  syn Anywhere (With "OperatorPrefix" PrefixOp) os (node "Attributed<OperatorPrefix>" [a; o]) ->
  syn Anywhere (Operand false t) ps v -> closed t = true -> prefix o v e -> Forall joined_ok js ->
  text_reads X code (spell_const name ty ((os ++ ps) ++ spell_joined js)) ->
  accepted_as X code [const_of name (KIdent, ty)
    (left_nested (node "Attributed<Expression>" [a; e]) (map (fun j => (jk j, snd (jt j))) js))].
Proof.
  intros X code name ty os a o t ps v e js XS I SO S C P F R.
  destruct (joined_chain js Free t (os ++ ps) _ C (ChainPrefix _ _ _ _ _ _ _ _ SO S P) F) as (h' & t' & C' & S').
  eapply const_accepted; [exact XS|exact I| |exact R]. eapply ExprChain; [exact S'|discriminate].
Qed.

(** ** C41: the blocks of functions *)
Definition fn_of (name : word) (block : val) : val :=
  node "Attributed<Item>" [VList []; VVar "Item" "Function" (node "Function"
    [node "FunctionHeader" [VNone; node "FunctionQualifiers" [VNone; VNone; VNone; VNone; VNone; VNone]; ident name; VNone; VList []; VNone; VList []]; block])].
Definition spell_fn (name : word) (body : list piece) : list piece :=
  Sym KFn :: spell_word name :: Sym KLeftParen :: Sym KRightParen :: Sym KLeftCurly :: body ++ [Sym KRightCurly].

Lemma fn_accepted X code name body b : xid_sane X -> ident_kind (fst name) = true ->
  syn Anywhere Block (Sym KLeftCurly :: body ++ [Sym KRightCurly]) b ->
  text_reads X code (spell_fn name body) -> accepted_as X code [fn_of name b].
Proof.
  intros XS I S R. eapply one_item; [exact XS| |exact R].
  apply (FnItem Anywhere (Sym KFn :: spell_word name :: [Sym KLeftParen; Sym KRightParen]) _ _ b); [|exact S].
  apply (HeaderOf Anywhere [] VNone [] _ [spell_word name] (ident name) [] VNone [Sym KLeftParen; Sym KRightParen] (VList []) [] VNone [] VNone);
    try constructor; [exact (QualifiersOf Anywhere false false false false)|exact I|exact (ArgsPlain Anywhere [] false (Nil _ _))].
Qed.

(** The last expression is the value of the block, unless a semicolon comes before it. *)
Theorem C41_value_partial : forall X code name a ps vs h t qs v, xid_sane X -> ident_kind (fst name) = true ->
  syn Anywhere (Stmts a) ps (VList vs) -> a <> AfterSep ->
  syn Anywhere (Chain h t) qs v -> In h [Free; Called] ->
  text_reads X code (spell_fn name (ps ++ qs)) -> accepted_as X code [fn_of name (node "Block" [VList vs; VSome v])].
Proof.
  intros X code name a ps vs h t qs v XS I S N C H R. eapply fn_accepted; [exact XS|exact I| |exact R].
  rewrite <- app_assoc. eapply BlockValue; eassumption.
Qed.

(** An expression that ends with a block is the value wherever it stands last. *)
Theorem C41_block_like_value_partial : forall X code name a ps vs qs v, xid_sane X -> ident_kind (fst name) = true ->
  syn Anywhere (Stmts a) ps (VList vs) -> syn Anywhere (Chain Blocky AtEnd) qs v ->
  text_reads X code (spell_fn name (ps ++ qs)) -> accepted_as X code [fn_of name (node "Block" [VList vs; VSome v])].
Proof.
  intros X code name a ps vs qs v XS I S C R. eapply fn_accepted; [exact XS|exact I| |exact R].
  rewrite <- app_assoc. eapply BlockBlocky; eassumption.
Qed.

(** Without a last expression there is no value. *)
Theorem C41_no_value_partial : forall X code name a ps vs, xid_sane X -> ident_kind (fst name) = true ->
  syn Anywhere (Stmts a) ps (VList vs) -> a <> AfterBlock ->
  text_reads X code (spell_fn name ps) -> accepted_as X code [fn_of name (node "Block" [VList vs; VNone])].
Proof.
  intros X code name a ps vs XS I S N R. eapply fn_accepted; [exact XS|exact I| |exact R]. eapply BlockOf; eassumption.
Qed.

(** Behind a semicolon the last expression is always taken for a statement. *)
Theorem C41_value_behind_semicolon_refuted : forall X code name ps vs h t qs v, xid_sane X -> ident_kind (fst name) = true ->
  syn Anywhere (Stmts AfterSep) ps (VList vs) -> syn Anywhere (Chain h t) qs v -> In h [Free; Called] ->
  text_reads X code (spell_fn name (ps ++ qs)) ->
  accepted_as X code [fn_of name (node "Block" [VList (vs ++ [VVar "Statement" "Expression" v]); VNone])].
Proof.
  intros X code name ps vs h t qs v XS I S C H R. eapply fn_accepted; [exact XS|exact I| |exact R].
  rewrite <- app_assoc. eapply BlockLost; eassumption.
Qed.

(** ** Concrete cases *)
Lemma plain_with l t c ps v : attributable c = Some t -> syn l c ps v -> syn l (With t c) ps (node ("Attributed<" ++ t ++ ">") [VList []; v]).
Proof. intros A S. exact (WithAttributes l t c [] ps v A (Nil _ _) S). Qed.

Lemma path_of l x : syn l PathedIdent [Word KIdent x] (node "PathedIdent" [VList [node "PathComponent" [ident (KIdent, x); VNone]]]).
Proof.
  apply (Pathed l false [([Word KIdent x], node "PathComponent" [ident (KIdent, x); VNone])]); [discriminate|].
  apply Cons; [|apply Nil]. apply ComponentPlain. apply (MemberOf l (KIdent, x)). reflexivity.
Qed.

Definition value_of (x : extent) : val := bare (expr "Value" [node "PathedIdent" [VList [node "PathComponent" [ident (KIdent, x); VNone]]]; VNone]).
Lemma value_syn l x : syn l (With "Expression" (Atom Free (AtPath (restricted l)))) [Word KIdent x] (value_of x).
Proof. apply plain_with; [reflexivity|]. apply (AtomValue l [Word KIdent x]). apply path_of. Qed.

Example C36_ex :
  let js := [Joined KPlus (13, 14) ([Word KIdent (15, 16)], value_of (15, 16)); Joined KAsterisk (17, 18) ([Word KIdent (19, 20)], value_of (19, 20))] in
  syn Anywhere (With "Expression" (Atom Free (AtPath false))) [Word KIdent (11, 12)] (value_of (11, 12)) /\
  Forall joined_ok js /\
  text_reads ascii_xid (str "const N:T= a + b * c;") (spell_const (KIdent, (6, 7)) (8, 9) ([Word KIdent (11, 12)] ++ spell_joined js)) /\
  left_nested (value_of (11, 12)) (map (fun j => (jk j, snd (jt j))) js) =
    bare (expr "Binary" [VVar "BinaryOp" "Mul" VUnit;
      bare (expr "Binary" [VVar "BinaryOp" "Add" VUnit; value_of (11, 12); value_of (15, 16)]); value_of (19, 20)]).
Proof.
  split; [exact (value_syn Anywhere (11, 12))|]. split; [|split; [text_reads_as|reflexivity]].
  apply Forall_forall. intros j J. split.
  - cbn [In] in J. destruct J as [<-|[<-|[]]]; vm_compute; tauto.
  - exists (AtPath false). split; [reflexivity|]. cbn [In] in J.
    destruct J as [<-|[<-|[]]]; cbn [jk jt fst snd]; eapply OperandAtom; exact (value_syn Anywhere _).
Qed.

Example C37_ex :
  let js := [Joined KPlus (14, 15) ([Word KIdent (16, 17)], value_of (16, 17))] in
  syn Anywhere (With "OperatorPrefix" PrefixOp) [Sym KMinus] (node "Attributed<OperatorPrefix>" [VList []; VVar "OperatorPrefix" "Negate" hole]) /\
  syn Anywhere (Operand false (AtPath false)) [Word KIdent (12, 13)] (value_of (12, 13)) /\
  prefix (VVar "OperatorPrefix" "Negate" hole) (value_of (12, 13)) (expr "Unary" [VVar "UnaryOp" "Negate" VUnit; value_of (12, 13)]) /\
  Forall joined_ok js /\
  text_reads ascii_xid (str "const N:T= -a + b;") (spell_const (KIdent, (6, 7)) (8, 9) (([Sym KMinus] ++ [Word KIdent (12, 13)]) ++ spell_joined js)).
Proof.
  split; [apply (plain_with Anywhere "OperatorPrefix" PrefixOp); [reflexivity|apply OpNegate]|].
  split; [eapply OperandAtom; exact (value_syn Anywhere _)|]. split; [apply PrefixUnary; left; reflexivity|].
  split; [|text_reads_as]. constructor; [|constructor]. split; [vm_compute; tauto|].
  exists (AtPath false). split; [reflexivity|]. eapply OperandAtom; exact (value_syn Anywhere _).
Qed.

(** [a;] *)
Lemma one_statement x : syn Anywhere (Stmts AfterSep) [Word KIdent x; Sym KSemicolon] (VList [VVar "Statement" "Expression" (value_of x)]).
Proof.
  apply (StmtsExpr Anywhere Start [] [] Free (AtPath false) [Word KIdent x] (value_of x)); [apply StmtsNil| |left; reflexivity].
  apply ChainAtom. exact (value_syn Anywhere x).
Qed.
(** [loop {}] *)
Lemma one_loop : syn Anywhere (Chain Blocky AtEnd) [Sym KLoop; Sym KLeftCurly; Sym KRightCurly]
  (bare (expr "Loop" [VNone; node "Block" [VList []; VNone]])).
Proof.
  apply ChainAtom, plain_with; [reflexivity|]. apply (AtomLoop Anywhere [] VNone); [apply Absent|].
  apply (BlockOf Anywhere Start [] []); [apply StmtsNil|discriminate].
Qed.

Example C41_ex : let n := (KIdent, (3, 4)) in exists ps vs,
  syn Anywhere (Stmts AfterBlock) ps (VList vs) /\ List.length vs = 2 /\
  syn Anywhere (Chain Free (AtPath false)) [Word KIdent (17, 18)] (value_of (17, 18)) /\
  text_reads ascii_xid (str "fn f(){a; loop{} b}") (spell_fn n (ps ++ [Word KIdent (17, 18)])) /\
  text_reads ascii_xid (str "fn f(){a; loop{}}") (spell_fn n ([Word KIdent (7, 8); Sym KSemicolon] ++ [Sym KLoop; Sym KLeftCurly; Sym KRightCurly])) /\
  text_reads ascii_xid (str "fn f(){a;}") (spell_fn n [Word KIdent (7, 8); Sym KSemicolon]) /\
  text_reads ascii_xid (str "fn f(){a; b}") (spell_fn n ([Word KIdent (7, 8); Sym KSemicolon] ++ [Word KIdent (10, 11)])).
Proof.
  eexists _, _. split; [eapply StmtsBlocky; [exact (one_statement (7, 8))|exact one_loop]|].
  split; [reflexivity|]. split; [apply ChainAtom; exact (value_syn Anywhere _)|].
  split; [text_reads_as|]. split; [text_reads_as|]. split; text_reads_as.
Qed.

(** A function with statements, control flow, calls and a closure. *)
Example C46_expressions_ex : exists its, List.length its = 1 /\ syns Anywhere (With "Item" Item) its /\
  text_reads ascii_xid (str "fn f(x: T) -> T { let y = g(x, 2)?; if y < z { return y } match x { A | B => {} _ => |c| -c } }")
    (concat (spelled its)).
Proof.
  assert (name : forall x, syn Anywhere Name [spell_word (KIdent, x)] (ident (KIdent, x))) by (intros; constructor; reflexivity).
  assert (pattern : forall l x, syn l Pattern [Word KIdent x] (node "Pattern" [VNone;
    VVar "PatternKind" "Ident" (node "PatternIdent" [VNone; VNone;
      node "PathedIdent" [VList [node "PathComponent" [ident (KIdent, x); VNone]]]; VNone])])).
  { intros l x. eapply PatternOf, PatternIdented.
    eapply (PatternIdentOf l false false [Word KIdent x] _ [] VNone); [apply path_of|reflexivity|constructor]. }
  assert (value : forall l x, syn l (Chain Free (AtPath (restricted l))) [Word KIdent x] (value_of x)).
  { intros l x. apply ChainAtom, value_syn. }
  eapply ex_intro with (x := [(_, _)]). split; [reflexivity|]. split.
  - eapply Cons; [|eapply Nil]. apply plain_with; [reflexivity|]. eapply FnItem.
    { eapply (HeaderOf Anywhere [] VNone [] _ _ _ [] VNone _ _ _ _ [] VNone);
        [apply Absent|exact (QualifiersOf Anywhere false false false false)|exact (name (3, 4))|apply Absent| | |apply Absent].
      - eapply (ArgsPlain Anywhere [(_, _)] false). eapply Cons; [|eapply Nil]. eapply ArgOf; [exact (pattern _ (5, 6))|exact (plain_ty (8, 9))].
      - eapply Present, Returns. exact (plain_ty (14, 15)). }
    eapply BlockBlocky.
    + (* let y = g(x, 2)?; if y < z { return y } *)
      eapply StmtsBlocky; [eapply (StmtsExpr Anywhere Start [] []); [apply StmtsNil| |left; reflexivity]|].
      * apply ChainAtom, plain_with; [reflexivity|]. eapply (AtomLetValue Anywhere false _ _ [] VNone); [exact (pattern _ (22, 23))|apply Absent|].
        eapply AssignedOf. cbn [braced]. eapply ExprChain; [|discriminate]. eapply (ChainTry Anywhere Free AtEnd); [|reflexivity].
        eapply (ChainCall Anywhere Free _ _ _ [(_, _); (_, _)] false); [exact (value Anywhere (26, 27))|reflexivity|].
        eapply Cons; [|eapply Cons; [|eapply Nil]]; (eapply ExprChain; [|discriminate]); [exact (value Anywhere (28, 29))|].
        apply ChainAtom, plain_with; [reflexivity|]. eapply AtomNumber, NumLitOf.
      * apply ChainAtom, plain_with; [reflexivity|]. eapply AtomIf, IfPlain.
        -- eapply (ExprChain BeforeBlock true _ (AtPath true)); [|reflexivity]. eapply (ChainInfix BeforeBlock Free (AtPath true) _ _ KLeftAngle (41, 42)); [exact (value BeforeBlock (39, 40))|reflexivity| |].
           ++ eapply OperandAtom. exact (value_syn BeforeBlock (43, 44)).
           ++ eapply InfixBinary. vm_compute. tauto.
        -- eapply (BlockValue Anywhere Start [] []); [apply StmtsNil|discriminate| |left; reflexivity].
           apply ChainAtom, plain_with; [reflexivity|]. eapply AtomReturnValue.
           eapply (ExprChain Anywhere false); [exact (value Anywhere (54, 55))|discriminate].
    + (* match x { A | B => {} _ => |c| -c } *)
      apply ChainAtom, plain_with; [reflexivity|]. eapply AtomMatchLast.
      * eapply (ExprChain BeforeBlock true); [exact (value BeforeBlock (64, 65))|reflexivity].
      * eapply ArmsBrace; [apply ArmsNil|].
        eapply (ArmBrace Anywhere [] [(_, _); (_, _)] [] VNone); [apply Nil|discriminate| |apply Absent|].
        -- eapply Cons; [exact (pattern _ (68, 69))|]. eapply Cons; [exact (pattern _ (72, 73))|eapply Nil].
        -- exact (BlockOf Anywhere Start [] [] (StmtsNil _) ltac:(discriminate)).
      * eapply (ArmExpr Anywhere [] [(_, _)] [] VNone); [apply Nil|discriminate| |apply Absent| |].
        -- eapply Cons; [exact (pattern _ (80, 81))|eapply Nil].
        -- eapply ExprChain; [|discriminate]. apply ChainAtom, plain_with; [reflexivity|].
           eapply (AtomClosure Anywhere false false [(_, _)] false false).
           ++ eapply Cons; [|eapply Nil]. eapply (ClosureArgOf Anywhere _ _ [] VNone); [exact (pattern _ (86, 87))|apply Absent].
           ++ eapply ExprChain; [|discriminate]. eapply ChainPrefix.
              ** apply (plain_with Anywhere "OperatorPrefix" PrefixOp); [reflexivity|apply OpNegate].
              ** eapply OperandAtom. exact (value_syn Anywhere (90, 91)).
              ** apply PrefixUnary. left. reflexivity.
        -- reflexivity.
  - text_reads_as.
Qed.

(** Empty statements, a separator behind an item, a path that starts with [crate] and
    a type ascription. *)
Example C46_statements_ex : exists its, List.length its = 1 /\ syns Anywhere (With "Item" Item) its /\
  text_reads ascii_xid (str "fn f() { ; crate::m!(); ; crate::g: T; }") (concat (spelled its)).
Proof.
  assert (name : forall x, syn Anywhere Name [spell_word (KIdent, x)] (ident (KIdent, x))) by (intros; constructor; reflexivity).
  assert (path : forall x y, syn Anywhere PathedIdent [Word KCrate x; Sym KDoubleColon; Word KIdent y]
    (node "PathedIdent" [VList [node "PathComponent" [ident (KCrate, x); VNone]; node "PathComponent" [ident (KIdent, y); VNone]]])).
  { intros x y. apply (Pathed Anywhere false [([Word KCrate x], _); ([Word KIdent y], _)]); [discriminate|].
    apply Cons; [|apply Cons; [|apply Nil]]; apply ComponentPlain; [apply (MemberOf Anywhere (KCrate, x))|apply (MemberOf Anywhere (KIdent, y))]; reflexivity. }
  eapply ex_intro with (x := [(_, _)]). split; [reflexivity|]. split.
  - eapply Cons; [|eapply Nil]. apply plain_with; [reflexivity|]. eapply FnItem.
    { eapply (HeaderOf Anywhere [] VNone [] _ _ _ [] VNone _ _ [] VNone [] VNone);
        [apply Absent|exact (QualifiersOf Anywhere false false false false)|exact (name (3, 4))|apply Absent| |apply Absent|apply Absent].
      eapply (ArgsPlain Anywhere [] false). apply Nil. }
    eapply (BlockOf Anywhere AfterSep); [|discriminate].
    eapply StmtsExpr; [|eapply (ChainAscription Anywhere Free (AtPath false)); [|reflexivity|exact (plain_ty (36, 37))]|left; reflexivity].
    + eapply StmtsItemSep; [eapply (StmtsEmpty Anywhere Start [] []); [apply StmtsNil|left; reflexivity]|].
      apply plain_with; [reflexivity|]. eapply MacroItemItem; [|].
      * eapply (MacroItemOf Anywhere _ _ [] VNone "Paren" KLeftParen KRightParen []); [exact (path (11, 16) (18, 19))|apply Absent|left; reflexivity|apply BL_nil].
      * reflexivity.
    + apply ChainAtom, plain_with; [reflexivity|]. apply (AtomValue Anywhere _ _ (path (26, 31) (33, 34))).
  - text_reads_as.
Qed.

Print Assumptions C36_left_nested.
Print Assumptions C37_prefix_before_infix_partial.
Print Assumptions C41_value_partial.
Print Assumptions C41_block_like_value_partial.
Print Assumptions C41_no_value_partial.
Print Assumptions C41_value_behind_semicolon_refuted.
