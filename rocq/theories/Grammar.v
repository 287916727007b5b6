(** The language in which the parser functions of src/parser are modelled, and
    its interpreter: token matching with splitting, extents, the combinators of
    src/parser/combinators.rs and the shunting yard of src/parser/expression.rs. *)

From Coq Require Import String List Arith Bool.
From Verif Require Import Base Peresil Token Schema Value Nt.
Import ListNotations.
Local Open Scope string_scope.
Local Open Scope nat_scope.

(** src/parser/expression.rs:1416-1421 [ExpressionAmbiguity]. *)
Inductive ambiguity : Type := Unambiguous | OnlyStructLiterals | Maximum.

(** src/parser/expression.rs:1423-1432. *)
Definition is_ambiguous (a : ambiguity) : bool :=
  match a with Unambiguous => false | _ => true end.

Definition is_maximum (a : ambiguity) : bool :=
  match a with Maximum => true | _ => false end.

(** * Points *)

(** src/parser/mod.rs:98-114: points are ordered by (offset, sub_offset), with
    [None < Some _]. *)
Definition sub_rank (s : option nat) : nat :=
  match s with None => 0 | Some n => S n end.

Definition pt_lt (a b : point) : bool :=
  if off a <? off b then true
  else if off a =? off b then sub_rank (sub a) <? sub_rank (sub b)
  else false.

(** src/parser/mod.rs:87-91 [Point::zero]. *)
Definition pt_zero : point := mkPt 0 None.

(** src/parser/mod.rs:530-576 [split]. *)
Definition split (t : token) (n : nat) : option (token * token) :=
  match t, n with
  | Tk KDoubleLeftAngle (s, e), 0 => Some (Tk KLeftAngle (s, s + 1), Tk KLeftAngle (s + 1, e))
  | Tk KDoubleRightAngle (s, e), 0 => Some (Tk KRightAngle (s, s + 1), Tk KRightAngle (s + 1, e))
  | Tk KShiftRightEquals (s, e), 0 =>
      Some (Tk KRightAngle (s, s + 1), Tk KGreaterThanOrEquals (s + 1, e))
  | Tk KShiftRightEquals (s, e), 1 => Some (Tk KRightAngle (s + 1, s + 2), Tk KEquals (s + 2, e))
  | Tk KGreaterThanOrEquals (s, e), 0 => Some (Tk KRightAngle (s, s + 1), Tk KEquals (s + 1, e))
  | Tk KDoublePipe (s, e), 0 => Some (Tk KPipe (s, s + 1), Tk KPipe (s + 1, e))
  | Tk KDoubleAmpersand (s, e), 0 => Some (Tk KAmpersand (s, s + 1), Tk KAmpersand (s + 1, e))
  | _, _ => None
  end.

(** The [Token::into_*] converters passed to [token]; [MNumber] is
    [Token::into_number], the others return the token's extent. *)
Inductive matcher : Type := MK (k : tkind) | MNumber.

Definition convert (m : matcher) (t : token) : option val :=
  match m, t with
  | MK k, Tk k' e => if tkind_eqb k k' then Some (VExt e) else None
  | MNumber, TkNumber n => Some (VNum n)
  | _, _ => None
  end.

(** [Token::is_*], src/tokenizer.rs (derive Decompose). *)
Definition is_kind (k : tkind) (t : token) : bool :=
  match t with Tk k' _ => tkind_eqb k k' | TkNumber _ => false end.

(** * Syntax *)

(** The closures that build results: Rust expressions over the variables bound
    by [sequence!]. *)
Inductive bexp : Type :=
| BVar (x : string)
| BEx (x : string)                       (* [pm.state.ex(x, pt)] *)
| BExTo (x y : string)                   (* [pm.state.ex(x, y)] *)
| BUnit
| BNil                                   (* [Vec::new()] *)
| BNone
| BSome (b : bexp)
| BSingle (b : bexp)                     (* [vec![b]] *)
| BIntoAppend (b : bexp)                 (* peresil [IntoAppend]: Option or Vec to Vec *)
| BUnwrapNil (b : bexp)                  (* [b.unwrap_or_else(Vec::new)] *)
| BUnwrapOr (b d : bexp)                 (* [b.unwrap_or_else(|| d)] *)
| BMk (k : string) (fs : list (string * bexp))
| BVariant (e v : string) (b : bexp)
| BPair (a b : bexp)
| BFst (b : bexp)
| BSnd (b : bexp)
| BField (f : string) (b : bexp)
| BExtentOf (b : bexp)                   (* [b.extent()] *)
| BIsSome (b : bexp)
| BOptFst (b : bexp)                     (* [b.map(|(x, _)| x)] *)
| BOptSnd (b : bexp)                     (* [b.and_then(|(_, y)| y)] *)
| BStmts (stmts term : bexp)             (* src/parser/mod.rs:946-954, [statements] *)
| BTrailing (stmts term : bexp)          (* src/parser/mod.rs:946-955, [expression] *)
| BParen (ext values : bexp)             (* src/parser/expression.rs:1119-1133 *)
| BNumber (b : bexp).                    (* src/parser/mod.rs:1057-1076 [convert_number] *)

(** Patterns on the left of the steps of [sequence!]. *)
Inductive pat : Type := PVar (x : string) | PPair (a b : pat).

(** Parsers. *)
Inductive g : Type :=
| GTok (m : matcher) (e : perror)        (* src/parser/mod.rs:478-528 [token] *)
| GNT (n : nt)                           (* a call of a parser function *)
| GPoint                                 (* peresil [point] *)
| GSeq (steps : list (pat * g)) (b : bexp) (* peresil [sequence!]; one step: [map] *)
| GAlt (gs : list g)                     (* [pm.alternate(pt).one(..)...finish()] *)
| GOpt (x : g)                           (* peresil [optional] *)
| GMany (x : g)                          (* peresil [zero_or_more] *)
| GTailed (app : bexp) (sep f : g)       (* src/parser/combinators.rs:100-126 *)
| GTailed1 (sep f : g)                   (* src/parser/combinators.rs:240-263 *)
| GResume (sep f : g)                    (* src/parser/combinators.rs:159-183 *)
| GImplicit (sep f : g)                  (* src/parser/combinators.rs:185-218 *)
| GNested (o c : tkind)                  (* src/parser/combinators.rs:17-45 *)
| GExt (x : g)                           (* src/parser/combinators.rs:7-15 *)
| GPeek (x : g)                          (* src/combinators.rs:22-39; its only use drops the value, the model yields unit *)
| GMapErr (x : g) (e : perror)           (* [Progress::map_err] with a constant *)
| GSimple (x : g) (e : perror)           (* src/parser/expression.rs:433-436 *)
| GAmb (l : ambiguity) (x : g)           (* src/parser/expression.rs:1472-1486 *)
| GIfMax (e : perror) (x : g)            (* src/parser/expression.rs:1297-1303 *)
| GIfAmb (a b : g)                       (* src/parser/expression.rs:1327-1350 *)
| GShunt (stmt : bool).                  (* src/parser/expression.rs:14-150 *)

(** src/parser/mod.rs:2551-2568 [attributed]. *)
Definition attributed (t : string) (x : g) : g :=
  GSeq
    [(PVar "spt", GPoint);
     (PVar "attributes", GMany (GNT N_attribute));
     (PVar "value", x)]
    (BMk ("Attributed<" ++ t ++ ">")
       [("extent", BEx "spt"); ("attributes", BVar "attributes"); ("value", BVar "value");
        ("whitespace", BNil)]).

(** src/parser/combinators.rs:136-154. *)
Definition tailed_values (app : bexp) (sep f : g) : g :=
  GSeq [(PVar "t", GTailed app sep f)] (BFst (BVar "t")).

(** src/parser/combinators.rs:265-271. *)
Definition tailed1_values (sep f : g) : g :=
  GSeq [(PVar "t", GTailed1 sep f)] (BFst (BVar "t")).

(** src/parser/combinators.rs:220-227. *)
Definition implicit_values (sep f : g) : g :=
  GSeq [(PVar "t", GImplicit sep f)] (BFst (BVar "t")).

(** src/parser/combinators.rs:229-238. *)
Definition implicit_values_terminated (sep f : g) : g :=
  GSeq [(PVar "t", GImplicit sep f)] (BPair (BFst (BVar "t")) (BSnd (BSnd (BVar "t")))).

(** src/ast.rs:1355-1364 [From<Expression> for Attributed<Expression>]. *)
Definition attributed_from (b : bexp) : bexp :=
  BMk "Attributed<Expression>"
    [("extent", BExtentOf b); ("attributes", BNil); ("value", b); ("whitespace", BNil)].

(** src/ast.rs:765-780 [From<Ident> for PathedIdent]. *)
Definition pathed_ident_from (b : bexp) : bexp :=
  BMk "PathedIdent"
    [("extent", BField "extent" b);
     ("components",
       BSingle (BMk "PathComponent"
         [("extent", BField "extent" b); ("ident", b); ("turbofish", BNone); ("whitespace", BNil)]));
     ("whitespace", BNil)].

(** * Results of building *)
Inductive bres (A : Type) : Type := BOk (a : A) | BAbort (w : abort).
Arguments BOk {A} a.
Arguments BAbort {A} w.

Definition bbind {A B} (r : bres A) (k : A -> bres B) : bres B :=
  match r with BOk a => k a | BAbort w => BAbort w end.

Definition env : Type := list (string * val).

(** src/ast.rs:1409-1425 [Expression::may_terminate_statement], on the
    [Attributed<Expression>] it is called through (Deref). *)
Definition may_terminate_expr (e : val) : bool :=
  match e with
  | VVar _ v p =>
      if existsb (String.eqb v)
           ["Block"; "ForLoop"; "If"; "IfLet"; "Loop"; "Match"; "UnsafeBlock"; "While"; "WhileLet"]
      then true
      else if String.eqb v "MacroCall" then
        match get_field "args" p with
        | Some (VVar _ a _) => String.eqb a "Curly"
        | _ => false
        end
      else false
  | _ => false
  end.

Definition may_terminate_statement (a : val) : bool :=
  match get_field "value" a with
  | Some e => may_terminate_expr e
  | None => false
  end.

(** src/parser/mod.rs:976-984 [ImplicitSeparator for Statement] and
    src/parser/expression.rs:1067-1074 [ImplicitSeparator for MatchArm]. *)
Definition is_implicit_separator (v : val) : bool :=
  match v with
  | VVar _ "Expression" e => may_terminate_statement e
  | VVar _ "Item" _ => true
  | VVar _ _ _ => false
  | VNode _ _ =>
      match get_field "hand" v with
      | Some (VVar _ h _) => String.eqb h "Brace"
      | _ => false
      end
  | _ => false
  end.

(** src/parser/mod.rs:946-950: the statements and the trailing expression of a
    block; [into_expression] of the popped statement. *)
Definition block_split (stmts : list val) (term : bool) : list val * val :=
  match rev stmts with
  | VVar _ "Expression" e :: before =>
      if term then (stmts, VNone) else (rev before, VSome e)
  | _ => (stmts, VNone)
  end.

(** src/parser/mod.rs:1057-1076 [convert_number]. *)
Definition radix_name (r : radix) : string :=
  match r with
  | RBinary => "Binary" | RDecimal => "Decimal"
  | RHexadecimal => "Hexadecimal" | ROctal => "Octal"
  end.

Definition vopt (o : option extent) : val :=
  match o with Some e => VSome (VExt e) | None => VNone end.

Definition convert_number (n : number) : val :=
  VNode "Number"
    [VExt (n_extent n);
     VNone;
     VVar "NumberValue" (radix_name (n_radix n))
       (VNode ("Number" ++ radix_name (n_radix n))
          [VExt (n_extent n); VExt (n_integral n); vopt (n_fractional n); vopt (n_exponent n);
           vopt (n_type_suffix n)]);
     VList []].

(** src/parser/expression.rs:1119-1133. *)
Definition paren_or_tuple (ext : extent) (values : list val) (separators : nat) : val :=
  match values, separators with
  | [v], 0 => VVar "Expression" "Parenthetical" (VNode "Parenthetical" [VExt ext; v; VList []])
  | _, _ => VVar "Expression" "Tuple" (VNode "Tuple" [VExt ext; VList values; VList []])
  end.

Fixpoint bind_pat (p : pat) (v : val) (e : env) : option env :=
  match p, v with
  | PVar x, _ => Some ((x, v) :: e)
  | PPair a b, VPair va vb =>
      match bind_pat a va e with
      | Some e' => bind_pat b vb e'
      | None => None
      end
  | PPair _ _, _ => None
  end.

(** * The shunting yard's data, src/parser/expression.rs:218-223, 479-490 *)
Inductive opk : Type := OpPrefix (v : val) | OpInfix (v : val) | OpPostfix (v : val).

Record car (A : Type) : Type := mkCar { c_val : A; c_spt : point; c_ept : point }.
Arguments mkCar {A}.
Arguments c_val {A}.
Arguments c_spt {A}.
Arguments c_ept {A}.

(** Both stacks have their top at the head of the list. *)
Record yard : Type := mkYard { y_ops : list (car opk); y_res : list (car val) }.

Inductive estate : Type :=
| SPrefix | SInfix (was_range : bool) | SPostfix | SAtom | SAtomLimited.

Inductive assoc_dir : Type := ALeft | ARight.

(** src/parser/expression.rs:246-255. *)
Definition associativity (o : opk) : assoc_dir :=
  match o with OpPrefix _ => ARight | OpInfix _ => ALeft | OpPostfix _ => ALeft end.

(** src/parser/expression.rs:257-265. *)
Definition precedence (o : opk) : nat :=
  match o with OpPrefix _ => 10 | OpInfix _ => 10 | OpPostfix _ => 10 end.

(** src/parser/expression.rs:238-244. *)
Definition should_pop (o top : opk) : bool :=
  match associativity o with
  | ALeft => precedence o <=? precedence top
  | ARight => precedence o <? precedence top
  end.

(** src/parser/expression.rs:198-206. *)
Definition is_range (v : val) : bool :=
  match v with
  | VVar _ k _ => String.eqb k "RangeInclusive" || String.eqb k "RangeExclusive"
  | _ => false
  end.

(** [ExprResult] of src/parser/expression.rs:493. *)
Inductive ares (A : Type) : Type :=
| AOk (a : A)
| AErr (p : point) (e : perror)
| AAbort (w : abort).
Arguments AOk {A} a.
Arguments AErr {A} p e.
Arguments AAbort {A} w.

Definition abind {A B} (r : ares A) (k : A -> ares B) : ares B :=
  match r with AOk a => k a | AErr p e => AErr p e | AAbort w => AAbort w end.

Definition a_of_b {A} (r : bres A) : ares A :=
  match r with BOk a => AOk a | BAbort w => AAbort w end.

(** [Expression::X(X { .. })]. *)
Definition expr_node (v k : string) (fs : list val) : val := VVar "Expression" v (VNode k fs).

(** src/ast.rs:1355-1364, [new_expr.into()]. *)
Definition into_attributed (ext : extent) (e : val) : val :=
  VNode "Attributed<Expression>" [VExt ext; VList []; e; VList []].

Section Run.
  Variable table : nt -> g.
  Variable toks : list token.

  Definition pm_t := master point perror ambiguity.
  Definition presult := progress point val perror.
  Definition gparser := parser (P := point) (E := perror) (S := ambiguity).

  (** src/parser/mod.rs:290-292. *)
  Definition recov (_ : perror) : bool := true.

  (** src/parser/mod.rs:138-142, [start_offset]. *)
  Definition start_offset (first : token) (p : point) : nat :=
    fst (token_extent first) + sub_rank (sub p).

  (** src/parser/mod.rs:130-173 [State::ex]; an index out of bounds and
      backwards points panic. *)
  Definition ex (s e : point) : bres extent :=
    match nth_error toks (off s) with
    | None => BAbort Panicked
    | Some first =>
        match off s ?= off e with
        | Lt =>
            match nth_error toks (off e - 1) with
            | None => BAbort Panicked
            | Some last =>
                BOk (start_offset first s, snd (token_extent last) + sub_rank (sub e))
            end
        | Eq =>
            match sub_rank (sub s) ?= sub_rank (sub e) with
            | Lt => BOk (start_offset first s, start_offset first e)
            | Eq => BOk (start_offset first s, start_offset first s)
            | Gt => BAbort Panicked
            end
        | Gt => BAbort Panicked
        end
    end.

  (** src/parser/mod.rs:478-528 [token]. *)
  Definition tok (m : matcher) (err : perror) : gparser val :=
    fun pm pt =>
      match nth_error toks (off pt) with
      | None => (pm, Failure pt err)
      | Some original =>
          let current :=
            match sub pt with
            | Some n =>
                match split original n with
                | Some (_, b) => Some b
                | None => None
                end
            | None => Some original
            end in
          match current with
          | None => (pm, Abort Panicked)
          | Some t =>
              match convert m t with
              | Some v => (pm, Success (mkPt (off pt + 1) None) v)
              | None =>
                  let n := sub_rank (sub pt) in
                  match split original n with
                  | Some (a, _) =>
                      match convert m a with
                      | Some v => (pm, Success (mkPt (off pt) (Some n)) v)
                      | None => (pm, Failure pt err)
                      end
                  | None => (pm, Failure pt err)
                  end
              end
          end
      end.

  (** src/parser/combinators.rs:22-40: how many tokens [parse_nested_until] skips. *)
  Fixpoint nested_skip (o c : tkind) (depth : nat) (ts : list token) : nat :=
    match ts with
    | [] => 0
    | t :: ts' =>
        if is_kind KEndOfFile t then 0
        else if is_kind o t then S (nested_skip o c (S depth) ts')
        else if is_kind c t then
          match depth with
          | 0 => 0
          | S d => S (nested_skip o c d ts')
          end
        else S (nested_skip o c depth ts')
    end.

  (** src/parser/combinators.rs:17-45. *)
  Definition nested (o c : tkind) : gparser val :=
    fun pm spt =>
      let pt := mkPt (off spt + nested_skip o c 0 (skipn (off spt) toks)) None in
      match ex spt pt with
      | BOk e => (pm, Success pt (VExt e))
      | BAbort w => (pm, Abort w)
      end.

  Definition lift_b {A B} (r : bres A) (pm : pm_t) (k : A -> pm_t * progress point B perror)
    : pm_t * progress point B perror :=
    match r with BOk a => k a | BAbort w => (pm, Abort w) end.

  Definition as_point (v : option val) : bres point :=
    match v with Some (VPoint p) => BOk p | _ => BAbort IllTyped end.

  (** Evaluation of the result-building closures at the end point [pt]. *)
  Fixpoint beval (pt : point) (e : env) (b : bexp) {struct b} : bres val :=
    match b with
    | BVar x => match assoc x e with Some v => BOk v | None => BAbort IllTyped end
    | BEx x =>
        bbind (as_point (assoc x e)) (fun p => bbind (ex p pt) (fun x => BOk (VExt x)))
    | BExTo x y =>
        bbind (as_point (assoc x e)) (fun p =>
        bbind (as_point (assoc y e)) (fun q => bbind (ex p q) (fun x => BOk (VExt x))))
    | BUnit => BOk VUnit
    | BNil => BOk (VList [])
    | BNone => BOk VNone
    | BSome b => bbind (beval pt e b) (fun v => BOk (VSome v))
    | BSingle b => bbind (beval pt e b) (fun v => BOk (VList [v]))
    | BIntoAppend b =>
        bbind (beval pt e b) (fun v =>
          match v with
          | VNone => BOk (VList [])
          | VSome v => BOk (VList [v])
          | VList l => BOk (VList l)
          | _ => BAbort IllTyped
          end)
    | BUnwrapNil b =>
        bbind (beval pt e b) (fun v =>
          match v with
          | VNone => BOk (VList [])
          | VSome v => BOk v
          | _ => BAbort IllTyped
          end)
    | BUnwrapOr b d =>
        bbind (beval pt e b) (fun v =>
          match v with
          | VNone => beval pt e d
          | VSome v => BOk v
          | _ => BAbort IllTyped
          end)
    | BMk k fs =>
        bbind ((fix go (fs : list (string * bexp)) : bres (list val) :=
                  match fs with
                  | [] => BOk []
                  | (_, b) :: fs' =>
                      bbind (beval pt e b) (fun v => bbind (go fs') (fun l => BOk (v :: l)))
                  end) fs)
              (fun l => BOk (VNode k l))
    | BVariant en v b => bbind (beval pt e b) (fun p => BOk (VVar en v p))
    | BPair a b => bbind (beval pt e a) (fun x => bbind (beval pt e b) (fun y => BOk (VPair x y)))
    | BFst b =>
        bbind (beval pt e b) (fun v => match v with VPair x _ => BOk x | _ => BAbort IllTyped end)
    | BSnd b =>
        bbind (beval pt e b) (fun v => match v with VPair _ y => BOk y | _ => BAbort IllTyped end)
    | BField f b =>
        bbind (beval pt e b) (fun v =>
          match get_field f v with Some x => BOk x | None => BAbort IllTyped end)
    | BExtentOf b =>
        bbind (beval pt e b) (fun v =>
          match extent_of v with Some x => BOk (VExt x) | None => BAbort IllTyped end)
    | BIsSome b =>
        bbind (beval pt e b) (fun v =>
          match v with
          | VNone => BOk (VBool false)
          | VSome _ => BOk (VBool true)
          | _ => BAbort IllTyped
          end)
    | BOptFst b =>
        bbind (beval pt e b) (fun v =>
          match v with
          | VNone => BOk VNone
          | VSome (VPair x _) => BOk (VSome x)
          | _ => BAbort IllTyped
          end)
    | BOptSnd b =>
        bbind (beval pt e b) (fun v =>
          match v with
          | VNone => BOk VNone
          | VSome (VPair _ y) => BOk y
          | _ => BAbort IllTyped
          end)
    | BStmts s t =>
        bbind (beval pt e s) (fun s => bbind (beval pt e t) (fun t =>
          match s, t with
          | VList l, VBool b => BOk (VList (fst (block_split l b)))
          | _, _ => BAbort IllTyped
          end))
    | BTrailing s t =>
        bbind (beval pt e s) (fun s => bbind (beval pt e t) (fun t =>
          match s, t with
          | VList l, VBool b => BOk (snd (block_split l b))
          | _, _ => BAbort IllTyped
          end))
    | BParen x t =>
        bbind (beval pt e x) (fun x => bbind (beval pt e t) (fun t =>
          match x, t with
          | VExt x, VPair (VList l) (VPair (VNat n) _) => BOk (paren_or_tuple x l n)
          | _, _ => BAbort IllTyped
          end))
    | BNumber b =>
        bbind (beval pt e b) (fun v =>
          match v with VNum n => BOk (convert_number n) | _ => BAbort IllTyped end)
    end.

  (** ** [sequence!] *)
  Fixpoint run_steps (rn : g -> env -> gparser val) (steps : list (pat * g)) (b : bexp) (e : env)
    : gparser val :=
    fun pm pt =>
      match steps with
      | [] =>
          match beval pt e b with
          | BOk v => (pm, Success pt v)
          | BAbort w => (pm, Abort w)
          end
      | (p, x) :: steps' =>
          match rn x e pm pt with
          | (pm', Success pt' v) =>
              match bind_pat p v e with
              | Some e' => run_steps rn steps' b e' pm' pt'
              | None => (pm', Abort IllTyped)
              end
          | r => r
          end
      end.

  (** ** Separated lists, src/parser/combinators.rs *)

  (** [Tailed], lines 81-85. *)
  Definition vtailed (values : list val) (count : nat) (last : bool) : val :=
    VPair (VList values) (VPair (VNat count) (VBool last)).

  (** Lines 100-126. *)
  Fixpoint tailed_loop (fuel : nat) (sep f : gparser val) (values : list val) (count : nat)
           (last : bool) : gparser val :=
    fun pm pt =>
      match fuel with
      | 0 => (pm, Abort OutOfFuel)
      | S fuel' =>
          match f pm pt with
          | (pm1, Failure p _) => (pm1, Success p (vtailed values count last))
          | (pm1, Abort w) => (pm1, Abort w)
          | (pm1, Success p v) =>
              match sep pm1 p with
              | (pm2, Failure p2 _) => (pm2, Success p2 (vtailed (values ++ [v]) count false))
              | (pm2, Abort w) => (pm2, Abort w)
              | (pm2, Success p2 _) =>
                  tailed_loop fuel' sep f (values ++ [v]) (S count) true pm2 p2
              end
          end
      end.

  (** Lines 240-263. *)
  Definition tailed1 (fuel : nat) (sep f : gparser val) : gparser val :=
    fun pm pt =>
      match f pm pt with
      | (pm1, Failure p e) => (pm1, Failure p e)
      | (pm1, Abort w) => (pm1, Abort w)
      | (pm1, Success p v) =>
          match sep pm1 p with
          | (pm2, Failure p2 _) => (pm2, Success p2 (vtailed [v] 0 false))
          | (pm2, Abort w) => (pm2, Abort w)
          | (pm2, Success p2 _) => tailed_loop fuel sep f [v] 1 false pm2 p2
          end
      end.

  (** Lines 159-183. *)
  Definition resume (fuel : nat) (sep f : gparser val) : gparser val :=
    fun pm spt =>
      match sep pm spt with
      | (pm1, Failure p _) => (pm1, Success p (VList []))
      | (pm1, Abort w) => (pm1, Abort w)
      | (pm1, Success p _) =>
          match tailed1 fuel sep f pm1 p with
          | (pm2, Failure _ _) => (pm2, Success spt (VList []))
          | (pm2, Abort w) => (pm2, Abort w)
          | (pm2, Success p2 (VPair vs _)) => (pm2, Success p2 vs)
          | (pm2, Success _ _) => (pm2, Abort IllTyped)
          end
      end.

  (** Lines 185-218. *)
  Fixpoint implicit_loop (fuel : nat) (sep f : gparser val) (values : list val) (count : nat)
           (last : bool) : gparser val :=
    fun pm pt =>
      match fuel with
      | 0 => (pm, Abort OutOfFuel)
      | S fuel' =>
          match f pm pt with
          | (pm1, Failure p _) => (pm1, Success p (vtailed values count last))
          | (pm1, Abort w) => (pm1, Abort w)
          | (pm1, Success p v) =>
              match sep pm1 p with
              | (pm2, Failure p2 _) =>
                  if is_implicit_separator v then
                    implicit_loop fuel' sep f (values ++ [v]) (S count) false pm2 p2
                  else (pm2, Success p2 (vtailed (values ++ [v]) count last))
              | (pm2, Abort w) => (pm2, Abort w)
              | (pm2, Success p2 _) =>
                  implicit_loop fuel' sep f (values ++ [v]) (S count) true pm2 p2
              end
          end
      end.

  (** ** The shunting yard, src/parser/expression.rs *)

  (** Lines 859-863 [pop_expression]. *)
  Definition pop_expression (res : list (car val)) (loc : point)
    : ares (car val * list (car val)) :=
    match res with
    | c :: res' => AOk (c, res')
    | [] => AErr loc ExpectedExpression
    end.

  (** Lines 767-792 [apply_prefix]; the new result stack is returned. *)
  Definition apply_prefix (res : list (car val)) (s e : point) (prefix : extent) (attrs : val)
             (f : extent -> val -> val) : ares (list (car val)) :=
    abind (pop_expression res s) (fun '(c, res') =>
      if pt_lt (c_ept c) s then AErr s ExpectedExpression
      else
        abind (a_of_b (ex s (c_ept c))) (fun inner =>
          AOk (mkCar
                 (VNode "Attributed<Expression>"
                    [VExt (fst prefix, snd inner); attrs; f inner (c_val c); VList []])
                 s (c_ept c) :: res'))).

  (** Lines 744-765 [apply_maybe_prefix]. *)
  Definition apply_maybe_prefix (res : list (car val)) (s e : point) (prefix : extent) (attrs : val)
             (f : extent -> val -> val) : ares (list (car val)) :=
    match res with
    | [] =>
        abind (a_of_b (ex s e)) (fun inner =>
          AOk [mkCar
                 (VNode "Attributed<Expression>"
                    [VExt (fst prefix, snd inner); attrs; f inner VNone; VList []])
                 s e])
    | _ => apply_prefix res s e prefix attrs (fun x v => f x (VSome v))
    end.

  (** Lines 822-832 [apply_infix]. *)
  Definition apply_infix (res : list (car val)) (s e : point) (f : extent -> val -> val -> val)
    : ares (list (car val)) :=
    abind (pop_expression res e) (fun '(r, res1) =>
    abind (pop_expression res1 s) (fun '(l, res2) =>
    abind (a_of_b (ex (c_spt l) (c_ept r))) (fun x =>
      AOk (mkCar (into_attributed x (f x (c_val l) (c_val r))) (c_spt l) (c_ept r) :: res2)))).

  (** Lines 807-820 [apply_maybe_infix]. *)
  Definition apply_maybe_infix (res : list (car val)) (s e : point)
             (f : extent -> val -> val -> val) : ares (list (car val)) :=
    if length res <=? 1 then
      abind (pop_expression res e) (fun '(l, res1) =>
      abind (a_of_b (ex (c_spt l) e)) (fun x =>
        AOk (mkCar (into_attributed x (f x (c_val l) VNone)) (c_spt l) e :: res1)))
    else apply_infix res s e (fun x l r => f x l (VSome r)).

  (** Lines 848-857 [apply_postfix]. *)
  Definition apply_postfix (res : list (car val)) (s e : point) (f : extent -> val -> val)
    : ares (list (car val)) :=
    abind (pop_expression res s) (fun '(c, res1) =>
    abind (a_of_b (ex (c_spt c) e)) (fun x =>
      AOk (mkCar (into_attributed x (f x (c_val c))) (c_spt c) e :: res1))).

  (** Lines 564-742 [apply_one]. *)
  Definition apply_one (res : list (car val)) (op : opk) (s e : point) : ares (list (car val)) :=
    match op with
    | OpPrefix (VNode _ [VExt x; attrs; VVar _ k p; ws]) =>
        if String.eqb k "Dereference" then
          apply_prefix res s e x attrs (fun x v => expr_node "Dereference" "Dereference" [VExt x; v; ws])
        else if String.eqb k "Reference" then
          apply_prefix res s e x attrs (fun x v => expr_node "Reference" "Reference" [VExt x; p; v; ws])
        else if String.eqb k "Box" then
          apply_prefix res s e x attrs (fun x v => expr_node "Box" "ExpressionBox" [VExt x; v; ws])
        else if String.eqb k "RangeInclusive" then
          apply_maybe_prefix res s e x attrs
            (fun x v => expr_node "RangeInclusive" "RangeInclusive" [VExt x; VNone; p; v; ws])
        else if String.eqb k "RangeExclusive" then
          apply_maybe_prefix res s e x attrs
            (fun x v => expr_node "Range" "Range" [VExt x; VNone; v; ws])
        else
          (* [Negate] and [Not], lines 623-628 and 794-805 [apply_unary] *)
          apply_prefix res s e x attrs
            (fun x v => expr_node "Unary" "Unary" [VExt x; VVar "UnaryOp" k VUnit; v; ws])
    | OpInfix (VVar _ k p) =>
        if String.eqb k "RangeInclusive" then
          apply_maybe_infix res s e
            (fun x l r => expr_node "RangeInclusive" "RangeInclusive" [VExt x; VSome l; p; r; VList []])
        else if String.eqb k "RangeExclusive" then
          apply_maybe_infix res s e
            (fun x l r => expr_node "Range" "Range" [VExt x; VSome l; r; VList []])
        else
          (* lines 630-658 and 834-846 [apply_binary]; the variants of
             [OperatorInfix] and [BinaryOp] have the same names *)
          apply_infix res s e
            (fun x l r => expr_node "Binary" "Binary" [VExt x; VVar "BinaryOp" k VUnit; l; r; VList []])
    | OpPostfix (VVar _ k p) =>
        if String.eqb k "FieldAccess" then
          apply_postfix res s e (fun x v => expr_node "FieldAccess" "FieldAccess" [VExt x; v; p; VList []])
        else if String.eqb k "Call" then
          apply_postfix res s e (fun x v => expr_node "Call" "Call" [VExt x; v; p; VList []])
        else if String.eqb k "Slice" then
          apply_postfix res s e (fun x v => expr_node "Slice" "Slice" [VExt x; v; p; VList []])
        else if String.eqb k "AsType" then
          apply_postfix res s e (fun x v => expr_node "AsType" "AsType" [VExt x; v; p; VList []])
        else if String.eqb k "Ascription" then
          apply_postfix res s e (fun x v => expr_node "Ascription" "Ascription" [VExt x; v; p; VList []])
        else
          apply_postfix res s e (fun x v => expr_node "TryOperator" "TryOperator" [VExt x; v; VList []])
    | _ => AAbort IllTyped
    end.

  (** Lines 547-555 [apply_precedence]; structural on the operator stack. *)
  Fixpoint apply_precedence (ops : list (car opk)) (res : list (car val)) (o : opk) : ares yard :=
    match ops with
    | [] => AOk (mkYard [] res)
    | top :: ops' =>
        if should_pop o (c_val top) then
          abind (apply_one res (c_val top) (c_spt top) (c_ept top)) (fun res' =>
            apply_precedence ops' res' o)
        else AOk (mkYard ops res)
    end.

  (** Lines 557-562 [apply_all]. *)
  Fixpoint apply_all (ops : list (car opk)) (res : list (car val)) : ares (list (car val)) :=
    match ops with
    | [] => AOk res
    | top :: ops' =>
        abind (apply_one res (c_val top) (c_spt top) (c_ept top)) (fun res' => apply_all ops' res')
    end.

  (** Lines 508-533 [add_prefix], [add_infix], [add_postfix]. *)
  Definition add_op (y : yard) (o : opk) (s e : point) : ares yard :=
    abind (apply_precedence (y_ops y) (y_res y) o) (fun y' =>
      AOk (mkYard (mkCar o s e :: y_ops y') (y_res y'))).

  (** Lines 503-506. *)
  Definition add_expression (y : yard) (v : val) (s e : point) : yard :=
    mkYard (y_ops y) (mkCar v s e :: y_res y).

  (** Lines 535-545 [finish]; the [assert_eq!] panics. *)
  Definition finish_yard (y : yard) (failure_point : point) : ares (car val) :=
    abind (apply_all (y_ops y) (y_res y)) (fun res =>
      match res with
      | [] => AErr failure_point ExpectedExpression
      | [c] => AOk c
      | _ => AAbort Panicked
      end).

  (** Lines 28-50, the [adapt_state] closures; [Vec::first] is the bottom of the stack. *)
  Definition adapt_state (stmt : bool) (y : yard) (s : estate) : estate :=
    match s with
    | SAtom =>
        if stmt then
          match y_ops y, rev (y_res y) with
          | [], c :: _ => if may_terminate_statement (c_val c) then SAtomLimited else s
          | _, _ => s
          end
        else s
    | _ => s
    end.

  (** Lines 17-20: how [expression] returns the outcome. *)
  Definition finish_progress (pm : pm_t) (r : ares (car val)) : pm_t * presult :=
    match r with
    | AOk c => (pm, Success (c_ept c) (c_val c))
    | AErr p e => (pm, Failure p e)
    | AAbort w => (pm, Abort w)
    end.

  Definition set_amb (pm : pm_t) (a : ambiguity) : pm_t := mkMaster (m_failures pm) a.

  (** src/parser/expression.rs:1472-1486 [set_ambiguity_level]. *)
  Definition with_amb (l : ambiguity) (p : gparser val) : gparser val :=
    fun pm pt =>
      let old := m_state pm in
      let (pm', r) := p (set_amb pm l) pt in
      (set_amb pm' old, r).

  (** Lines 67-150 [expression_shunting_yard], one iteration per unit of fuel. *)
  Fixpoint shunt_loop (fuel : nat) (prefix_or_atom infix_or_postfix postfix_limited : gparser val)
           (stmt : bool) (y : yard) (s : estate) : gparser val :=
    fun pm pt =>
      match fuel with
      | 0 => (pm, Abort OutOfFuel)
      | S fuel' =>
          let continue pm y s pt :=
            shunt_loop fuel' prefix_or_atom infix_or_postfix postfix_limited stmt y
              (adapt_state stmt y s) pm pt in
          let add pm o s next pt :=
            match add_op y o s pt with
            | AOk y' => continue pm y' next pt
            | AErr p e => (pm, Failure p e)
            | AAbort w => (pm, Abort w)
            end in
          match s with
          | SPrefix | SInfix _ =>
              let upgrade :=
                match s with SInfix was_range => is_ambiguous (m_state pm) && was_range | _ => false end in
              match (if upgrade then with_amb Maximum prefix_or_atom else prefix_or_atom) pm pt with
              | (pm1, Success p (VVar _ "Prefix" op)) => add pm1 (OpPrefix op) pt SPrefix p
              | (pm1, Success p (VVar _ "Atom" v)) =>
                  continue pm1 (add_expression y v pt p) SAtom p
              | (pm1, Success _ _) => (pm1, Abort IllTyped)
              | (pm1, Failure p _) => finish_progress pm1 (finish_yard y p)
              | (pm1, Abort w) => (pm1, Abort w)
              end
          | SPostfix | SAtom =>
              match infix_or_postfix pm pt with
              | (pm1, Success p (VVar _ "Infix" op)) =>
                  add pm1 (OpInfix op) pt (SInfix (is_range op)) p
              | (pm1, Success p (VVar _ "Postfix" op)) => add pm1 (OpPostfix op) pt SPostfix p
              | (pm1, Success _ _) => (pm1, Abort IllTyped)
              | (pm1, Failure p _) => finish_progress pm1 (finish_yard y p)
              | (pm1, Abort w) => (pm1, Abort w)
              end
          | SAtomLimited =>
              match postfix_limited pm pt with
              | (pm1, Success p op) => add pm1 (OpPostfix op) pt SPostfix p
              | (pm1, Failure p _) => finish_progress pm1 (finish_yard y p)
              | (pm1, Abort w) => (pm1, Abort w)
              end
          end
      end.

  Definition vopt_val (o : option val) : val :=
    match o with Some v => VSome v | None => VNone end.

  (** ** The interpreter *)
  Fixpoint run (fuel : nat) (x : g) (e : env) {struct fuel} : gparser val :=
    fun pm pt =>
      match fuel with
      | 0 => (pm, Abort OutOfFuel)
      | S fuel' =>
          match x with
          | GTok m err => tok m err pm pt
          | GNT n => run fuel' (table n) [] pm pt
          | GPoint => (pm, Success pt (VPoint pt))
          | GSeq steps b => run_steps (run fuel') steps b e pm pt
          | GAlt gs => alternate pt_lt recov (map (fun x => run fuel' x e) gs) pm pt
          | GOpt x => map_p (optional pt_lt recov (run fuel' x e)) vopt_val pm pt
          | GMany x => map_p (zero_or_more pt_lt recov fuel' (run fuel' x e)) VList pm pt
          | GTailed app sep f =>
              match beval pt e app with
              | BOk (VList l) =>
                  tailed_loop fuel' (run fuel' sep e) (run fuel' f e) l 0 false pm pt
              | BOk _ => (pm, Abort IllTyped)
              | BAbort w => (pm, Abort w)
              end
          | GTailed1 sep f => tailed1 fuel' (run fuel' sep e) (run fuel' f e) pm pt
          | GResume sep f => resume fuel' (run fuel' sep e) (run fuel' f e) pm pt
          | GImplicit sep f =>
              implicit_loop fuel' (run fuel' sep e) (run fuel' f e) [] 0 false pm pt
          | GNested o c => nested o c pm pt
          | GExt x =>
              match run fuel' x e pm pt with
              | (pm', Success pt' _) =>
                  match ex pt pt' with
                  | BOk r => (pm', Success pt' (VExt r))
                  | BAbort w => (pm', Abort w)
                  end
              | r => r
              end
          | GPeek x => map_p (peek (run fuel' x e)) (fun _ => VUnit) pm pt
          | GMapErr x err =>
              match run fuel' x e pm pt with
              | (pm', Failure pt' _) => (pm', Failure pt' err)
              | r => r
              end
          | GSimple x err =>
              match run fuel' x e pm pt with
              | (pm', Success pt' (VNum n)) =>
                  match into_simple n with
                  | Some r => (pm', Success pt' (VExt r))
                  | None => (pm', Failure pt err)
                  end
              | (pm', Success _ _) => (pm', Abort IllTyped)
              | r => r
              end
          | GAmb l x => with_amb l (run fuel' x e) pm pt
          | GIfMax err x =>
              if is_maximum (m_state pm) then (pm, Failure pt err) else run fuel' x e pm pt
          | GIfAmb a b =>
              if is_ambiguous (m_state pm) then run fuel' a e pm pt else run fuel' b e pm pt
          | GShunt stmt =>
              shunt_loop fuel' (run fuel' (GNT N_expression_prefix_or_atom) [])
                (run fuel' (GNT N_expression_infix_or_postfix) [])
                (run fuel' (GNT N_operator_postfix_limited) []) stmt (mkYard [] []) SPrefix pm pt
          end
      end.
End Run.
