(** Properties of [parse_rust_file] that the code does not have: C26, C28, C37,
    C41 and C47.  Each refutation exhibits an accepted text and what is wrong with
    its AST.  [nodes] (Whitespace.v) lists the nodes of an AST, [outline]
    (OutlineSpec.v) forgets extents and whitespace. *)

From Coq Require Import String List NArith Arith Bool Lia.
From Verif Require Import Base Peresil Token Tokenizer Schema Value Nt Grammar Table Lib FileSpec Whitespace OutlineSpec.
Import ListNotations.
Local Open Scope string_scope.
Local Open Scope list_scope.
Local Open Scope nat_scope.

(** ** C26: the empty bounds of [where T: {] are placed at the brace, behind the
    clause they belong to. *)
Theorem C26_child_within_parent_refuted : exists code f n m e d,
  parse_rust_file ascii_xid code = FileOk f /\ In n (nodes f) /\ In m (below n) /\
  extent_of n = Some e /\ extent_of m = Some d /\ snd e < snd d.
Proof.
  exists (str "struct S where T: {a:u8}").
  assert (X : exists f, parse_rust_file ascii_xid (str "struct S where T: {a:u8}") = FileOk f /\
    existsb (fun n => existsb (fun m => match extent_of n, extent_of m with Some e, Some d => snd e <? snd d | _, _ => false end) (below n)) (nodes f) = true).
  { eexists. split; vm_compute; reflexivity. }
  destruct X as (f & P & X). apply existsb_exists in X as (n & I & X). apply existsb_exists in X as (m & J & X).
  destruct (extent_of n) as [e|] eqn:E; [|discriminate]. destruct (extent_of m) as [d|] eqn:D; [|discriminate].
  apply Nat.ltb_lt in X. exists f, n, m, e, d. auto 8.
Qed.

(** ** C28: the [pub] in [struct S { pub }] is in no part of the AST, which is
    that of the text without it. *)
Theorem C28_token_dropped_refuted : exists code ts f code' ts' f',
  tokenize ascii_xid code = TokOk ts /\ parse_rust_file ascii_xid code = FileOk f /\
  tokenize ascii_xid code' = TokOk ts' /\ parse_rust_file ascii_xid code' = FileOk f' /\
  List.length (solid ts) = List.length (solid ts') + 1 /\ outline f = outline f'.
Proof.
  exists (str "struct S{pub}"). do 2 eexists. exists (str "struct S{}"). do 2 eexists.
  do 5 (split; [vm_compute; reflexivity|]). vm_compute. reflexivity.
Qed.

(** ** C37: [*] does not bind tighter than [+], and [-] binds tighter than [.] and
    [+] than [.]: in each text the operator written first is applied first. *)
Definition expression (f : val) : option val :=
  match nodes f with
  | VNode "File" (VList [VNode "Attributed<Item>" (_ :: _ :: VVar _ _ (VNode "Const" fs) :: _)] :: _) :: _ =>
      Some (last (removelast fs) VUnit)
  | _ => None
  end.

Definition binary (op : string) (l r : val) : val :=
  node "Attributed<Expression>" [VList []; VVar "Expression" "Binary" (node "Binary" [VVar "BinaryOp" op VUnit; l; r])].

Theorem C37_product_in_sum_refuted : exists f e a b c,
  parse_rust_file ascii_xid (str "const C:u8=1+2*3;") = FileOk f /\ expression f = Some e /\
  outline e = binary "Mul" (binary "Add" a b) c.
Proof. do 5 eexists. split; [vm_compute; reflexivity|]. split; vm_compute; reflexivity. Qed.

Theorem C37_field_of_sum_refuted : exists f e a b c,
  parse_rust_file ascii_xid (str "const C:u8=a+b.c;") = FileOk f /\ expression f = Some e /\
  outline e = node "Attributed<Expression>" [VList []; VVar "Expression" "FieldAccess" (node "FieldAccess" [binary "Add" a b; c])].
Proof. do 5 eexists. split; [vm_compute; reflexivity|]. split; vm_compute; reflexivity. Qed.

Theorem C37_field_of_negation_refuted : exists f e a c,
  parse_rust_file ascii_xid (str "const C:u8=-a.c;") = FileOk f /\ expression f = Some e /\
  outline e = node "Attributed<Expression>" [VList []; VVar "Expression" "FieldAccess" (node "FieldAccess" [
    node "Attributed<Expression>" [VList []; VVar "Expression" "Unary" (node "Unary" [VVar "UnaryOp" "Negate" VUnit; a])]; c])].
Proof. do 4 eexists. split; [vm_compute; reflexivity|]. split; vm_compute; reflexivity. Qed.

(** ** C41: the block of [{a;b}] has no value, and two statements. *)
Theorem C41_trailing_expression_refuted : exists f a b,
  parse_rust_file ascii_xid (str "fn f(){a;b}") = FileOk f /\
  In (node "Block" [VList [VVar "Statement" "Expression" a; VVar "Statement" "Expression" b]; VNone]) (nodes (outline f)).
Proof.
  do 3 eexists. split; [vm_compute; reflexivity|]. vm_compute. repeat (first [left; reflexivity|right]).
Qed.

(** ** C47: texts that are read otherwise than Rust reads them. *)

(** In [struct S(crate::T);] the keyword is taken for a visibility, and the type is [::T]. *)
Theorem C47_crate_path_refuted : exists f x,
  parse_rust_file ascii_xid (str "struct S(crate::T);") = FileOk f /\
  In (node "StructDefinitionFieldUnnamed" [VSome (VVar "Visibility" "Crate" hole);
    node "Type" [VVar "TypeKind" "Named" (node "TypeNamed" [VList [node "TypeNamedComponent" [x; VNone]]]); VList []]]) (nodes (outline f)).
Proof. do 2 eexists. split; [vm_compute; reflexivity|]. vm_compute. repeat (first [left; reflexivity|right]). Qed.

(** The attribute of a generic parameter is dropped: the tree is that of the text without it. *)
Theorem C47_generic_attribute_refuted : exists f f',
  parse_rust_file ascii_xid (str "fn f<#[a]T>(){}") = FileOk f /\ parse_rust_file ascii_xid (str "fn f<    T>(){}") = FileOk f' /\
  outline f = outline f'.
Proof. do 2 eexists. split; [vm_compute; reflexivity|]. split; vm_compute; reflexivity. Qed.

(** No comma is needed behind [self]. *)
Theorem C47_self_without_comma_refuted : exists f f',
  parse_rust_file ascii_xid (str "fn f(self  x:u8){}") = FileOk f /\ parse_rust_file ascii_xid (str "fn f(self, x:u8){}") = FileOk f' /\
  outline f = outline f'.
Proof. do 2 eexists. split; [vm_compute; reflexivity|]. split; vm_compute; reflexivity. Qed.

(** The second index of [x.0.1] is read as part of a number. *)
Theorem C47_nested_index_refuted : exists l e f,
  parse_rust_file ascii_xid (str "const C:u8=x.0.1;") = FileErr l e /\ parse_rust_file ascii_xid (str "const C:u8=x.0 .1;") = FileOk f.
Proof. do 3 eexists. split; vm_compute; reflexivity. Qed.

Print Assumptions C26_child_within_parent_refuted.
Print Assumptions C28_token_dropped_refuted.
Print Assumptions C37_product_in_sum_refuted.
Print Assumptions C37_field_of_sum_refuted.
Print Assumptions C37_field_of_negation_refuted.
Print Assumptions C41_trailing_expression_refuted.
Print Assumptions C47_crate_path_refuted.
Print Assumptions C47_generic_attribute_refuted.
Print Assumptions C47_self_without_comma_refuted.
Print Assumptions C47_nested_index_refuted.
