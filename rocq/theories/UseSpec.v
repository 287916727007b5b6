(** Specification for C43: use declarations, their spelling, and the AST nodes
    that stand for them. *)

From Coq Require Import String List.
From Verif Require Import Base Token Schema Value OutlineSpec.
Import ListNotations.
Local Open Scope string_scope.
Local Open Scope list_scope.

(** [a::b::c as d], [a::*], [a::{b, c::d}]. *)
Inductive use_tree : Type := Use (path : list word) (tail : use_tail)
with use_tail : Type :=
| UseName (name : word) (rename : option word)
| UseGlob
| UseMulti (trees : list use_tree) (trailing_comma : bool).

Fixpoint spell_use (t : use_tree) : list piece :=
  match t with
  | Use path tail => flat_map (fun w => [spell_word w; Sym KDoubleColon]) path ++ spell_tail tail
  end
with spell_tail (t : use_tail) : list piece :=
  match t with
  | UseName n None => [spell_word n]
  | UseName n (Some r) => [spell_word n; Sym KAs; spell_word r]
  | UseGlob => [Sym KAsterisk]
  | UseMulti ts trailing => Sym KLeftCurly :: commas (map spell_use ts) trailing ++ [Sym KRightCurly]
  end.

(** Path segments may be [crate]; the names at the end may not. *)
Inductive use_ok : use_tree -> Prop :=
| UO path tail : Forall (fun w => member_kind (fst w) = true) path -> tail_ok tail -> use_ok (Use path tail)
with tail_ok : use_tail -> Prop :=
| TO_name n r : ident_kind (fst n) = true -> (forall w, r = Some w -> ident_kind (fst w) = true) -> tail_ok (UseName n r)
| TO_glob : tail_ok UseGlob
| TO_multi ts c : (forall t, In t ts -> use_ok t) -> tail_ok (UseMulti ts c).

(** The AST of a tree. *)
Fixpoint ast_use (t : use_tree) : val :=
  match t with Use path tail => node "UsePath" [VList (map ident path); ast_tail tail] end
with ast_tail (t : use_tail) : val :=
  match t with
  | UseName n r => VVar "UseTail" "Ident" (node "UseTailIdent" [ident n; vopt_of ident r])
  | UseGlob => VVar "UseTail" "Glob" (VNode "UseTailGlob" [hole])
  | UseMulti ts _ => VVar "UseTail" "Multi" (node "UseTailMulti" [VList (map ast_use ts)])
  end.
