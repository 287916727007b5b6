(** Visitors: src/visit.rs, the [Visit] implementations generated by
    fuzzy-pickles-derive/src/lib.rs:49-141 and by [visit_attributed!]
    (src/ast.rs:1316-1339). *)

From Coq Require Import String List Bool Arith.
From Verif Require Import Base Token Schema Value.
Import ListNotations.
Local Open Scope string_scope.

(** src/visit.rs:99-103 [Control]. *)
Inductive control : Type := Continue | Break.

(** Whether a struct is an instance of [Attributed], which has its own
    traversal. *)
Definition is_attributed (k : string) : bool := String.prefix "Attributed<" k.

Section Visit.
  (** A visitor: its state, and its [visit_*] and [exit_*] methods, which are
      told the type of the node and the node. *)
  Variable S : Type.
  Variable enter : S -> string -> val -> S * control.
  Variable leave : S -> string -> val -> S.

  (** [Visit::visit].  Structs and enums: fuzzy-pickles-derive/src/lib.rs:62-70;
      [Attributed]: src/ast.rs:1318-1327; [Option] and [Vec]: src/visit.rs:36-80;
      [Extent]: src/visit.rs:85-95. *)
  Fixpoint visit (v : val) (s : S) {struct v} : S :=
    match v with
    | VSome x => visit x s
    | VList l => (fix go (l : list val) (s : S) : S :=
                    match l with [] => s | x :: l' => go l' (visit x s) end) l s
    | VNode k fs =>
        let (s1, c) := enter s k v in
        let children := (fix go (fs : list val) (fields : list (string * ty * bool)) (s : S) : S :=
           match fs, fields with
           | x :: fs', (_, _, visited) :: fields' => go fs' fields' (if visited then visit x s else s)
           | _, _ => s
           end) fs (match struct_fields k with Some f => f | None => [] end) in
        let s2 :=
          if is_attributed k then children s1
          else match c with Continue => children s1 | Break => s1 end in
        leave s2 k v
    | VVar e _ p =>
        let (s1, c) := enter s e v in
        leave (match c with Continue => visit p s1 | Break => s1 end) e v
    | _ => s
    end.
End Visit.
