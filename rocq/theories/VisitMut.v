(** Mutable visitors: [VisitorMut] and [Visit::visit_mut] of src/visit.rs, the
    implementations generated by fuzzy-pickles-derive/src/lib.rs:72-80 and by
    [visit_attributed!] (src/ast.rs:1329-1337). *)

From Coq Require Import String List Bool Arith.
From Verif Require Import Base Peresil Token Schema Value Grammar Visit.
Import ListNotations.
Local Open Scope string_scope.

Section VisitMut.
  (** A visitor (src/visit.rs:535-941 [VisitorMut]): its state, and its [visit_*] and
      [exit_*] methods.  They are told the type of the node and the node and leave
      another in its place ([&mut]); they may panic. *)
  Variable S : Type.
  Variable enter : S -> string -> val -> bres (S * val * control).
  Variable leave : S -> string -> val -> bres (S * val).

  Section Parts.
    Variable visit : val -> S -> bres (val * S).

    (** src/visit.rs:72-79: the elements of a [Vec]. *)
    Fixpoint visit_elements (l : list val) (s : S) : bres (list val * S) :=
      match l with
      | [] => BOk ([], s)
      | x :: l' => bbind (visit x s) (fun '(x', s1) => bbind (visit_elements l' s1) (fun '(r, s2) => BOk (x' :: r, s2)))
      end.

    (** fuzzy-pickles-derive/src/lib.rs:122-139: the fields of a struct that are not
        marked [#[visit(ignore)]]. *)
    Fixpoint visit_fields (fs : list val) (fields : list (string * ty * bool)) (s : S) : bres (list val * S) :=
      match fs, fields with
      | [], [] => BOk ([], s)
      | x :: fs', (_, _, visited) :: fields' =>
          bbind (if visited then visit x s else BOk (x, s)) (fun '(x', s1) =>
          bbind (visit_fields fs' fields' s1) (fun '(r, s2) => BOk (x' :: r, s2)))
      | _, _ => BAbort IllTyped
      end.

    (** [Visit::visit_mut]: structs and enums: fuzzy-pickles-derive/src/lib.rs:72-80,
        104-118; [Attributed]: src/ast.rs:1329-1337; [Box], [Option] and [Vec]:
        src/visit.rs:28-79; [Extent]: src/visit.rs:91-94. *)
    Definition visit_value (v : val) (s : S) : bres (val * S) :=
      match v with
      | VSome x => bbind (visit x s) (fun '(x', s') => BOk (VSome x', s'))
      | VList l => bbind (visit_elements l s) (fun '(l', s') => BOk (VList l', s'))
      | VNode k _ =>
          bbind (enter s k v) (fun '(s1, v1, c) =>
          bbind (match v1 with
                 | VNode k1 fs1 =>
                     if String.eqb k1 k then
                       if is_attributed k || match c with Continue => true | Break => false end then
                         match struct_fields k with
                         | Some fields => bbind (visit_fields fs1 fields s1) (fun '(fs2, s2) => BOk (VNode k fs2, s2))
                         | None => BAbort IllTyped
                         end
                       else BOk (v1, s1)
                     else BAbort IllTyped
                 | _ => BAbort IllTyped
                 end) (fun '(v2, s2) => bbind (leave s2 k v2) (fun '(s3, v3) => BOk (v3, s3))))
      | VVar e _ _ =>
          bbind (enter s e v) (fun '(s1, v1, c) =>
          bbind (match v1 with
                 | VVar e1 x1 p1 =>
                     if String.eqb e1 e then
                       match c with
                       | Continue => bbind (visit p1 s1) (fun '(p2, s2) => BOk (VVar e x1 p2, s2))
                       | Break => BOk (v1, s1)
                       end
                     else BAbort IllTyped
                 | _ => BAbort IllTyped
                 end) (fun '(v2, s2) => bbind (leave s2 e v2) (fun '(s3, v3) => BOk (v3, s3))))
      | _ => BOk (v, s)
      end.
  End Parts.

  (** [Visit::visit_mut] again (lines as above).  What is visited behind
      [visit_*] is what that method left in the node, so the traversal need not come to
      an end and the model takes fuel. *)
  Fixpoint visit_mut (fuel : nat) : val -> S -> bres (val * S) :=
    match fuel with
    | 0 => fun _ _ => BAbort OutOfFuel
    | Datatypes.S n => visit_value (visit_mut n)
    end.
End VisitMut.
