(** What the whitespace apportioner does to a well-typed tree. *)

From Coq Require Import String List Arith Bool Lia Permutation Sorted.
From Verif Require Import Base Peresil Token Schema Value Grammar Points Apportion.
Import ListNotations.
Local Open Scope string_scope.
Local Open Scope list_scope.
Local Open Scope nat_scope.

(** * Vocabulary *)

(** The types with a whitespace vector that the apportioner does not fill. *)
Definition unhandled : list string :=
  ["AsyncBlock"; "TypeDynTrait"; "GenericDeclarationConst"; "Attributed<GenericDeclarationConst>";
   "AssociatedTypeValueEqual"; "AssociatedTypeValueBound"].

(** The types whose nodes collect whitespace: those of the AST with an extent
    and a whitespace vector, but for the exceptions above. *)
Definition collects (k : string) : bool :=
  match assoc k structs with
  | Some fields =>
      match field_index "extent" fields, field_index "whitespace" fields with
      | Some _, Some _ => negb (existsb (String.eqb k) unhandled)
      | _, _ => false
      end
  | None => false
  end.

(** The values in the fields of a struct that visitors reach. *)
Fixpoint reached (fs : list val) (fields : list (string * ty * bool)) : list val :=
  match fs, fields with
  | x :: fs', (_, _, visited) :: fields' =>
      if visited then x :: reached fs' fields' else reached fs' fields'
  | _, _ => []
  end.

Definition fields_of (k : string) : list (string * ty * bool) :=
  match struct_fields k with Some f => f | None => [] end.

(** The structs that visitors reach in a value, parents before children. *)
Fixpoint nodes (v : val) : list val :=
  match v with
  | VSome x => nodes x
  | VList l => flat_map nodes l
  | VVar _ _ p => nodes p
  | VNode k fs =>
      v :: (fix go (fs : list val) (fields : list (string * ty * bool)) : list val :=
              match fs, fields with
              | x :: fs', (_, _, visited) :: fields' =>
                  if visited then nodes x ++ go fs' fields' else go fs' fields'
              | _, _ => []
              end) fs (fields_of k)
  | _ => []
  end.

(** The nodes strictly below a struct. *)
Definition below (n : val) : list val := tl (nodes n).

(** The extent from which a node collects whitespace, if it does. *)
Definition collector (n : val) : option extent :=
  match n with VNode k fs => if collects k then extent_of n else None | _ => None end.

Definition contains (e : extent) (k : nat) : bool := (fst e <=? k) && (k <? snd e).

(** Some node of the list collects what starts at [k]. *)
Definition collected (k : nat) (ns : list val) : bool :=
  existsb (fun n => match collector n with Some e => contains e k | None => false end) ns.

(** The whitespace entries stored anywhere in a value. *)
Fixpoint whitespaces (v : val) : list val :=
  match v with
  | VSome x => whitespaces x
  | VList l => flat_map whitespaces l
  | VPair a b => whitespaces a ++ whitespaces b
  | VNode _ fs => flat_map whitespaces fs
  | VVar e _ p => if String.eqb e "Whitespace" then [v] else whitespaces p
  | _ => []
  end.

(** The whitespace vector of a node. *)
Definition whitespace_of (n : val) : list val :=
  match get_field "whitespace" n with Some (VList l) => l | _ => [] end.

Definition start_of (v : val) : nat := match extent_of v with Some e => fst e | None => 0 end.

(** The value with all its whitespace vectors emptied. *)
Fixpoint strip (v : val) : val :=
  match v with
  | VSome x => VSome (strip x)
  | VList l => VList (map strip l)
  | VVar e k p => VVar e k (strip p)
  | VNode k fs =>
      VNode k ((fix go (fs : list val) (fields : list (string * ty * bool)) : list val :=
                  match fs, fields with
                  | x :: fs', (f, _, _) :: fields' =>
                      (if String.eqb f "whitespace" then VList [] else strip x) :: go fs' fields'
                  | x :: fs', [] => strip x :: go fs' []
                  | [], _ => []
                  end) fs (fields_of k))
  | _ => v
  end.

(** A node's whitespace vector holds, in source order, entries that start in
    the node and in no node below it that collects whitespace. *)
Definition placed (n : val) : Prop :=
  StronglySorted (fun a b => start_of a < start_of b) (whitespace_of n) /\
  forall w, In w (whitespace_of n) ->
    (exists e, collector n = Some e /\ contains e (start_of w) = true) /\
    collected (start_of w) (below n) = false.
