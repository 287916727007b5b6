(** What [{:#?}] prints for a syntax tree: the derived [Debug] of the types of src/ast.rs
    and of [Extent] (src/lib.rs:153-154), in the format of the standard library. *)

From Coq Require Import String Ascii List Bool Arith NArith.
From Verif Require Import Base Token Schema Value Apportion Lib Whitespace Tools.
Import ListNotations.
Local Open Scope string_scope.
Local Open Scope list_scope.

(** The name of a type without its parameter: [Attributed<T>] derives [Debug] once
    (src/ast.rs:1297). *)
Fixpoint type_name (k : string) : string :=
  match k with
  | EmptyString => EmptyString
  | String c k' => if Ascii.eqb c "<" then EmptyString else String c (type_name k')
  end.

(** A new line at depth [d]. *)
Definition line_at (d : nat) : text := 10%N :: repeat 32%N (4 * d).

(** Variants without anything in them. *)
Definition bare_variant (e x : string) : bool :=
  match enum_variants e with Some vs => match assoc x vs with Some None => true | _ => false end | None => false end.

(** [debug_struct], [debug_tuple] and [debug_list] of the standard library with the
    alternate flag: one field or element to a line, four spaces for each level, a comma
    behind each; empty lists are [].  Boxes print what is in them.  Points and numbers of
    the tokenizer are in no tree. *)
Fixpoint debug (d : nat) (v : val) : text :=
  match v with
  | VExt e => str "Extent(" ++ line_at (S d) ++ digits (fst e) ++ str "," ++ line_at (S d) ++ digits (snd e) ++ str "," ++ line_at d ++ str ")"
  | VBool b => str (if b then "true" else "false")
  | VNat n => digits n
  | VPoint _ | VNum _ => []
  | VUnit => str "()"
  | VNone => str "None"
  | VSome x => str "Some(" ++ line_at (S d) ++ debug (S d) x ++ str "," ++ line_at d ++ str ")"
  | VList l =>
      match l with
      | [] => str "[]"
      | _ => str "[" ++ flat_map (fun x => line_at (S d) ++ debug (S d) x ++ str ",") l ++ line_at d ++ str "]"
      end
  | VPair a b => str "(" ++ line_at (S d) ++ debug (S d) a ++ str "," ++ line_at (S d) ++ debug (S d) b ++ str "," ++ line_at d ++ str ")"
  | VNode k fs =>
      str (type_name k) ++ str " {" ++
      (fix go (fs : list val) (fields : list (string * ty * bool)) : text :=
         match fs, fields with
         | x :: fs', (f, _, _) :: fields' => line_at (S d) ++ str f ++ str ": " ++ debug (S d) x ++ str "," ++ go fs' fields'
         | _, _ => []
         end) fs (fields_of k) ++ line_at d ++ str "}"
  | VVar e x p => if bare_variant e x then str x else str x ++ str "(" ++ line_at (S d) ++ debug (S d) p ++ str "," ++ line_at d ++ str ")"
  end.

(** What stands on the standard output after what a program has printed ([println!] puts a
    line break behind it).  The lines of the tokenizer program are in
    Listing.v. *)
Definition printed_text (p : printed) : text :=
  match p with Out line => line ++ [10%N] | OutDebug v => debug 0 v ++ [10%N] | Err _ | OutToken _ _ _ _ => [] end.
Definition stdout_text (l : list printed) : text := flat_map printed_text l.
