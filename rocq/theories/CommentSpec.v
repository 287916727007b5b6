(** Block comments as Rust reads them (the lexer of rustc): inside a comment every
    [/*] opens another one, which the next unmatched [*/] closes.  This does not
    refer to the tokenizer. *)

From Coq Require Import List NArith.
From Verif Require Import Base.
Import ListNotations.

(** What is left behind the closer of a comment, of which [d] inner ones are open and
    which continues with [s]; nothing if it is not closed. *)
Fixpoint rust_block (d : nat) (s : text) : option text :=
  match s with
  | [] => None
  | c :: s1 =>
      match s1 with
      | [] => None
      | c' :: r =>
          if ((c =? 47) && (c' =? 42))%N%bool then rust_block (S d) r
          else if ((c =? 42) && (c' =? 47))%N%bool then match d with 0 => Some r | S d' => rust_block d' r end
          else rust_block d s1
      end
  end.
