(** What the program in tokenizer/src/main.rs writes for each token: the derived [Debug] of
    [Token], [Number] and the structs of numbers (src/tokenizer.rs:10, 249, 289), and the
    text, as it is or with [Debug] of [str]. *)

From Coq Require Import String Ascii List Bool Arith NArith HexadecimalString.
From Verif Require Import Base Token Schema Value Grammar Lib Accessors TokenMethods Tokenizer Tools Report.
Import ListNotations.
Local Open Scope string_scope.
Local Open Scope list_scope.

(** [{:?}] of [Extent] (src/lib.rs:153-154) and of options of it. *)
Definition extent_debug (e : extent) : text := str "Extent(" ++ digits (fst e) ++ str ", " ++ digits (snd e) ++ str ")".
Definition option_debug (o : option extent) : text :=
  match o with None => str "None" | Some e => str "Some(" ++ extent_debug e ++ str ")" end.

(** src/tokenizer.rs:287-319 and 249-255. *)
Definition number_debug (n : number) : text :=
  str (radix_name (n_radix n)) ++ str "(" ++ str "Number" ++ str (radix_name (n_radix n)) ++ str " { extent: " ++ extent_debug (n_extent n) ++
  str ", integral: " ++ extent_debug (n_integral n) ++ str ", fractional: " ++ option_debug (n_fractional n) ++
  str ", exponent: " ++ option_debug (n_exponent n) ++ str ", type_suffix: " ++ option_debug (n_type_suffix n) ++
  str ", underscores: " ++ digits (n_underscores n) ++ str " })".

(** src/tokenizer.rs:10-131. *)
Definition token_debug (t : token) : text :=
  match t with
  | Tk k e => str (kind_name k) ++ str "(" ++ extent_debug e ++ str ")"
  | TkNumber n => str "Number(" ++ number_debug n ++ str ")"
  end.

(** [{: >30}]. *)
Definition pad30 (t : text) : text := repeat 32%N (30 - List.length t) ++ t.

(** Lower case hexadecimal digits, as in the escapes [\u{..}]. *)
Definition hex (c : char) : text := str (NilEmpty.string_of_uint (N.to_hex_uint c)).

Section Listing.
  (** The tables of the standard library that say which characters [Debug] leaves as they
      are (those that are printable and do not extend the one before them). *)
  Variable printable : char -> bool.

  (** [char::escape_debug] as [Debug] of [str] uses it: the single quote is left alone. *)
  Definition escaped (c : char) : text :=
    if N.eqb c 34 then [92; 34]%N else if N.eqb c 92 then [92; 92]%N
    else if N.eqb c 10 then [92; 110]%N else if N.eqb c 13 then [92; 114]%N
    else if N.eqb c 9 then [92; 116]%N else if N.eqb c 0 then [92; 48]%N
    else if printable c then [c] else [92; 117; 123]%N ++ hex c ++ [125%N].
  Definition str_debug (t : text) : text := [34%N] ++ flat_map escaped t ++ [34%N].

  (** tokenizer/src/main.rs:22-32, one turn of the loop. *)
  Definition token_line (i : nat) (t : token) (w : text) (quoted : bool) : text :=
    digits i ++ str " " ++ pad30 (token_debug t) ++ str " | " ++ (if quoted then str_debug w else w) ++ [10%N].

  (** What the lines for tokens look like on the standard output. *)
  Definition listed (p : printed) : text :=
    match p with OutToken i t w quoted => token_line i t w quoted | Out line => line ++ [10%N] | Err _ | OutDebug _ => [] end.
  Definition listing (l : list printed) : text := flat_map listed l.

  (** [{:?}] of [ErrorDetail], src/tokenizer.rs:349-354: the set prints as {A, B}. *)
  Definition commas (l : list text) : text :=
    match l with [] => [] | x :: l' => x ++ flat_map (fun y => str ", " ++ y) l' end.
  Definition detail_debug (e : tok_error) : text :=
    str "ErrorDetail { location: " ++ digits (te_location e) ++ str ", errors: {" ++ commas (map terror_debug (set_of terror_cmp (te_errors e))) ++ str "} }".

  (** What stands on the standard output at the end, tokenizer/src/main.rs:18-38: Tools.v has
      no error in the line for a text that is not tokenized (line 36). *)
  Definition tokenizer_output (X : xid) (code : text) : text :=
    match tokenize X code with
    | TokErr e => str "failed to tokenize: " ++ detail_debug e ++ [10%N]
    | _ => listing (fst (tokenizer_program X (Contents code)))
    end.
End Listing.
