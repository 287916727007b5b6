(** src/lib.rs: [parse_rust_file] and the rendering of error locations. *)

From Coq Require Import String List Bool Arith NArith DecimalString.
From Verif Require Import Base Peresil Token Tokenizer.
From Verif Require Import Schema Value Nt Grammar Table Apportion.
Import ListNotations.
Local Open Scope string_scope.
Local Open Scope nat_scope.

(** src/lib.rs:288-298: the AST node of a whitespace token. *)
Definition whitespace_node (t : token) : option val :=
  match t with
  | Tk KWhitespace e => Some (VVar "Whitespace" "Whitespace" (VExt e))
  | Tk KCommentLine e => Some (VVar "Whitespace" "Comment" (VVar "Comment" "Line" (VExt e)))
  | Tk KCommentBlock e => Some (VVar "Whitespace" "Comment" (VVar "Comment" "Block" (VExt e)))
  | _ => None
  end.

(** src/lib.rs:284-301: the whitespace map and the remaining tokens. *)
Fixpoint partition_tokens (ts : list token) (m : wsmap) : wsmap * list token :=
  match ts with
  | [] => (m, [])
  | t :: ts' =>
      match whitespace_node t with
      | Some w => partition_tokens ts' (ws_push m w)
      | None => let (m', l) := partition_tokens ts' m in (m', t :: l)
      end
  end.

(** Fuel for parsing one item out of [n] tokens; Lib theorems show that it is
    never exhausted. *)
Definition parse_fuel (n : nat) : nat := 300 * (3 * n + 3).

(** Outcome of the item loop. *)
Inductive items_result : Type :=
| ItemsOk (items : list val)
| ItemsErr (location : nat) (errors : list perror)
| ItemsAbort (w : abort).

(** src/lib.rs:323: [attributed(item)]. *)
Definition item_grammar : g := attributed "Item" (GNT N_item).

(** src/lib.rs:320-341; [n] bounds the iterations and is never exhausted
    because of the assertion on line 339. *)
Fixpoint items_loop (toks : list token) (n : nat) (pm : pm_t) (pt : point) : items_result :=
  match n with
  | 0 => ItemsAbort OutOfFuel
  | S n' =>
      if match nth_error toks (off pt) with
         | Some t => is_kind KEndOfFile t
         | None => true
         end
      then ItemsOk []
      else
        let (pm1, r) := run table toks (parse_fuel (length toks)) item_grammar [] pm pt in
        let (pm2, r) := finish pt_lt pt_zero pm1 r in
        match r with
        | Success next v =>
            if off pt <? off next then
              match items_loop toks n' pm2 next with
              | ItemsOk items => ItemsOk (v :: items)
              | r => r
              end
            else ItemsAbort Panicked
        | Failure p errs =>
            match nth_error toks (off p) with
            | Some t => ItemsErr (fst (token_extent t)) errs
            | None => ItemsAbort Panicked
            end
        | Abort w => ItemsAbort w
        end
  end.

(** src/lib.rs:316-341. *)
Definition parse_items (toks : list token) : items_result :=
  items_loop toks (S (length toks)) (new_master pt_zero Unambiguous) pt_zero.

(** src/lib.rs:215-218 [ErrorDetail]; the set of errors is kept as the list of
    its insertions. *)
Inductive file_result : Type :=
| FileOk (file : val)
| FileTokErr (e : tok_error)
| FileErr (location : nat) (errors : list perror)
| FileAbort (w : abort).

(** src/lib.rs:307-349 [parse_rust_file]. *)
Definition parse_rust_file (X : xid) (file : text) : file_result :=
  match tokenize X file with
  | TokErr e => FileTokErr e
  | TokAbort w => FileAbort w
  | TokOk ts =>
      let (ws, toks) := partition_tokens ts [] in
      match parse_items toks with
      | ItemsErr l es => FileErr l es
      | ItemsAbort w => FileAbort w
      | ItemsOk items =>
          match apportion (VNode "File" [VList items; VList []]) ws with
          | BOk (f, []) => FileOk f
          | BOk (_, _ :: _) => FileAbort Panicked
          | BAbort w => FileAbort w
          end
      end
  end.

(** src/lib.rs:255-260 [HumanTextError]. *)
Record human_text_error : Type := mkHuman {
  head_of_line : text; tail_of_line : text; h_line : nat; h_column : nat }.

(** [&head[n..]] and [&tail[..n]]; [None] is the panic. *)
Definition from_offset (t : text) (n : nat) : option text := option_map snd (split_at t n).
Definition to_offset (t : text) (n : nat) : option text := option_map fst (split_at t n).

(** src/lib.rs:262-276 [HumanTextError::new]; [None] is a panic. *)
Definition human_text_error_new (t : text) (location : nat) : option human_text_error :=
  match split_at t location with
  | None => None
  | Some (head, tail) =>
      let start_of_line := match rfind_char head newline with Some n => n | None => 0 end in
      let end_of_line := match find_char tail newline with Some n => n | None => blen tail end in
      match from_offset head start_of_line, to_offset tail end_of_line with
      | Some h, Some tl => Some (mkHuman h tl (count_char head newline + 1) (blen h))
      | _, _ => None
      end
  end.

(** Rust's formatting of a [usize] with "{}". *)
Definition digits (n : nat) : text := str (NilEmpty.string_of_uint (Nat.to_uint n)).

(** "{:>width$}" of a one-character string. *)
Definition pad_left (width : nat) (c : char) : text := (repeat 32%N (width - 1) ++ [c])%list.

(** src/parser/mod.rs:315-328 and src/tokenizer.rs:370-383, [Display] for the two
    [ErrorDetailText]s: [title] is "Unable to parse text" or "Unable to tokenize
    text"; [errors] are the [Debug] texts of the errors in the order of the set
    (Report.v); [None] is a panic. *)
Definition error_report (title : string) (t : text) (location : nat) (errors : list text) : option text :=
  match human_text_error_new t location with
  | None => None
  | Some human =>
      Some (str title ++ str " (line " ++ digits (h_line human) ++ str ", column " ++ digits (h_column human) ++ str ")" ++ [newline] ++
            head_of_line human ++ tail_of_line human ++ [newline] ++
            pad_left (h_column human) 94%N ++ [newline] ++
            str "Expected:" ++ [newline] ++
            flat_map (fun e => str "  " ++ e ++ [newline]) errors)%list
  end.
