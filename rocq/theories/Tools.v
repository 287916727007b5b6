(** The command line programs: stats/src/main.rs, dump/src/main.rs and
    tokenizer/src/main.rs.

    Simplified: files are given with what opening and reading them yields;
    argument parsing and logging are left out; the [Debug] text of a tree or a
    token is not spelled out, a record of what is printed stands for it. *)

From Coq Require Import String List Bool Arith NArith.
From Verif Require Import Base Token Peresil Tokenizer Schema Value Visit Grammar Apportion Lib.
Import ListNotations.
Local Open Scope string_scope.
Local Open Scope list_scope.
Local Open Scope nat_scope.

(** What [File::open] and [read_to_string] yield. *)
Inductive source : Type := CannotOpen | CannotRead | Contents (t : text).

(** What is printed, in order. *)
Inductive printed : Type :=
| Out (line : text)                                  (* println! *)
| Err (line : text)                                  (* eprintln! *)
| OutDebug (v : val)                                 (* println!("{:#?}", ..) *)
| OutToken (i : nat) (t : token) (w : text) (quoted : bool). (* the lines of the tokenizer program *)

(** How a program ends.  [Broken] is a panic inside the library, while slicing or
    while formatting the message; it is proved to be impossible. *)
Inductive ending : Type := Done | Fails (name : text) | Panics (message : text) | Broken.

Definition and_then (p : list printed) (rest : list printed * ending) : list printed * ending := (p ++ fst rest, snd rest).

Section Tools.
  Variable X : xid.
  (** The [Debug] texts of a set of errors, in its order. *)
  Variable names : file_result -> list text.

  (** src/lib.rs:246-253 [Display for ErrorDetailText]; [None] is a panic. *)
  Definition detail_text (code : text) (r : file_result) : option text :=
    match r with
    | FileTokErr e => error_report "Unable to tokenize text" code (te_location e) (names r)
    | FileErr l _ => error_report "Unable to parse text" code l (names r)
    | _ => None
    end.

  (** stats/src/main.rs:62 and dump/src/main.rs:22, the message. *)
  Definition message (fname code : text) (r : file_result) : option text :=
    option_map (fun d => str "Unable to parse " ++ fname ++ [newline] ++ d) (detail_text code r).

  (** stats/src/main.rs:34-43 [Stats]: the other methods of [Visitor] have their
      default bodies. *)
  Definition stats_enter (s : nat) (k : string) (v : val) : nat * control := (s, Continue).
  Definition stats_leave (s : nat) (k : string) (v : val) : nat := if String.eqb k "Statement" then s + 1 else s.

  (** stats/src/main.rs:45-81 [main]. *)
  Fixpoint stats (check_only keep_going : bool) (files : list (text * source)) : list printed * ending :=
    match files with
    | [] => ([], Done)
    | (fname, CannotOpen) :: _ | (fname, CannotRead) :: _ => ([], Fails fname)
    | (fname, Contents s) :: rest =>
        match parse_rust_file X s with
        | FileOk file =>
            let n := visit nat stats_enter stats_leave file 0 in
            and_then (if check_only then [] else [Out (fname ++ str ": " ++ digits n ++ str " statements")])
                     (stats check_only keep_going rest)
        | FileAbort _ => ([], Broken)
        | r =>
            match message fname s r with
            | None => ([], Broken)
            | Some m => if keep_going then and_then [Err m] (stats check_only keep_going rest) else ([], Panics m)
            end
        end
    end.

  (** dump/src/main.rs:12-28 [main]. *)
  Fixpoint dump (files : list (text * source)) : list printed * ending :=
    match files with
    | [] => ([], Done)
    | (fname, CannotOpen) :: _ => ([], Panics (str "Can't open " ++ fname))
    | (fname, CannotRead) :: _ => ([], Panics (str "Can't read " ++ fname))
    | (fname, Contents s) :: rest =>
        match parse_rust_file X s with
        | FileOk file => and_then [OutDebug file] (dump rest)
        | FileAbort _ => ([], Broken)
        | r => match message fname s r with None => ([], Broken) | Some m => ([], Panics m) end
        end
    end.

  (** tokenizer/src/main.rs:22-33, the loop over the tokens. *)
  Fixpoint token_lines (s : text) (i : nat) (ts : list token) : list printed * ending :=
    match ts with
    | [] => ([], Done)
    | t :: ts' =>
        match slice s (token_extent t) with
        | None => ([], Broken)
        | Some w => and_then [OutToken i t w (existsb (N.eqb newline) w)] (token_lines s (S i) ts')
        end
    end.

  (** tokenizer/src/main.rs:8-38 [main]. *)
  Definition tokenizer_program (src : source) : list printed * ending :=
    match src with
    | CannotOpen => ([], Panics (str "Unable to open file"))
    | CannotRead => ([], Panics (str "unable to read file"))
    | Contents s =>
        match tokenize X s with
        | TokOk ts => token_lines s 0 ts
        | TokErr e => ([Out (str "failed to tokenize")], Done)
        | TokAbort _ => ([], Broken)
        end
    end.
End Tools.
