(** Property C56, the restriction on struct literals in heads: what it achieves in
    accepted files.  The vocabulary is in HeadSpec.v. *)

From Coq Require Import String List NArith Arith Bool Lia.
From Verif Require Import Base Peresil Token Tokenizer TokenizerSpec.
From Verif Require Import Schema Value Nt Grammar Table Apportion Lib LibOk FileToks Whitespace SpanSpec HeadSpec Heads HeadsFile PropertiesFile PropertiesSpans.
Import ListNotations.
Local Open Scope string_scope.
Local Open Scope list_scope.
Local Open Scope nat_scope.

(** ** C56: in an accepted file, no head of [if], [if let], [while], [while let],
    [for] or [match] has a struct literal, unless between parentheses or brackets or
    in the arms of a [match]. *)
Theorem C56_heads_without_literals : forall X, xid_sane X -> forall code f, parse_rust_file X code = FileOk f ->
  forall k fs fld h, part_of (VNode k fs) (strip f) -> In (k, fld) heads -> get_field fld (VNode k fs) = Some h ->
  forall ls, ~ bare_in (VNode "StructLiteral" ls) h.
Proof. intros X XS code f E k fs fld h P I G. exact (file_headed X code f XS E k fs fld h P I G). Qed.

(** The heads of a file, and the struct literals in them, sheltered ones included. *)
Definition heads_of (code : text) (f : val) : list (string * option text * list (option text)) :=
  flat_map (fun n => match n with
    | VNode k fs => flat_map (fun '(k', fld) => if String.eqb k k' then
        match get_field fld n with
        | Some h => [(k, match extent_of h with Some x => slice code x | None => None end,
                      flat_map (fun m => match m with
                        | VNode "StructLiteral" (VExt x :: _) => [slice code x]
                        | _ => [] end) (parts h))]
        | None => [] end else []) heads
    | _ => [] end) (parts (strip f)).

Definition heads_sample : text :=
  str "fn f() { if (S { a: 1 }).b { } while let P = g(T { }) { } for x in [U { a: 2 }] { V { } } match y { z => W { }, } }".

Example C56_heads_without_literals_ex : exists f, parse_rust_file ascii_xid heads_sample = FileOk f /\
  heads_of heads_sample f =
    [("If", Some (str "(S { a: 1 }).b"), [Some (str "{ a: 1 }")]); ("While", Some (str "let P = g(T { })"), [Some (str "{ }")]);
     ("ForLoop", Some (str "[U { a: 2 }]"), [Some (str "{ a: 2 }")]); ("Match", Some (str "y"), [])].
Proof. eexists. split; [vm_compute; reflexivity|]. vm_compute. reflexivity. Qed.

(** The same literals without the parentheses: the brace is that of the block. *)
Example C56_bare_ex : exists f, parse_rust_file ascii_xid (str "fn f() { if S { a } }") = FileOk f /\
  heads_of (str "fn f() { if S { a } }") f = [("If", Some (str "S"), [])].
Proof. eexists. split; [vm_compute; reflexivity|]. vm_compute. reflexivity. Qed.

(** Of the bodies nothing of the kind is true. *)
Example C56_bodies_ex : exists f fs h ls, parse_rust_file ascii_xid (str "fn f() { if a { S { } } }") = FileOk f /\
  part_of (VNode "If" fs) (strip f) /\ get_field "body" (VNode "If" fs) = Some h /\ bare_in (VNode "StructLiteral" ls) h.
Proof.
  eexists. exists (fst (match filter (fun n => match n with VNode "If" _ => true | _ => false end) (parts (strip (match parse_rust_file ascii_xid (str "fn f() { if a { S { } } }") with FileOk f => f | _ => VUnit end))) with VNode _ fs :: _ => (fs, tt) | _ => ([], tt) end)).
  eexists. eexists. split; [vm_compute; reflexivity|]. split; [apply parts_part; vm_compute; tauto|]. split; [vm_compute; reflexivity|].
  eapply (bare_field _ 2); [reflexivity|intros fl FA; vm_compute in FA; injection FA as <-; vm_compute; intuition discriminate|].
  apply bare_some. eapply (bare_field _ 2); [reflexivity|intros fl FA; vm_compute in FA; injection FA as <-; vm_compute; intuition discriminate|].
  apply bare_var. eapply (bare_field _ 2); [reflexivity|intros fl FA; vm_compute in FA; injection FA as <-; vm_compute; intuition discriminate|].
  apply bare_some. apply bare_self.
Qed.

Print Assumptions C56_heads_without_literals.
