(** Properties C24, C48 and C49: the syntax tree marks the tokens it should.

    The tables are in MarkSpec.v; they are written from the syntax of Rust and the
    declarations of src/ast.rs.  [reads X code m x]: the extent [x] is that of a
    token of the text (or of a piece of a compound one such as [>>]) of the kind
    [m], and the text there is the spelling of that kind. *)

From Coq Require Import String List NArith Arith Bool Lia.
From Verif Require Import Base Peresil Token Tokenizer TokenizerSpec TokenizerWhole.
From Verif Require Import Schema Value Nt Grammar Table Apportion Lib LibOk Whitespace SpanSpec MarkSpec MarksFile PropertiesFile PropertiesSpans.
Import ListNotations.
Local Open Scope string_scope.
Local Open Scope list_scope.
Local Open Scope nat_scope.

Definition marks_sample : text := str "pub(crate) unsafe fn f<'a>(mut self: &'a mut S, ref x: u8) -> Vec<Vec<u8>> { let y = -1 + x[2].g?; *y..=0x1F_u8 }
unsafe auto trait T { const C: u8 = b'c'; }
static mut M: &str = ""s"";
use a::{b, *};".

(** ** C24: the tree has the shape of src/ast.rs; each field and payload that is an
    extent marks a token of the kind it is named for, and number literals have the
    base and the parts of a number token. *)
Theorem C24_shape_and_markers : forall X, xid_sane X -> forall code f, parse_rust_file X code = FileOk f ->
  typed f (TN "File") /\
  (forall k fs fld ms v, part_of (VNode k fs) (strip f) -> In (k, fld, ms) markers -> get_field fld (VNode k fs) = Some v ->
     v = VNone \/ exists m x, (v = VExt x \/ v = VSome (VExt x)) /\ In m ms /\ reads X code m x) /\
  (forall e t ms v, part_of (VVar e t v) (strip f) -> In (e, t, ms) payloads ->
     v = VNone \/ exists m x, (v = VExt x \/ v = VSome (VExt x)) /\ In m ms /\ reads X code m x) /\
  (forall fs, part_of (VNode "Number" fs) (strip f) -> exists n, reads_number X code n /\ is_number n (VNode "Number" fs)).
Proof.
  intros X XS code f E. pose proof (file_marks X code f XS E) as M.
  assert (forall ms v, marks (reads X code) ms v -> v = VNone \/ exists m x, (v = VExt x \/ v = VSome (VExt x)) /\ In m ms /\ reads X code m x) as U.
  { intros ms v H. destruct v as [e|b|n|p|n| | |v|l|a b|k fs|en vn p]; try destruct H as []; auto.
    - destruct H as [I R]. right. exists x, e. auto.
    - destruct v as [e| | | | | | | | | | |]; try destruct H. destruct H as [I R]. right. exists x, e. auto. }
  split; [|split; [|split]].
  - pose proof (parse_rust_file_ok X code XS) as H. rewrite E in H. destruct H as (ts & parsed & T & P & F). apply F.
  - intros k fs fld ms v P I G. apply U. apply (marked_part _ _ _ _ P) in M. exact (proj1 (proj1 (proj2 M)) _ _ _ I G).
  - intros e t ms v P I. apply U. apply (marked_part _ _ _ _ P) in M. exact (proj1 M _ I).
  - intros fs P. apply (marked_part _ _ _ _ P) in M. exact (proj2 (proj2 (proj1 (proj2 M))) eq_refl).
Qed.

(** The tables cover every field and payload of type [Extent] or [Option<Extent>]
    but these: the text of an attribute and of macro arguments (C38), comments
    (C21), an empty statement (its extent is empty), and the parts of numbers. *)
Definition is_extent (t : ty) : bool := match t with TExt | TOpt TExt => true | _ => false end.

Theorem C24_markers_complete :
  (forall k fields fld t b, In (k, fields) structs -> In (fld, t, b) fields -> is_extent t = true -> fld <> "extent" ->
     (exists ms, In (k, fld, ms) markers) \/
     In (k, fld) [("AttributeLiteral", "text"); ("AttributeContainingLiteral", "text"); ("Number", "is_negative")] \/
     (In k ["NumberBinary"; "NumberDecimal"; "NumberHexadecimal"; "NumberOctal"] /\ In fld ["decimal"; "fraction"; "exponent"; "suffix"])) /\
  (forall e vs t u, In (e, vs) enums -> In (t, Some u) vs -> is_extent u = true ->
     (exists ms, In (e, t, ms) payloads) \/
     In (e, t) [("Whitespace", "Whitespace"); ("Comment", "Line"); ("Comment", "Block"); ("Statement", "Empty");
                ("MacroCallArgs", "Paren"); ("MacroCallArgs", "Curly"); ("MacroCallArgs", "Square")]).
Proof.
  assert (forall (a b : string) l, existsb (fun '(a', b') => String.eqb a a' && String.eqb b b') l = true -> In (a, b) l) as X2.
  { intros a b l H. apply existsb_exists in H as ([a' b'] & I & H). apply andb_true_iff in H as [H1 H2]. apply String.eqb_eq in H1, H2. now subst. }
  assert (forall (a b : string) (l : list (string * string * list matcher)),
    existsb (fun '(a', b', _) => String.eqb a a' && String.eqb b b') l = true -> exists ms, In (a, b, ms) l) as X3.
  { intros a b l H. apply existsb_exists in H as ([[a' b'] ms] & I & H). apply andb_true_iff in H as [H1 H2]. apply String.eqb_eq in H1, H2. subst. eauto. }
  assert (forall (a : string) l, existsb (String.eqb a) l = true -> In a l) as X1.
  { intros a l H. apply existsb_exists in H as (a' & I & H). apply String.eqb_eq in H. now subst. }
  split.
  - intros k fields fld t b I1 I2 T NE.
    assert (forallb (fun '(k, fields) => forallb (fun '(fld, t, _) => implb (is_extent t && negb (String.eqb fld "extent"))
      (existsb (fun '(a, b, _) => String.eqb k a && String.eqb fld b) markers ||
       (existsb (fun '(a, b) => String.eqb k a && String.eqb fld b) [("AttributeLiteral", "text"); ("AttributeContainingLiteral", "text"); ("Number", "is_negative")] ||
       (existsb (String.eqb k) ["NumberBinary"; "NumberDecimal"; "NumberHexadecimal"; "NumberOctal"] &&
        existsb (String.eqb fld) ["decimal"; "fraction"; "exponent"; "suffix"])))) fields) structs = true) as H by (vm_compute; reflexivity).
    rewrite forallb_forall in H. specialize (H _ I1). cbn beta iota in H. rewrite forallb_forall in H. specialize (H _ I2). cbn beta iota in H.
    rewrite T in H. apply String.eqb_neq in NE. rewrite NE in H. cbn [negb andb implb] in H.
    apply orb_true_iff in H as [H|H]; [left; eauto|]. apply orb_true_iff in H as [H|H]; [right; left; auto|].
    apply andb_true_iff in H as [H1 H2]. right. right. auto.
  - intros e vs t u I1 I2 T.
    assert (forallb (fun '(e, vs) => forallb (fun '(t, u) => implb (match u with Some u => is_extent u | None => false end)
      (existsb (fun '(a, b, _) => String.eqb e a && String.eqb t b) payloads ||
       existsb (fun '(a, b) => String.eqb e a && String.eqb t b)
               [("Whitespace", "Whitespace"); ("Comment", "Line"); ("Comment", "Block"); ("Statement", "Empty");
                ("MacroCallArgs", "Paren"); ("MacroCallArgs", "Curly"); ("MacroCallArgs", "Square")])) vs) enums = true) as H by (vm_compute; reflexivity).
    rewrite forallb_forall in H. specialize (H _ I1). cbn beta iota in H. rewrite forallb_forall in H. specialize (H _ I2). cbn beta iota in H.
    rewrite T in H. cbn [implb] in H. apply orb_true_iff in H as [H|H]; [left; eauto|right; auto].
Qed.

(** What the tables say of the sample, read back from the text. *)
Definition marked_texts (code : text) (f : val) : list (string * string * option text) :=
  flat_map (fun n => match n with
    | VNode k fs => flat_map (fun '(k', fld, _) => if String.eqb k k' then
        match get_field fld n with Some (VExt x) | Some (VSome (VExt x)) => [(k, fld, slice code x)] | _ => [] end else []) markers
    | VVar e t v => flat_map (fun '(e', t', _) => if String.eqb e e' && String.eqb t t' then
        match v with VExt x | VSome (VExt x) => [(e, t, slice code x)] | _ => [] end else []) payloads
    | _ => [] end) (parts (strip f)).

Example C24_ex : exists f, parse_rust_file ascii_xid marks_sample = FileOk f /\
  filter (fun '(_, fld, _) => negb (String.eqb fld "extent")) (marked_texts marks_sample f) =
   [("FunctionQualifiers", "is_unsafe", Some (str "unsafe")); ("SelfArgumentLonghand", "is_mut", Some (str "mut"));
    ("TypeReferenceKind", "mutable", Some (str "mut")); ("PatternIdent", "is_ref", Some (str "ref"));
    ("RangeInclusiveOperator", "Recommended", Some (str "..=")); ("Trait", "is_unsafe", Some (str "unsafe"));
    ("Trait", "is_auto", Some (str "auto")); ("Character", "value", Some (str "b'c'")); ("Static", "is_mut", Some (str "mut"));
    ("String", "value", Some (str """s"""))].
Proof. eexists. split; [vm_compute; reflexivity|]. vm_compute. reflexivity. Qed.

(** ** C48: nodes start and end with the tokens of their syntax.  [first_last] has,
    for each kind of node, the tokens it may start with and, unless it may end with
    [>] or with a part that has no fixed last token, those it may end with. *)
Theorem C48_first_and_last_token : forall X, xid_sane X -> forall code f, parse_rust_file X code = FileOk f ->
  forall k fs x a b, part_of (VNode k fs) (strip f) -> In (k, a, b) first_last -> get_field "extent" (VNode k fs) = Some (VExt x) ->
  (k = "FunctionQualifiers" /\ fst x = snd x) \/
  ((exists m y, In m a /\ reads X code m y /\ fst y = fst x /\ snd y <= snd x) /\
   forall ms, b = Some ms -> exists m y, In m ms /\ reads X code m y /\ snd y = snd x /\ fst x <= fst y).
Proof.
  intros X XS code f E k fs x a b P I G. pose proof (file_marks X code f XS E) as M. apply (marked_part _ _ _ _ P) in M.
  destruct (proj1 (proj2 (proj1 (proj2 M))) _ _ _ I G) as [[[<-|[]] H]|[(y & (m & Im & R) & A) B]]; [auto|]. right. split; [exists m, y; auto|].
  intros ms Eb. destruct (B ms Eb) as (z & (m' & Im' & R') & C). exists m', z. auto.
Qed.

(** The text at the start and at the end of the nodes of the sample that the table names. *)
Definition end_texts (code : text) (f : val) : list (string * option text) :=
  flat_map (fun n => match n with
    | VNode k fs => match assoc k (map (fun '(k, a, b) => (k, b)) first_last), get_field "extent" n with
        | Some (Some _), Some (VExt x) => [(k, slice code x)] | _, _ => [] end
    | _ => [] end) (parts (strip f)).

Example C48_ex : exists f, parse_rust_file ascii_xid (str "fn f() { if a { [b; 1] } else { (c, d) } } struct S(u8);") = FileOk f /\
  filter (fun '(k, _) => negb (String.eqb k "Ident" || String.eqb k "FunctionQualifiers")) (end_texts (str "fn f() { if a { [b; 1] } else { (c, d) } } struct S(u8);") f) =
  [("Function", Some (str "fn f() { if a { [b; 1] } else { (c, d) } }")); ("Block", Some (str "{ if a { [b; 1] } else { (c, d) } }"));
   ("If", Some (str "if a { [b; 1] } else { (c, d) }")); ("Block", Some (str "{ [b; 1] }")); ("ArrayRepeated", Some (str "[b; 1]"));
   ("Block", Some (str "{ (c, d) }")); ("Tuple", Some (str "(c, d)")); ("Struct", Some (str "struct S(u8);"));
   ("StructDefinitionBodyTuple", Some (str "(u8);"))].
Proof. eexists. split; [vm_compute; reflexivity|]. vm_compute. reflexivity. Qed.

(** ** C49: the operator of an operation is where it should be: a token with the
    spelling of the operator lies inside the node, behind everything in the left
    operand and before everything in the right one; calls, index operations and
    [?] end with their last token. *)
Theorem C49_operator_between_operands : forall X, xid_sane X -> forall code f, parse_rust_file X code = FileOk f ->
  forall k fs x, part_of (VNode k fs) (strip f) -> get_field "extent" (VNode k fs) = Some (VExt x) ->
  (forall op l r ms, In (k, op, l, r, ms) operators ->
     (forall t, op = Some t -> exists e w, get_field "op" (VNode k fs) = Some (VVar e t w)) ->
     exists m y, In m ms /\ reads X code m y /\ fst x <= fst y /\ snd y <= snd x /\
       (forall v z, get_field l (VNode k fs) = Some v -> In z (extents v) -> snd z <= fst y) /\
       (forall v z, get_field r (VNode k fs) = Some v -> In z (extents v) -> snd y <= fst z)) /\
  (forall ms, In (k, ms) operator_ends -> exists m y, In m ms /\ reads X code m y /\ snd y = snd x /\ fst x <= fst y).
Proof.
  intros X XS code f E k fs x P G. pose proof (file_marks X code f XS E) as M. apply (marked_part _ _ _ _ P) in M.
  destruct M as (_ & _ & M1 & M2). split.
  - intros op l r ms I O. destruct (M1 op l r ms x I) as (y & (m & Im & R) & A & B & L1 & L2); auto.
    { destruct op as [t|]; [exact (O t eq_refl)|exact Logic.I]. }
    exists m, y. split; [auto|]. split; [auto|]. split; [auto|]. split; [auto|]. unfold side in L1, L2. split.
    + intros v z Gv Iz. rewrite Gv in L1. rewrite Forall_forall in L1. auto.
    + intros v z Gv Iz. rewrite Gv in L2. rewrite Forall_forall in L2. auto.
  - intros ms I. destruct (M2 ms x I G) as (y & (m & Im & R) & A). exists m, y. auto.
Qed.

(** Every declared operator of an operation has an entry. *)
Theorem C49_operators_complete :
  (forall vs t u, In ("BinaryOp", vs) enums -> In (t, u) vs -> exists l r ms, In ("Binary", Some t, l, r, ms) operators) /\
  (forall vs t u, In ("UnaryOp", vs) enums -> In (t, u) vs -> exists l r ms, In ("Unary", Some t, l, r, ms) operators).
Proof.
  assert (forall k e, forallb (fun '(e', vs) => implb (String.eqb e e') (forallb (fun '(t, _) =>
            existsb (fun '(k', o, _, _, _) => String.eqb k k' && match o with Some t' => String.eqb t t' | None => false end) operators) vs)) enums = true ->
          forall vs (t : string) (u : option ty), In (e, vs) enums -> In (t, u) vs -> exists l r ms, In (k, Some t, l, r, ms) operators) as G.
  { intros k e H vs t u I1 I2. rewrite forallb_forall in H. specialize (H _ I1). cbn beta iota in H. rewrite String.eqb_refl in H. cbn [implb] in H.
    rewrite forallb_forall in H. specialize (H _ I2). cbn beta iota in H. apply existsb_exists in H as ([[[[k' o] l] r] ms] & I & H).
    destruct o as [t'|]; [|rewrite andb_false_r in H; discriminate]. apply andb_true_iff in H as [H1 H2]. apply String.eqb_eq in H1, H2. subst. eauto. }
  split; apply G; vm_compute; reflexivity.
Qed.

Example C49_ex : exists f, parse_rust_file ascii_xid marks_sample = FileOk f /\
  flat_map (fun n => match n with VNode k fs => if existsb (fun '(k', _, _, _, _) => String.eqb k k') operators then [k] else [] | _ => [] end) (parts (strip f)) =
  ["TryOperator"; "FieldAccess"; "Slice"; "Binary"; "Unary"; "RangeInclusive"; "Dereference"].
Proof. eexists. split; [vm_compute; reflexivity|]. vm_compute. reflexivity. Qed.

Print Assumptions C24_shape_and_markers.
Print Assumptions C24_markers_complete.
Print Assumptions C48_first_and_last_token.
Print Assumptions C49_operator_between_operands.
Print Assumptions C49_operators_complete.
