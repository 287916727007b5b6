(** Property C28, the part of it that the code has: constructs that do not end in a
    list hold no token besides their parts and their own words.

    The words of a construct ([own_words]) are those of the table of C53 and C54, and
    a few more; see CoverSpec.v. *)

From Coq Require Import String List NArith Arith Bool Lia.
From Verif Require Import Base Peresil Token Tokenizer TokenizerSpec TokenizerWhole.
From Verif Require Import Schema Value Nt Grammar Table Apportion Lib LibOk FileToks Whitespace SpanSpec MarkSpec LandSpec Expect CoverSpec CoverFile DropSpec DropsFile DropsWhole AccountSpec Account PropertiesFile PropertiesSpans PropertiesMarks.
Import ListNotations.
Local Open Scope string_scope.
Local Open Scope list_scope.
Local Open Scope nat_scope.

(** ** C28 (partial): a token in the extent of a node of the listed kinds is one of
    the words of the construct, or lies in the extent of a part of the node.  Missing:
    the other kinds, most of which hold lists, where this is false (below); and the
    tokens that are read in two steps, such as [>>]. *)
Theorem C28_own_words_partial : forall X, xid_sane X -> forall code f ts, parse_rust_file X code = FileOk f -> tokenize X code = TokOk ts ->
  forall k fs x t, part_of (VNode k fs) (strip f) -> In k tidy -> get_field "extent" (VNode k fs) = Some (VExt x) ->
  In t ts -> significant t = true -> fst (token_extent t) < snd (token_extent t) -> compound t = false -> lies_in t x ->
  (exists w e, t = Tk w e /\ In w (own_words k)) \/ exists z, In z (inner_extents k fs) /\ lies_in t z.
Proof.
  intros X XS code f ts E T k fs x t P K G I S N C L. destruct (file_tidy X code f XS E) as (ts' & T' & H). rewrite T in T'. injection T' as <-.
  apply (tidied_part _ _ _ P) in H. cbn [tidied] in H. destruct H as [_ H]. apply (H (proj2 (existsb_exists _ _) (ex_intro _ k (conj K (String.eqb_refl k)))) x t G); auto.
  apply filter_In. auto.
Qed.

(** The tokens of the nodes of a kind: their text, and whether they are words of the
    construct or lie in a part. *)
Definition lies_b (t : token) (x : extent) : bool := (fst x <=? fst (token_extent t)) && (snd (token_extent t) <=? snd x).
Definition token_roles (k : string) (code : text) (ts : list token) (f : val) : list (list (option text * bool * bool)) :=
  flat_map (fun n => match n with
    | VNode k' fs => if String.eqb k k' then
        match get_field "extent" n with
        | Some (VExt x) => [map (fun t => (slice code (token_extent t), match t with Tk w _ => existsb (tkind_eqb w) (own_words k) | TkNumber _ => false end,
                                          existsb (lies_b t) (inner_extents k fs)))
                                (filter (fun t => lies_b t x && significant t && (fst (token_extent t) <? snd (token_extent t))) ts)]
        | _ => []
        end else []
    | _ => [] end) (parts (strip f)).

Definition cover_sample : text := str "fn f() { if a.b { return c + d; } let e: u8 = 1; }".

Example C28_own_words_ex : exists f ts, parse_rust_file ascii_xid cover_sample = FileOk f /\ tokenize ascii_xid cover_sample = TokOk ts /\
  let own := fun s => (Some (str s), true, false) in let part := fun s => (Some (str s), false, true) in
  token_roles "If" cover_sample ts f =
    [[own "if"; part "a"; part "."; part "b"; part "{"; part "return"; part "c"; part "+"; part "d"; part ";"; part "}"]] /\
  token_roles "FieldAccess" cover_sample ts f = [[part "a"; own "."; part "b"]] /\
  token_roles "Return" cover_sample ts f = [[own "return"; part "c"; part "+"; part "d"]] /\
  token_roles "Binary" cover_sample ts f = [[part "c"; own "+"; part "d"]] /\
  token_roles "Let" cover_sample ts f = [[own "let"; part "e"; own ":"; part "u8"; own "="; part "1"]].
Proof. eexists _, _. split; [vm_compute; reflexivity|]. split; [vm_compute; reflexivity|]. vm_compute. auto 6. Qed.

(** The kinds of node of which nothing is said: those that hold a list or a block,
    directly or by a part that has no extent, where it is false; those that are one
    token (C24); and the operations with a prefix operator, the extents of which hold
    the attributes of the operation. *)
Example C28_untidy : filter (fun k => negb (existsb (String.eqb k) tidy)) (map fst structs) =
  ["File"; "Lifetime"; "UseTailMulti"; "FunctionHeader"; "TraitImplFunctionHeader"; "GenericDeclarations"; "Type"; "TypeDisambiguation"; "TypeTuple";
   "TypeGenericsFunction"; "TypeGenericsAngle"; "TypeFunction"; "Ident"; "Turbofish"; "Struct"; "StructDefinitionBodyBrace"; "StructDefinitionBodyTuple";
   "Union"; "Enum"; "EnumVariant"; "TraitBounds"; "Block"; "Parenthetical"; "Tuple"; "Number"; "NumberBinary"; "NumberDecimal"; "NumberHexadecimal";
   "NumberOctal"; "StructLiteralField"; "Call"; "Unary"; "Match"; "MatchArm"; "Range"; "RangeInclusive"; "ArrayExplicit"; "ExpressionBox"; "Character";
   "String"; "Byte"; "ByteString"; "Closure"; "Reference"; "Dereference"; "Disambiguation"; "PatternName"; "PatternStruct"; "PatternTuple"; "PatternSlice";
   "Trait"; "Impl"; "ExternBlockMemberFunction"; "TypeAlias"].
Proof. vm_compute. reflexivity. Qed.

(** The same of the body of a struct is false: the word [pub] in [struct S{pub}] is
    neither. *)
Theorem C28_own_words_refuted : exists code f ts k fs x t, parse_rust_file ascii_xid code = FileOk f /\ tokenize ascii_xid code = TokOk ts /\
  part_of (VNode k fs) (strip f) /\ get_field "extent" (VNode k fs) = Some (VExt x) /\
  In t ts /\ significant t = true /\ fst (token_extent t) < snd (token_extent t) /\ compound t = false /\ lies_in t x /\
  ~ ((exists w e, t = Tk w e /\ In w (own_words k)) \/ exists z, In z (inner_extents k fs) /\ lies_in t z).
Proof.
  exists (str "struct S{pub}"). do 2 eexists. exists "StructDefinitionBodyBrace", [VExt (8, 13); VList []; VList []], (8, 13), (Tk KPub (9, 12)).
  split; [vm_compute; reflexivity|]. split; [vm_compute; reflexivity|]. split; [|split; [vm_compute; reflexivity|]].
  - apply parts_part. vm_compute. tauto.
  - split; [vm_compute; tauto|]. split; [reflexivity|]. split; [cbn; lia|]. split; [reflexivity|]. split; [split; cbn; lia|].
    intros [(w & e & [= <- <-] & I)|(z & I & _)]; vm_compute in I; intuition discriminate.
Qed.

(** ** C28 (partial): in the kinds of node that hold lists, a token that is neither a
    word of the construct nor in a part stands behind all the elements of one of its
    lists: behind the fields in front of that list, and in front of the fields behind
    it.  So nothing is dropped in front of a list or between its elements.  And it was
    dropped with an element that was begun: at or in front of it, and behind the
    elements too, stands a token that an element of that list may begin with, by the
    table [openings].  So no other part of the construct is dropped, such as the type
    returned behind the arguments or the guard behind the patterns.  Missing: that the
    dropped tokens do not make up a whole element (for the texts of its grammar C46
    says which elements there are), and the kinds in [C28_unsaid] below. *)
Theorem C28_dropped_behind_lists_partial : forall X, xid_sane X -> forall code f ts, parse_rust_file X code = FileOk f -> tokenize X code = TokOk ts ->
  forall k fs x t, part_of (VNode k fs) (strip f) -> In k (map fst frayed) -> get_field "extent" (VNode k fs) = Some (VExt x) ->
  In t ts -> significant t = true -> fst (token_extent t) < snd (token_extent t) -> compound t = false -> lies_in t x ->
  (exists w e, t = Tk w e /\ In w (frayed_words k)) \/ (exists z, In z (inner_extents k fs) /\ lies_in t z) \/
  exists g, In g (fraying k) /\ dropped_at g k fs t /\ opened (filter significant ts) g k fs x t.
Proof.
  intros X XS code f ts E T k fs x t P K G I S N C L. apply in_map_iff in K as (y & <- & K).
  apply (file_frays X code f ts (fst y) fs XS E T P (proj2 (existsb_exists _ _) (ex_intro _ y (conj K (String.eqb_refl (fst y))))) x t G); auto.
  apply filter_In. auto.
Qed.

(** The tokens of the nodes of a kind that are neither words of the construct nor in a
    part, with the lists behind which they stand. *)
Definition after_b (t : token) (l : list extent) : bool := forallb (fun z => snd z <=? fst (token_extent t)) l.
Definition before_b (t : token) (l : list extent) : bool := forallb (fun z => snd (token_extent t) <=? fst z) l.
Definition dropped_b (f k : string) (fs : list val) (t : token) : bool :=
  after_b t (field_extents f (VNode k fs)) && forallb (fun g => after_b t (field_extents g (VNode k fs))) (fields_before f (source_order k)) &&
  forallb (fun g => before_b t (field_extents g (VNode k fs))) (fields_after f (source_order k)).
Definition drops (k : string) (code : text) (ts : list token) (f : val) : list (list (option text * list string)) :=
  flat_map (fun n => match n with
    | VNode k' fs => if String.eqb k k' then
        match get_field "extent" n with
        | Some (VExt x) => [map (fun t => (slice code (token_extent t), filter (fun g => dropped_b g k fs t) (fraying k)))
                                (filter (fun t => lies_b t x && significant t && (fst (token_extent t) <? snd (token_extent t)) &&
                                                  negb match t with Tk w _ => existsb (tkind_eqb w) (frayed_words k) | TkNumber _ => false end &&
                                                  negb (existsb (lies_b t) (inner_extents k fs))) ts)]
        | _ => []
        end else []
    | _ => [] end) (parts (strip f)).

(** Each of these drops a token: the name of an argument without a type, an attribute
    of an argument of a call, and the visibility of a field. *)
Definition drop_sample : text := str "fn f(a: u8, b) -> u8 where T: U { g(c, #[d]) } struct S where T: U, V {e: u8, pub}".

Example C28_dropped_behind_lists_ex : exists f ts, parse_rust_file ascii_xid drop_sample = FileOk f /\ tokenize ascii_xid drop_sample = TokOk ts /\
  drops "FunctionHeader" drop_sample ts f = [[(Some (str "b"), ["arguments"])]] /\
  drops "Call" drop_sample ts f = [[(Some (str "#"), ["args"]); (Some (str "["), ["args"]); (Some (str "d"), ["args"]); (Some (str "]"), ["args"])]] /\
  drops "StructDefinitionBodyBrace" drop_sample ts f = [[(Some (str "pub"), ["fields"])]] /\
  drops "Struct" drop_sample ts f = [[(Some (str "V"), ["wheres"])]] /\
  drops "Block" drop_sample ts f = [[]].
Proof. eexists _, _. split; [vm_compute; reflexivity|]. split; [vm_compute; reflexivity|]. vm_compute. auto 8. Qed.

(** The first of the tokens dropped by each of these nodes is one an element may begin
    with; the words of the other parts are not. *)
Definition opens_b (k f : string) (t : token) : bool :=
  match t with Tk w _ => existsb (tkind_eqb w) (snd (opening k f)) | TkNumber _ => fst (opening k f) end.
Example C28_openings_ex : exists ts, tokenize ascii_xid drop_sample = TokOk ts /\
  map (fun '(k, f, s) => map (fun t => opens_b k f t) (filter (fun t => match slice drop_sample (token_extent t) with Some u => text_eqb u (str s) | None => false end) ts))
    [("FunctionHeader", "arguments", "b"); ("Call", "args", "#"); ("StructDefinitionBodyBrace", "fields", "pub"); ("Struct", "wheres", "V");
     ("FunctionHeader", "arguments", "->"); ("FunctionHeader", "arguments", "{"); ("Struct", "wheres", "{")] =
    [[true]; [true]; [true]; [true]; [false]; [false; false]; [false; false]] /\
  opens_b "MatchArm" "pattern" (Tk KIf (0, 2)) = false /\ opens_b "MatchArm" "pattern" (Tk KThickArrow (0, 2)) = false.
Proof. eexists _. split; [vm_compute; reflexivity|]. vm_compute. auto. Qed.

(** A prefix operation is given the attributes in front of it by the expression around
    it, but its own extent begins with them.  So a token in its extent is the operator,
    or is in the extent of a part, or stands in front of every part: only attributes
    are dropped, and never an operator or anything behind it.  The ranges, whose
    operator may also stand behind or between operands, are the same. *)
Theorem C28_prefix_operations_partial : forall X, xid_sane X -> forall code f ts, parse_rust_file X code = FileOk f -> tokenize X code = TokOk ts ->
  forall k fs x t, part_of (VNode k fs) (strip f) -> In k (map fst led) -> get_field "extent" (VNode k fs) = Some (VExt x) ->
  In t ts -> significant t = true -> fst (token_extent t) < snd (token_extent t) -> compound t = false -> lies_in t x ->
  (exists w e, t = Tk w e /\ In w (led_words k)) \/ (exists z, In z (inner_extents k fs) /\ lies_in t z) \/
  before_all t (inner_extents k fs).
Proof.
  intros X XS code f ts E T k fs x t P K G I S N C L. destruct (file_neat X code f XS E) as (ts' & T' & H). rewrite T in T'. injection T' as <-.
  apply (neat_part _ _ _ P) in H. cbn [neat] in H. destruct H as [_ [_ H]]. apply in_map_iff in K as (y & <- & K).
  apply (H (proj2 (existsb_exists _ _) (ex_intro _ y (conj K (String.eqb_refl (fst y))))) x t G); auto.
  apply filter_In. auto.
Qed.

(** The tokens of the nodes of a kind that are in no part: words of the operator on the
    left, the others on the right with whether they stand in front of every part. *)
Definition led_tokens (k : string) (code : text) (ts : list token) (f : val) : list (list (option text) * list (option text * bool)) :=
  flat_map (fun n => match n with
    | VNode k' fs => if String.eqb k k' then
        match get_field "extent" n with
        | Some (VExt x) =>
            let own := filter (fun t => lies_b t x && significant t && (fst (token_extent t) <? snd (token_extent t)) && negb (existsb (lies_b t) (inner_extents k fs))) ts in
            let word t := match t with Tk w _ => existsb (tkind_eqb w) (led_words k) | TkNumber _ => false end in
            [(map (fun t => slice code (token_extent t)) (filter word own),
              map (fun t => (slice code (token_extent t), before_b t (inner_extents k fs))) (filter (fun t => negb (word t)) own))]
        | _ => []
        end else []
    | _ => [] end) (parts (strip f)).

Definition led_sample : text := str "fn f() { #[a] -b; &mut c; d..e; .. }".

Example C28_prefix_operations_ex : exists f ts, parse_rust_file ascii_xid led_sample = FileOk f /\ tokenize ascii_xid led_sample = TokOk ts /\
  led_tokens "Unary" led_sample ts f = [([Some (str "-")], [(Some (str "#"), true); (Some (str "["), true); (Some (str "a"), true); (Some (str "]"), true)])] /\
  led_tokens "Reference" led_sample ts f = [([Some (str "&")], [])] /\
  led_tokens "Range" led_sample ts f = [([Some (str "..")], []); ([Some (str "..")], [])].
Proof. eexists _, _. split; [vm_compute; reflexivity|]. split; [vm_compute; reflexivity|]. vm_compute. auto 6. Qed.

(** In the type of a function, named and C-variadic arguments are two lists that are
    kept as one.  A token that is neither a word of the construct nor in a part stands
    behind the qualifiers and in front of the type returned, between the parentheses. *)
Theorem C28_function_types_partial : forall X, xid_sane X -> forall code f ts, parse_rust_file X code = FileOk f -> tokenize X code = TokOk ts ->
  forall fs x t, part_of (VNode "TypeFunction" fs) (strip f) -> get_field "extent" (VNode "TypeFunction" fs) = Some (VExt x) ->
  In t ts -> significant t = true -> fst (token_extent t) < snd (token_extent t) -> compound t = false -> lies_in t x ->
  (exists w e, t = Tk w e /\ In w (frayed_words "TypeFunction")) \/ (exists z, In z (inner_extents "TypeFunction" fs) /\ lies_in t z) \/
  (after_all t (field_extents "qualifiers" (VNode "TypeFunction" fs)) /\ before_all t (field_extents "return_type" (VNode "TypeFunction" fs))).
Proof.
  intros X XS code f ts E T fs x t P G I S N C L.
  destruct (file_amongst X code f ts fs XS E T P x t G ltac:(apply filter_In; auto) N C L) as [H|[H|[H1 H2]]]; [left; exact H|right; left; exact H|].
  right. right. split; [apply H1|apply H2]; vm_compute; auto.
Qed.

(** The name of a C-variadic argument without a type is dropped, and its colon. *)
Definition variadic_sample : text := str "type T = extern fn(u8, b: ...) -> u8;".
Example C28_function_types_ex : exists f ts, parse_rust_file ascii_xid variadic_sample = FileOk f /\ tokenize ascii_xid variadic_sample = TokOk ts /\
  flat_map (fun n => match n, get_field "extent" n with
    | VNode k fs, Some (VExt x) => if String.eqb k "TypeFunction" then
        map (fun t => (slice variadic_sample (token_extent t), after_b t (field_extents "qualifiers" n) && before_b t (field_extents "return_type" n)))
          (filter (fun t => lies_b t x && significant t && negb match t with Tk w _ => existsb (tkind_eqb w) (frayed_words k) | TkNumber _ => false end &&
                            negb (existsb (lies_b t) (inner_extents k fs))) ts) else []
    | _, _ => [] end) (parts (strip f)) = [(Some (str "b"), true); (Some (str ":"), true)].
Proof. eexists _, _. split; [vm_compute; reflexivity|]. split; [vm_compute; reflexivity|]. vm_compute. reflexivity. Qed.

(** The kinds of node of which no theorem says anything: those that are one token
    (C24); those whose extent is empty; and the file. *)
Example C28_unsaid : filter (fun k => negb (existsb (String.eqb k) tidy) && negb (existsb (String.eqb k) (map fst frayed)) && negb (existsb (String.eqb k) (map fst led)) &&
    negb (String.eqb k "TypeFunction")) (map fst structs) =
  ["File"; "Lifetime"; "Ident"; "Number"; "NumberBinary"; "NumberDecimal";
   "NumberHexadecimal"; "NumberOctal"; "StructLiteralField"; "Character"; "String"; "Byte"; "ByteString"; "PatternName"].
Proof. vm_compute. reflexivity. Qed.

(** All of this together: every token of an accepted file is accounted for.  It is a
    keyword or symbol of a construct around it, or is in a name or a literal, or in an
    extent that a node keeps as such, or it was dropped in one of the three places where
    that happens.  Missing: the tokens that are read in two steps, such as [>>]. *)
Theorem C28_every_token_partial : forall X, xid_sane X -> forall code f ts, parse_rust_file X code = FileOk f -> tokenize X code = TokOk ts ->
  forall t, In t ts -> significant t = true -> fst (token_extent t) < snd (token_extent t) -> compound t = false -> accounted (filter significant ts) (strip f) t.
Proof. intros X XS code f ts E T t I S N C. exact (file_accounted X code f ts t XS E T I S N C). Qed.

(** A tree without items accounts for no token; so the theorem is false of a parser
    that loses an item. *)
Example C28_every_token_empty ts t : ~ accounted ts (VNode "File" [VList []; VList []]) t.
Proof.
  assert (forall k fs, part_of (VNode k fs) (VNode "File" [VList []; VList []]) -> k = "File" /\ fs = [VList []; VList []]) as P.
  { intros k fs H. inversion H as [| | | | | |v ? ? I Q]; subst; [auto|]. destruct I as [<-|[<-|[]]]; inversion Q as [| | | | |v ? I2 ?|]; destruct I2. }
  assert (forall k fs x, ~ node_at (VNode "File" [VList []; VList []]) k fs x) as N.
  { intros k fs x [H G]. apply P in H as [-> ->]. vm_compute in G. discriminate. }
  intros H. destruct H as [k fs x w e H|k fs x H|k fs g v z H NE G B|k fs x g H|fs x H|k fs x H]; try exact (N _ _ _ H).
  apply P in H as [-> ->]. unfold get_field in G. cbn [struct_fields assoc] in G.
  destruct (field_index g [("items", TList (TN "Attributed<Item>"), true); ("whitespace", TList (TN "Whitespace"), true)]) as [i|] eqn:Ei;
    unfold struct_fields in G; cbn [structs app assoc String.eqb Ascii.eqb Bool.eqb] in G; rewrite Ei in G; [|discriminate].
  destruct i as [|[|[|i]]]; cbn [nth_error] in G; try discriminate; injection G as <-; inversion B as [| | | | |v0 l0 I0]; destruct I0.
Qed.

(** A file with 41 such tokens, seven of which are dropped. *)
Example C28_every_token_ex : exists f ts, parse_rust_file ascii_xid drop_sample = FileOk f /\ tokenize ascii_xid drop_sample = TokOk ts /\
  length (filter (fun t => significant t && (fst (token_extent t) <? snd (token_extent t)) && negb (compound t)) ts) = 41.
Proof. eexists _, _. split; [vm_compute; reflexivity|]. split; [vm_compute; reflexivity|]. vm_compute. reflexivity. Qed.

Print Assumptions C28_own_words_partial.
Print Assumptions C28_own_words_refuted.
Print Assumptions C28_dropped_behind_lists_partial.
Print Assumptions C28_prefix_operations_partial.
Print Assumptions C28_function_types_partial.
Print Assumptions C28_every_token_partial.
