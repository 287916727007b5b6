(** Properties C53 and C54: the keywords, symbols and separators of a construct
    stand between its parts.

    The tables are in LandSpec.v; they are written from the syntax of Rust and the
    fields of src/ast.rs.  [reads X code m y]: [y] is the extent of a token of the
    text (or of a piece of a compound one such as [>>]) of the kind [m], and the
    text there is the spelling of that kind. *)

From Coq Require Import String List NArith Arith Bool Lia.
From Verif Require Import Base Peresil Token Tokenizer TokenizerSpec TokenizerWhole.
From Verif Require Import Schema Value Nt Grammar Table Apportion Lib LibOk Whitespace SpanSpec MarkSpec LandSpec MarksFile LandsFile PropertiesFile PropertiesSpans PropertiesMarks.
Import ListNotations.
Local Open Scope string_scope.
Local Open Scope list_scope.
Local Open Scope nat_scope.

(** ** C53: whenever the table says that a token stands between two parts of a
    node, and both parts are there, the text has such a token behind everything in
    the one and in front of everything in the other.  The empty name is the start
    of the node on the left and its end on the right. *)
Theorem C53_landmarks : forall X, xid_sane X -> forall code f, parse_rust_file X code = FileOk f ->
  forall k fs l ms r, part_of (VNode k fs) (strip f) -> In (k, l, ms, r) landmarks ->
  (l = "" \/ side l (VNode k fs) <> []) -> (r = "" \/ side r (VNode k fs) <> []) ->
  exists m y, In m ms /\ reads X code m y /\
    (l = "" -> forall x, get_field "extent" (VNode k fs) = Some (VExt x) -> fst x <= fst y) /\
    (l <> "" -> forall z, In z (side l (VNode k fs)) -> snd z <= fst y) /\
    (r = "" -> forall x, get_field "extent" (VNode k fs) = Some (VExt x) -> snd y <= snd x) /\
    (r <> "" -> forall z, In z (side r (VNode k fs)) -> snd y <= fst z).
Proof.
  intros X XS code f E k fs l ms r P I Pl Pr. pose proof (landed_part _ _ _ P (file_lands X code f XS E)) as [_ (H & _)].
  destruct (H l ms r I Pl Pr) as (y & (m & J & R) & B & F). exists m, y. split; [auto|]. split; [auto|]. unfold behind in B. unfold in_front in F.
  repeat split; intros N.
  - subst l. exact B.
  - apply String.eqb_neq in N. rewrite N in B. now apply Forall_forall.
  - subst r. exact F.
  - apply String.eqb_neq in N. rewrite N in F. now apply Forall_forall.
Qed.

(** The landmarks of the nodes of a kind, with the text of the two parts they stand
    between (empty for the start and the end of the node). *)
Definition part_text (code : text) (v : val) (f : string) : option text :=
  match side f v with
  | [] => Some []
  | x :: l => slice code (fold_right Nat.min (fst x) (map fst l), fold_right Nat.max (snd x) (map snd l))
  end.
Definition landmark_texts (k : string) (code : text) (f : val) : list (option text * list matcher * option text) :=
  flat_map (fun n => match n with
    | VNode k' _ => if String.eqb k k' then
        flat_map (fun '(k', l, ms, r) => if String.eqb k k' && (String.eqb l "" || negb (Nat.eqb (length (side l n)) 0)) && (String.eqb r "" || negb (Nat.eqb (length (side r n)) 0))
                               then [(part_text code n l, ms, part_text code n r)] else []) landmarks
        else []
    | _ => [] end) (parts (strip f)).

Definition lands_sample : text := str "fn f(g: u8) -> u16 { 'a: for x in y { match z { A | B if c => { 1 } D => 2, E => 3 } } h(i, j); k }
const L: M = [n; 2];".

Example C53_ex : exists f, parse_rust_file ascii_xid lands_sample = FileOk f /\
  landmark_texts "NamedArgument" lands_sample f = [(Some (str ""), words [KColon], Some (str "u8")); (Some (str ""), words [KColon], Some (str ""));
                                                   (Some (str "g"), words [KColon], Some (str "u8")); (Some (str "g"), words [KColon], Some (str ""))] /\
  landmark_texts "ArrayRepeated" lands_sample f =
    map (fun '(a, k, b) => (Some (str a), words [k], Some (str b)))
    [("", KLeftSquare, "n"); ("", KLeftSquare, "2"); ("", KLeftSquare, ""); ("", KSemicolon, "2"); ("", KSemicolon, ""); ("n", KSemicolon, "2"); ("n", KSemicolon, "");
     ("", KRightSquare, ""); ("n", KRightSquare, ""); ("2", KRightSquare, "")] /\
  In (Some (str "x"), words [KIn], Some (str "y")) (landmark_texts "ForLoop" lands_sample f) /\
  In (Some (str "'a"), words [KColon], Some (str "x")) (landmark_texts "ForLoop" lands_sample f) /\
  In (Some (str "A | B"), words [KIf], Some (str "c")) (landmark_texts "MatchArm" lands_sample f) /\
  In (Some (str "c"), words [KThickArrow], Some (str "{ 1 }")) (landmark_texts "MatchArm" lands_sample f) /\
  In (Some (str "g: u8"), words [KThinArrow], Some (str "u16")) (landmark_texts "FunctionHeader" lands_sample f).
Proof. eexists. split; [vm_compute; reflexivity|]. vm_compute. repeat split; repeat (first [left; reflexivity|right]). Qed.

(** The table speaks of most kinds of node.  These are not in it: nodes without
    tokens of their own; operators (C49); single tokens (C24, C48); paths of [use],
    whose double colons are optional. *)
Example C53_unlisted :
  filter (fun k => negb (existsb (fun '(k', _, _, _) => String.eqb k k') landmarks) && negb (existsb (fun '(k', _, _) => String.eqb k k') separators)) (map fst structs) =
  ["File"; "Lifetime"; "UsePath"; "UseTailGlob"; "Function"; "FunctionQualifiers"; "TypeNamedComponent"; "AssociatedType"; "Ident"; "PathComponent";
   "StructDefinitionFieldUnnamed"; "EnumVariant"; "SelfArgumentShorthand"; "TraitBoundLifetime"; "TraitBoundNormal"; "Attributed<EnumVariant>";
   "Attributed<Expression>"; "Attributed<ExternBlockMember>"; "Attributed<GenericDeclarationConst>"; "Attributed<GenericDeclarationLifetime>";
   "Attributed<GenericDeclarationType>"; "Attributed<ImplMember>"; "Attributed<Item>"; "Attributed<StructDefinitionFieldNamed>";
   "Attributed<StructDefinitionFieldUnnamed>"; "Attributed<TraitMember>"; "TryOperator"; "FieldAccess"; "Number"; "NumberBinary"; "NumberDecimal";
   "NumberHexadecimal"; "NumberOctal"; "Value"; "StructLiteralField"; "Unary"; "Binary"; "Range"; "RangeInclusive"; "ExpressionBox"; "AsType";
   "Ascription"; "Character"; "String"; "Byte"; "ByteString"; "Slice"; "Reference"; "Dereference"; "PatternName"; "PatternIdent";
   "PatternStructFieldShort"; "PatternSliceSubslice"; "PatternByte"; "PatternCharacter"; "PatternByteString"; "PatternString"; "PatternNumber";
   "PatternMacroCall"; "TraitMemberFunction"; "ImplOfInherent"; "ImplFunction"; "ExternBlockMemberFunctionArgumentVariadic"].
Proof. vm_compute. reflexivity. Qed.

(** ** C54: the elements of a list are apart: between two neighbours stands the
    separator of the list.  The arms of a match and the statements of a block may
    do without it behind an element that ends with a block. *)
Theorem C54_separators : forall X, xid_sane X -> forall code f, parse_rust_file X code = FileOk f ->
  forall k fs fld l i a b, part_of (VNode k fs) (strip f) -> get_field fld (VNode k fs) = Some (VList l) ->
  (forall ms, In (k, fld, ms) separators -> nth_error l i = Some a -> nth_error l (i + 1) = Some b ->
     exists m y, In m ms /\ reads X code m y /\ (forall z, In z (extents a) -> snd z <= fst y) /\ (forall z, In z (extents b) -> snd y <= fst z)) /\
  (forall fld' ms, In (k, fld, fld', ms) loose_separators ->
     let l' := l ++ match get_field fld' (VNode k fs) with Some (VSome w) => [w] | _ => [] end in
     nth_error l' i = Some a -> nth_error l' (i + 1) = Some b ->
     ends_itself a \/
     exists m y, In m ms /\ reads X code m y /\ (forall z, In z (extents a) -> snd z <= fst y) /\ (forall z, In z (extents b) -> snd y <= fst z)).
Proof.
  intros X XS code f E k fs fld l i a b P G. pose proof (landed_part _ _ _ P (file_lands X code f XS E)) as [_ (_ & H1 & H2)].
  assert (forall ms, parted (reads X code) ms a b ->
     exists m y, In m ms /\ reads X code m y /\ (forall z, In z (extents a) -> snd z <= fst y) /\ (forall z, In z (extents b) -> snd y <= fst z)) as U.
  { intros ms (y & (m & J & R) & A & B). exists m, y. rewrite Forall_forall in A, B. auto. }
  split.
  - intros ms I A B. apply U. eapply H1; eauto. exists i. auto.
  - intros fld' ms I l' A B. destruct (H2 fld fld' ms l a b I G) as [H|H]; [exists i; auto|auto|right; auto].
Qed.

(** Neighbours in the lists of the nodes of a kind. *)
Fixpoint pairs {A} (l : list A) : list (A * A) := match l with a :: (b :: _) as l' => (a, b) :: pairs l' | _ => [] end.
Definition neighbour_texts (k fld fld' : string) (code : text) (f : val) : list (option text * option text) :=
  flat_map (fun n => match n with
    | VNode k' _ => if String.eqb k k' then
        match get_field fld n with
        | Some (VList l) =>
            map (fun '(a, b) => (part_text code (VNode "Attributed<Item>" [VExt (0, 0); VList []; a; VList []]) "value",
                                 part_text code (VNode "Attributed<Item>" [VExt (0, 0); VList []; b; VList []]) "value"))
                (pairs (l ++ match get_field fld' n with Some (VSome w) => [w] | _ => [] end))
        | _ => [] end
        else []
    | _ => [] end) (parts (strip f)).

Example C54_ex : exists f, parse_rust_file ascii_xid lands_sample = FileOk f /\
  neighbour_texts "Call" "args" "" lands_sample f = [(Some (str "i"), Some (str "j"))] /\
  neighbour_texts "MatchArm" "pattern" "" lands_sample f = [(Some (str "A"), Some (str "B"))] /\
  neighbour_texts "Match" "arms" "" lands_sample f = [(Some (str "A | B if c => { 1 }"), Some (str "D => 2")); (Some (str "D => 2"), Some (str "E => 3"))] /\
  neighbour_texts "Block" "statements" "expression" lands_sample f =
    [(Some (str "'a: for x in y { match z { A | B if c => { 1 } D => 2, E => 3 } }"), Some (str "h(i, j)")); (Some (str "h(i, j)"), Some (str "k"))].
Proof. eexists. split; [vm_compute; reflexivity|]. vm_compute. repeat split. Qed.

(** Not all neighbours are apart: the parser also takes a receiver, or the last
    lifetime parameter, that nothing separates from what follows. *)
Definition no_comma_self : text := str "fn f(self x: u8) {}".
Definition no_comma_lifetime : text := str "fn f<'a T>() {}".

Theorem C54_receiver_and_lifetimes_refuted :
  (exists f fs a b, parse_rust_file ascii_xid no_comma_self = FileOk f /\ ~ In 44%N no_comma_self /\
     part_of (VNode "FunctionHeader" fs) (strip f) /\ get_field "arguments" (VNode "FunctionHeader" fs) = Some (VList [a; b])) /\
  (exists f fs a b, parse_rust_file ascii_xid no_comma_lifetime = FileOk f /\ ~ In 44%N no_comma_lifetime /\
     part_of (VNode "GenericDeclarations" fs) (strip f) /\ get_field "lifetimes" (VNode "GenericDeclarations" fs) = Some (VList [a]) /\
     get_field "types" (VNode "GenericDeclarations" fs) = Some (VList [b])).
Proof.
  assert (forall k code f, parse_rust_file ascii_xid code = FileOk f ->
            match filter (fun n => match n with VNode k' _ => String.eqb k k' | _ => false end) (parts (strip f)) with
            | VNode k' fs :: _ => k' = k -> part_of (VNode k fs) (strip f)
            | _ => True end) as K.
  { intros k code f _. destruct (filter _ _) as [|n l] eqn:F; [exact I|]. destruct n as [| | | | | | | | | |k' fs|]; try exact I. intros ->.
    assert (In (VNode k fs) (parts (strip f))) as J by (eapply (proj1 (filter_In _ _ _)); rewrite F; now left). now apply parts_part. }
  split.
  - eexists. do 3 eexists. split; [vm_compute; reflexivity|]. split; [vm_compute; intuition discriminate|].
    match goal with |- part_of _ (strip ?f) /\ _ => pose proof (K "FunctionHeader" no_comma_self f ltac:(vm_compute; reflexivity)) as H end.
    vm_compute filter in H. specialize (H eq_refl). split; [exact H|vm_compute; reflexivity].
  - eexists. do 3 eexists. split; [vm_compute; reflexivity|]. split; [vm_compute; intuition discriminate|].
    match goal with |- part_of _ (strip ?f) /\ _ => pose proof (K "GenericDeclarations" no_comma_lifetime f ltac:(vm_compute; reflexivity)) as H end.
    vm_compute filter in H. specialize (H eq_refl). split; [exact H|]. split; vm_compute; reflexivity.
Qed.

Print Assumptions C53_landmarks.
Print Assumptions C54_separators.
Print Assumptions C54_receiver_and_lifetimes_refuted.
