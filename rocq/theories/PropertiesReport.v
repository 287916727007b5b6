(** C63: the list of expectations in an error message.

    Read with: Report.v ([error_message]; [perror_list]: the errors of the parser in the order of
    their declaration; [terror_before] below: the order of those of the tokenizer). *)

From Coq Require Import String Ascii List Bool Arith NArith Lia Sorted Permutation.
From Verif Require Import Base Token Tokenizer TokenizerSpec Nt Lib HumanOk FileSpec Report.
From Verif Require Tools.
Import ListNotations.
Local Open Scope string_scope.
Local Open Scope list_scope.
Local Open Scope nat_scope.

(** ** Specification *)

(** [a] comes before [b] in [l]. *)
Definition listed_before {A} (l : list A) (a b : A) : Prop := exists i j, nth_error l i = Some a /\ nth_error l j = Some b /\ i < j.

(** One text before another, by characters. *)
Inductive text_before : text -> text -> Prop :=
| before_end c b : text_before [] (c :: b)
| before_here x y a b : (x < y)%N -> text_before (x :: a) (y :: b)
| before_later x a b : text_before a b -> text_before (x :: a) (x :: b).

Definition other_terrors : list terror :=
  [TExpectedIdentOrKeyword; TExpectedIdent; TExpectedNumber; TExpectedHex; TExpectedWhitespace; TExpectedComment;
   TExpectedCharacter; TUnterminatedRawString; TRawIdentifierMissingIdentifier; TInvalidFollowForFractionalNumber].

Inductive terror_before : terror -> terror -> Prop :=
| before_literal s t : text_before s t -> terror_before (TLiteral s) (TLiteral t)
| before_other s e : In e other_terrors -> terror_before (TLiteral s) e
| before_listed a b : listed_before other_terrors a b -> terror_before a b.

(** The lines of a list of expectations. *)
Definition lines (names : list text) : text := flat_map (fun n => str "  " ++ n ++ [10%N]) names.

(** The message for the place behind [a ++ u] in the text [a ++ u ++ v ++ b], of which
    [u ++ v] is the line there (C31 is about the first three lines of it). *)
Definition full_message (title : string) (a u v : text) (names : list text) : text :=
  str title ++ str " (line " ++ digits (newlines a + 1) ++ str ", column " ++
  digits (match a with [] => 0 | _ => 1 end + blen u) ++ str ")" ++ [newline] ++
  (match a with [] => [] | _ => [newline] end) ++ u ++ v ++ [newline] ++
  repeat 32%N (match a with [] => blen u - 1 | _ => blen u end) ++ [94%N; newline] ++
  str "Expected:" ++ [newline] ++ lines names.

(** ** Sets *)
Section Sets.
  Context {A : Type} (cmp : A -> A -> comparison) (lt : A -> A -> Prop).
  Hypothesis C : forall x y, CompareSpec (x = y) (lt x y) (lt y x) (cmp x y).
  Hypothesis I : forall x, ~ lt x x.
  Hypothesis T : forall x y z, lt x y -> lt y z -> lt x z.

  Lemma insert_in x l y : In y (set_insert cmp x l) <-> y = x \/ In y l.
  Proof.
    induction l as [|z l IH]; cbn [set_insert]; [cbn; intuition|]. destruct (C x z) as [->|L|L]; cbn [In]; [intuition congruence|intuition congruence|].
    rewrite IH. intuition.
  Qed.

  Lemma insert_sorted x l : StronglySorted lt l -> StronglySorted lt (set_insert cmp x l).
  Proof.
    induction 1 as [|z l S IH F]; cbn [set_insert]; [repeat constructor|]. destruct (C x z) as [->|L|L].
    - now constructor.
    - constructor; [now constructor|]. constructor; [exact L|]. eapply Forall_impl; [|exact F]. intros a. now apply T.
    - constructor; [exact IH|]. apply Forall_forall. intros y Iy. apply insert_in in Iy as [->|Iy]; [exact L|]. rewrite Forall_forall in F. auto.
  Qed.

  Lemma fold_ok l : forall s, StronglySorted lt s ->
    StronglySorted lt (fold_left (fun s x => set_insert cmp x s) l s) /\ forall y, In y (fold_left (fun s x => set_insert cmp x s) l s) <-> In y l \/ In y s.
  Proof.
    induction l as [|x l IH]; intros s S; cbn [fold_left]; [cbn; intuition|].
    destruct (IH _ (insert_sorted x s S)) as [H1 H2]. split; [exact H1|]. intros y. rewrite H2, insert_in. cbn [In]. intuition.
  Qed.

  Lemma set_sorted l : StronglySorted lt (set_of cmp l).
  Proof. apply fold_ok. constructor. Qed.
  Lemma set_in l y : In y (set_of cmp l) <-> In y l.
  Proof. unfold set_of. destruct (fold_ok l [] (SSorted_nil _)) as [_ H]. rewrite H. cbn. tauto. Qed.

  Lemma sorted_once l : StronglySorted lt l -> NoDup l.
  Proof. induction 1 as [|x l S IH F]; constructor; auto. intros J. rewrite Forall_forall in F. exact (I _ (F _ J)). Qed.

  Lemma sorted_unique l1 : StronglySorted lt l1 -> forall l2, StronglySorted lt l2 -> (forall x, In x l1 <-> In x l2) -> l1 = l2.
  Proof.
    induction 1 as [|x l1 S1 IH F1]; intros l2 S2 E.
    - destruct l2 as [|y l2]; [reflexivity|]. destruct (proj2 (E y) (or_introl eq_refl)).
    - destruct S2 as [|y l2 S2 F2]; [destruct (proj1 (E x) (or_introl eq_refl))|].
      rewrite Forall_forall in F1, F2.
      assert (x = y).
      { destruct (proj1 (E x) (or_introl eq_refl)) as [H|H]; [auto|]. destruct (proj2 (E y) (or_introl eq_refl)) as [H'|H']; [auto|].
        destruct (I x). eapply T; [exact (F1 _ H')|exact (F2 _ H)]. }
      subst y. f_equal. apply IH; [exact S2|]. intros z. split; intros H.
      + destruct (proj1 (E z) (or_intror H)) as [<-|H']; [|exact H']. destruct (I x (F1 _ H)).
      + destruct (proj2 (E z) (or_intror H)) as [<-|H']; [|exact H']. destruct (I x (F2 _ H)).
  Qed.

  Lemma set_same l1 l2 : (forall x, In x l1 <-> In x l2) -> set_of cmp l1 = set_of cmp l2.
  Proof. intros E. apply sorted_unique; try apply set_sorted. intros x. now rewrite !set_in. Qed.
End Sets.

(** ** The orders *)
Lemma perror_nth e : nth_error perror_list (perror_rank e) = Some e.
Proof. destruct e; reflexivity. Qed.
Lemma perror_at i e : nth_error perror_list i = Some e -> i = perror_rank e.
Proof.
  assert (N : forall i e, nth_error perror_list i = Some e -> Nat.eqb i (perror_rank e) = true).
  { assert (B : forallb (fun i => match nth_error perror_list i with Some e => Nat.eqb i (perror_rank e) | None => true end) (seq 0 (List.length perror_list)) = true) by (vm_compute; reflexivity).
    intros j x H. rewrite forallb_forall in B. specialize (B j). rewrite H in B. apply B, in_seq.
    assert (j < List.length perror_list) by (apply nth_error_Some; congruence). lia. }
  intros H. now apply Nat.eqb_eq, N.
Qed.
Lemma perror_before a b : listed_before perror_list a b <-> perror_rank a < perror_rank b.
Proof.
  split; [intros (i & j & Hi & Hj & L); apply perror_at in Hi, Hj; lia|].
  intros L. exists (perror_rank a), (perror_rank b). auto using perror_nth.
Qed.
Lemma perror_spec x y : CompareSpec (x = y) (listed_before perror_list x y) (listed_before perror_list y x) (perror_cmp x y).
Proof.
  unfold perror_cmp. destruct (Nat.compare_spec (perror_rank x) (perror_rank y)) as [E|L|L]; constructor; try now apply perror_before.
  pose proof (perror_nth x) as H. rewrite E, perror_nth in H. congruence.
Qed.
Lemma perror_irr x : ~ listed_before perror_list x x.
Proof. rewrite perror_before. lia. Qed.
Lemma perror_trans x y z : listed_before perror_list x y -> listed_before perror_list y z -> listed_before perror_list x z.
Proof. rewrite !perror_before. lia. Qed.

Lemma text_spec a : forall b, CompareSpec (a = b) (text_before a b) (text_before b a) (text_cmp a b).
Proof.
  induction a as [|x a IH]; intros [|y b]; cbn [text_cmp]; [now constructor|constructor; constructor|constructor; constructor|].
  destruct (N.compare_spec x y) as [->|L|L]; try (constructor; now constructor).
  destruct (IH b) as [->|L|L]; constructor; auto using text_before.
Qed.
Lemma text_irr a : ~ text_before a a.
Proof. induction a as [|x a IH]; intros H; inversion H; subst; [lia|auto]. Qed.
Lemma text_trans a b c : text_before a b -> text_before b c -> text_before a c.
Proof.
  intros H. revert c. induction H as [y b|x y a b L|x a b H IH]; intros c K; inversion K; subst; auto using text_before.
  constructor. lia.
Qed.

Lemma others_at i e : nth_error other_terrors i = Some e <-> S i = terror_rank e.
Proof.
  split.
  - intros H. do 10 (destruct i as [|i]; [injection H as <-; reflexivity|]). destruct i; discriminate.
  - intros H. destruct e; cbn in H; try discriminate; injection H as ->; reflexivity.
Qed.
Lemma others_before a b : listed_before other_terrors a b <-> 0 < terror_rank a < terror_rank b.
Proof.
  split.
  - intros (i & j & Hi & Hj & L). apply others_at in Hi, Hj. lia.
  - intros [H1 H2]. exists (pred (terror_rank a)), (pred (terror_rank b)). rewrite !others_at. lia.
Qed.
Lemma others_in e : In e other_terrors <-> 0 < terror_rank e.
Proof.
  split.
  - intros H. apply In_nth_error in H as [i H]. apply others_at in H. lia.
  - intros H. apply nth_error_In with (n := pred (terror_rank e)). apply others_at. lia.
Qed.
Lemma terror_spec_lt a b : terror_before a b <->
  match a, b with TLiteral s, TLiteral t => text_before s t | _, _ => terror_rank a < terror_rank b end.
Proof.
  split.
  - intros H. destruct H as [s t H|s e H|a b H]; [exact H| |].
    + apply others_in in H. destruct e; cbn in *; lia.
    + apply others_before in H. destruct a, b; cbn in *; lia.
  - destruct a as [s| | | | | | | | | |], b as [t| | | | | | | | | |]; intros H; try (now apply before_literal); try (apply before_other, others_in; cbn; lia);
      try (apply before_listed, others_before; cbn in *; lia).
Qed.
Lemma terror_spec x y : CompareSpec (x = y) (terror_before x y) (terror_before y x) (terror_cmp x y).
Proof.
  unfold terror_cmp. destruct x as [s| | | | | | | | | |], y as [t| | | | | | | | | |];
    try (destruct (text_spec s t) as [->|L|L]; constructor; [reflexivity|now constructor|now constructor]);
    cbn; constructor; try reflexivity; apply terror_spec_lt; cbn; lia.
Qed.
Lemma terror_irr x : ~ terror_before x x.
Proof. rewrite terror_spec_lt. destruct x; try lia. apply text_irr. Qed.
Lemma terror_trans x y z : terror_before x y -> terror_before y z -> terror_before x z.
Proof.
  rewrite !terror_spec_lt. destruct x as [s| | | | | | | | | |], y as [t| | | | | | | | | |], z as [u| | | | | | | | | |]; cbn; try lia. apply text_trans.
Qed.

(** ** Names *)
Lemma perror_debug_inj a b : perror_debug a = perror_debug b -> a = b.
Proof.
  assert (B : forall e, find (fun x => text_eqb (perror_debug x) (perror_debug e)) perror_list = Some e) by (intros []; vm_compute; reflexivity).
  intros E. pose proof (B a) as H. rewrite E, (B b) in H. congruence.
Qed.

Lemma escape_inj s : forall t, flat_map escape_debug s = flat_map escape_debug t -> s = t.
Proof.
  assert (K : forall c, (exists d, escape_debug c = [92%N; d] /\ (d = 34 /\ c = 34 \/ d = 92 /\ c = 92 \/ d = 110 /\ c = 10 \/ d = 114 /\ c = 13 \/ d = 116 /\ c = 9 \/ d = 48 /\ c = 0)%N) \/
    escape_debug c = [c] /\ c <> 92%N).
  { intros c. unfold escape_debug.
    destruct (N.eqb_spec c 34); [left; eexists; split; [reflexivity|tauto]|].
    destruct (N.eqb_spec c 92); [left; eexists; split; [reflexivity|tauto]|].
    destruct (N.eqb_spec c 10); [left; eexists; split; [reflexivity|tauto]|].
    destruct (N.eqb_spec c 13); [left; eexists; split; [reflexivity|tauto]|].
    destruct (N.eqb_spec c 9); [left; eexists; split; [reflexivity|tauto]|].
    destruct (N.eqb_spec c 0); [left; eexists; split; [reflexivity|tauto]|]. right. auto. }
  induction s as [|c s IH]; intros [|c' t] E; cbn [flat_map] in E; [reflexivity| | |].
  - destruct (K c') as [(d & Q & _)|[Q _]]; rewrite Q in E; discriminate.
  - destruct (K c) as [(d & Q & _)|[Q _]]; rewrite Q in E; discriminate.
  - destruct (K c) as [(d & Q & D)|[Q N]], (K c') as [(d' & Q' & D')|[Q' N']]; rewrite Q, Q' in E; cbn [app] in E; injection E as E1 E2; try congruence.
    + f_equal; [|now apply IH]. intuition congruence.
    + f_equal; [exact E1|now apply IH].
Qed.

Lemma terror_debug_inj a b : terror_debug a = terror_debug b -> a = b.
Proof.
  destruct a as [s| | | | | | | | | |], b as [t| | | | | | | | | |]; try reflexivity; try discriminate. cbn [terror_debug]. intros E.
  apply app_inv_head in E. injection E as E.
  change (flat_map escape_debug s ++ [34%N] ++ str ")" = flat_map escape_debug t ++ [34%N] ++ str ")") in E.
  apply app_inv_tail in E. apply escape_inj in E. now subst.
Qed.

Lemma no_newline_p e : ~ In 10%N (perror_debug e).
Proof. destruct e; vm_compute; intuition discriminate. Qed.
Lemma no_newline_t e : ~ In 10%N (terror_debug e).
Proof.
  destruct e as [s| | | | | | | | | |]; try (vm_compute; intuition discriminate). cbn [terror_debug]. rewrite !in_app_iff, in_flat_map.
  intros [H|[H|[(c & _ & H)|[H|H]]]]; try (cbn in H; intuition discriminate).
  unfold escape_debug in H. repeat match type of H with context [N.eqb c ?n] => destruct (N.eqb_spec c n) end; cbn in H; intuition congruence.
Qed.

Lemma lines_inj l1 : Forall (fun n => ~ In 10%N n) l1 -> forall l2, Forall (fun n => ~ In 10%N n) l2 -> lines l1 = lines l2 -> l1 = l2.
Proof.
  assert (K : forall (a b r s : text), ~ In 10%N a -> ~ In 10%N b -> a ++ 10%N :: r = b ++ 10%N :: s -> a = b /\ r = s).
  { induction a as [|x a IH]; intros [|y b] r s Na Nb E; cbn in E.
    - injection E. auto.
    - injection E as E1 E2. subst y. destruct Nb. now left.
    - injection E as E1 E2. subst x. destruct Na. now left.
    - injection E as E1 E2. subst y. destruct (IH b r s) as [-> ->]; auto; intros H; [apply Na|apply Nb]; now right. }
  induction 1 as [|x l1 Hx _ IH]; intros [|y l2] F E; try discriminate; [reflexivity|].
  inversion F; subst. unfold lines in E. cbn [flat_map] in E. rewrite <- !app_assoc in E. apply app_inv_head in E. cbn [app] in E.
  apply K in E as [-> E]; auto. f_equal. now apply IH.
Qed.

(** ** Messages *)
Lemma report_full title code l : boundary code l ->
  exists a u v b, code = a ++ u ++ v ++ b /\ l = blen (a ++ u) /\ whole_line a (u ++ v) b /\
    forall names, error_report title code l names = Some (full_message title a u v names).
Proof.
  intros B. destruct (human_ok code l B) as (a & u & v & b & -> & -> & W & _). exists a, u, v, b. split; [reflexivity|]. split; [reflexivity|]. split; [exact W|].
  intros names. destruct (report_line title names a u v b W) as (tail & H & ->). exact H.
Qed.

(** The message for a rejected text shows the line of the place and ends in a list of
    what was expected: each thing once, in the order of the declaration, and nothing but
    the errors of the outcome; at least one. *)
Theorem C63_parser_message : forall X, xid_sane X -> forall code l es, parse_rust_file X code = FileErr l es ->
  exists a u v b expected, code = a ++ u ++ v ++ b /\ l = blen (a ++ u) /\ whole_line a (u ++ v) b /\
    error_message code (FileErr l es) = Some (full_message "Unable to parse text" a u v (map perror_debug expected)) /\
    expected <> [] /\ NoDup expected /\ StronglySorted (listed_before perror_list) expected /\ forall e, In e expected <-> In e es.
Proof.
  intros X XS code l es E.
  destruct (file_error X XS code "Unable to parse text" l (List.length es)) as (NE & B & _ & _); [now rewrite E|].
  destruct (report_full "Unable to parse text" code l B) as (a & u & v & b & E1 & E2 & W & R).
  assert (ST : StronglySorted (listed_before perror_list) (set_of perror_cmp es)) by (apply set_sorted; [exact perror_spec|exact perror_trans]).
  assert (IN : forall e, In e (set_of perror_cmp es) <-> In e es) by (intros e; apply (set_in _ _ perror_spec perror_trans)).
  exists a, u, v, b, (set_of perror_cmp es). split; [exact E1|]. split; [exact E2|]. split; [exact W|]. split; [apply R|].
  split; [|split; [apply (sorted_once _ perror_irr); exact ST|split; [exact ST|exact IN]]].
  intros Z. destruct es as [|e es]; [now apply NE|]. specialize (IN e). rewrite Z in IN. apply IN. now left.
Qed.

Theorem C63_tokenizer_message : forall X, xid_sane X -> forall code te, parse_rust_file X code = FileTokErr te ->
  exists a u v b expected, code = a ++ u ++ v ++ b /\ te_location te = blen (a ++ u) /\ whole_line a (u ++ v) b /\
    error_message code (FileTokErr te) = Some (full_message "Unable to tokenize text" a u v (map terror_debug expected)) /\
    expected <> [] /\ NoDup expected /\ StronglySorted terror_before expected /\ forall e, In e expected <-> In e (te_errors te).
Proof.
  intros X XS code te E.
  destruct (file_error X XS code "Unable to tokenize text" (te_location te) (List.length (te_errors te))) as (NE & B & _ & _); [now rewrite E|].
  destruct (report_full "Unable to tokenize text" code (te_location te) B) as (a & u & v & b & E1 & E2 & W & R).
  assert (ST : StronglySorted terror_before (set_of terror_cmp (te_errors te))) by (apply set_sorted; [exact terror_spec|exact terror_trans]).
  assert (IN : forall e, In e (set_of terror_cmp (te_errors te)) <-> In e (te_errors te)) by (intros e; apply (set_in _ _ terror_spec terror_trans)).
  exists a, u, v, b, (set_of terror_cmp (te_errors te)). split; [exact E1|]. split; [exact E2|]. split; [exact W|]. split; [apply R|].
  split; [|split; [apply (sorted_once _ terror_irr); exact ST|split; [exact ST|exact IN]]].
  intros Z. destruct (te_errors te) as [|e es]; [now apply NE|]. specialize (IN e). rewrite Z in IN. apply IN. now left.
Qed.

(** Which attempts failed first, or how often, does not show. *)
Theorem C63_same_message : forall code l es es', (forall e, In e es <-> In e es') ->
  error_message code (FileErr l es) = error_message code (FileErr l es').
Proof.
  intros code l es es' E. cbn [error_message]. now rewrite (set_same _ _ perror_spec perror_irr perror_trans es es' E).
Qed.
Theorem C63_same_tokenizer_message : forall code l es es', (forall e, In e es <-> In e es') ->
  error_message code (FileTokErr (mkTokError l es)) = error_message code (FileTokErr (mkTokError l es')).
Proof.
  intros code l es es' E. cbn [error_message te_location te_errors]. now rewrite (set_same _ _ terror_spec terror_irr terror_trans es es' E).
Qed.

(** The list in the message tells the expectations: no two of them have the same name,
    and no name runs over its line. *)
Theorem C63_told_apart : forall l1 l2, lines (map perror_debug l1) = lines (map perror_debug l2) -> l1 = l2.
Proof.
  assert (F : forall l, Forall (fun n => ~ In 10%N n) (map perror_debug l)) by (intros l; apply Forall_forall; intros n I; apply in_map_iff in I as (e & <- & _); apply no_newline_p).
  intros l1 l2 E. apply lines_inj in E; auto. revert l2 E. induction l1 as [|a l1 IH]; intros [|b l2] E; try discriminate; [reflexivity|].
  injection E as E1 E2. f_equal; [now apply perror_debug_inj|auto].
Qed.
Theorem C63_tokenizer_told_apart : forall l1 l2, lines (map terror_debug l1) = lines (map terror_debug l2) -> l1 = l2.
Proof.
  assert (F : forall l, Forall (fun n => ~ In 10%N n) (map terror_debug l)) by (intros l; apply Forall_forall; intros n I; apply in_map_iff in I as (e & <- & _); apply no_newline_t).
  intros l1 l2 E. apply lines_inj in E; auto. revert l2 E. induction l1 as [|a l1 IH]; intros [|b l2] E; try discriminate; [reflexivity|].
  injection E as E1 E2. f_equal; [now apply terror_debug_inj|auto].
Qed.

(** The programs stats and dump, given these names, print these messages. *)
Definition expected_names (r : file_result) : list text :=
  match r with
  | FileTokErr e => map terror_debug (set_of terror_cmp (te_errors e))
  | FileErr _ es => map perror_debug (set_of perror_cmp es)
  | _ => []
  end.
Theorem C63_programs : forall fname code r,
  Tools.message expected_names fname code r = option_map (fun m => str "Unable to parse " ++ fname ++ [10%N] ++ m) (error_message code r).
Proof. intros fname code []; reflexivity. Qed.

Example C63_ex :
  exists l es, parse_rust_file ascii_xid (str "struct S ") = FileErr l es /\
    es = [ExpectedLeftAngle; ExpectedWhere; ExpectedLeftCurly; ExpectedLeftParen; ExpectedSemicolon] /\
    error_message (str "struct S ") (FileErr l es) = Some (str "Unable to parse text (line 1, column 9)
struct S 
        ^
Expected:
  ExpectedLeftAngle
  ExpectedLeftCurly
  ExpectedLeftParen
  ExpectedSemicolon
  ExpectedWhere
").
Proof. do 2 eexists. split; [vm_compute; reflexivity|]. split; vm_compute; reflexivity. Qed.

(** One of the expectations is recorded twice here. *)
Example C63_ex_tokenizer :
  exists te, parse_rust_file ascii_xid (str "'\q'") = FileTokErr te /\ List.length (te_errors te) = 10 /\
    error_message (str "'\q'") (FileTokErr te) = Some (str "Unable to tokenize text (line 1, column 2)
'\q'
 ^
Expected:
  Literal(""\"""")
  Literal(""'"")
  Literal(""0"")
  Literal(""\\"")
  Literal(""n"")
  Literal(""r"")
  Literal(""t"")
  Literal(""u{"")
  Literal(""x"")
").
Proof. eexists. split; [vm_compute; reflexivity|]. split; vm_compute; reflexivity. Qed.

Print Assumptions C63_parser_message.
Print Assumptions C63_tokenizer_message.
Print Assumptions C63_same_message.
Print Assumptions C63_same_tokenizer_message.
Print Assumptions C63_told_apart.
Print Assumptions C63_tokenizer_told_apart.
Print Assumptions C63_programs.
