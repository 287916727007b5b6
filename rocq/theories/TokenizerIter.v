(** The token iterator as a whole: tiling, termination, error positions. *)

From Coq Require Import String List NArith Arith Bool Lia.
From Verif Require Import Base Peresil Token Tokenizer TokenizerSpec TokenizerSafe TokenizerNum.
Import ListNotations.

(** ** Results do not depend on recorded failures *)

Definition indep {A} (p : tparser A) : Prop :=
  forall pt pm1 pm2, snd (p pm1 pt) = snd (p pm2 pt).

Lemma indep_bind {A B} (p : tparser A) (k : A -> tparser B) :
  indep p -> (forall a, indep (k a)) -> indep (bind p k).
Proof.
  intros H1 H2 pt pm1 pm2. unfold bind. specialize (H1 pt pm1 pm2).
  destruct (p pm1 pt) as [a [x1 v1|x1 e1|w1]]; destruct (p pm2 pt) as [b [x2 v2|x2 e2|w2]];
    simpl in H1; inversion H1; subst; auto. apply H2.
Qed.

Lemma indep_map {A B} (p : tparser A) (f : A -> B) : indep p -> indep (map_p p f).
Proof.
  intros H1 pt pm1 pm2. unfold map_p. specialize (H1 pt pm1 pm2).
  destruct (p pm1 pt) as [a [x1 v1|x1 e1|w1]]; destruct (p pm2 pt) as [b [x2 v2|x2 e2|w2]];
    simpl in H1; inversion H1; subst; auto.
Qed.

Lemma indep_optional {A} (p : tparser A) : indep p -> indep (t_optional p).
Proof.
  intros H1 pt pm1 pm2. unfold optional. specialize (H1 pt pm1 pm2).
  destruct (p pm1 pt) as [a [x1 v1|x1 e1|w1]]; destruct (p pm2 pt) as [b [x2 v2|x2 e2|w2]];
    simpl in H1; inversion H1; subst; auto. destruct (t_recoverable e2); auto.
Qed.

Lemma indep_not {A} (p : tparser A) e : indep p -> indep (not p e).
Proof.
  intros H1 pt pm1 pm2. unfold not. specialize (H1 pt pm1 pm2).
  destruct (p pm1 pt) as [a [x1 v1|x1 e1|w1]]; destruct (p pm2 pt) as [b [x2 v2|x2 e2|w2]];
    simpl in H1; inversion H1; subst; auto.
Qed.

Lemma indep_peek {A} (p : tparser A) : indep p -> indep (peek p).
Proof.
  intros H1 pt pm1 pm2. unfold peek. specialize (H1 pt pm1 pm2).
  destruct (p pm1 pt) as [a [x1 v1|x1 e1|w1]]; destruct (p pm2 pt) as [b [x2 v2|x2 e2|w2]];
    simpl in H1; inversion H1; subst; auto.
Qed.

Lemma indep_alternate_from {A} (ps : list (tparser A)) :
  Forall indep ps -> forall cur pt pm1 pm2,
  snd (alternate_from sp_lt t_recoverable cur ps pm1 pt) =
  snd (alternate_from sp_lt t_recoverable cur ps pm2 pt).
Proof.
  induction 1 as [|p ps Hp Hps IH]; intros cur pt pm1 pm2; simpl; auto.
  destruct cur as [x v|x e|w]; auto. destruct (t_recoverable e); auto.
  specialize (Hp pt pm1 pm2). destruct (p pm1 pt), (p pm2 pt). simpl in Hp. subst. apply IH.
Qed.

Lemma indep_alternate {A} (ps : list (tparser A)) : Forall indep ps -> indep (t_alternate ps).
Proof.
  intros F pt pm1 pm2. destruct ps as [|p ps]; auto. inversion F; subst. simpl.
  specialize (H1 pt pm1 pm2). destruct (p pm1 pt), (p pm2 pt). simpl in H1. subst.
  now apply indep_alternate_from.
Qed.

Lemma indep_zero_or_more {A} (p : tparser A) fuel :
  indep p -> indep (zero_or_more sp_lt t_recoverable fuel p).
Proof.
  intros H. induction fuel as [|fuel IH]; intros pt pm1 pm2; cbn [zero_or_more]; auto.
  specialize (H pt pm1 pm2).
  destruct (p pm1 pt) as [a [x1 v1|x1 e1|w1]]; destruct (p pm2 pt) as [b [x2 v2|x2 e2|w2]];
    simpl in H; inversion H; subst; auto.
  - specialize (IH x2 a b).
    destruct (zero_or_more _ _ fuel p a x2) as [c [x3 v3|x3 e3|w3]];
    destruct (zero_or_more _ _ fuel p b x2) as [d [x4 v4|x4 e4|w4]]; simpl in IH; inversion IH; subst; auto.
  - destruct (t_recoverable e2); auto.
Qed.

Lemma indep_ret {A} (a : A) : indep (ret a).
Proof. intros pt pm1 pm2; auto. Qed.
Lemma indep_point : indep point.
Proof. intros pt pm1 pm2; auto. Qed.
Lemma indep_ret_ex {A} spt (f : extent -> A) : indep (ret_ex spt f).
Proof. intros pt pm1 pm2. unfold ret_ex. destruct (ex spt pt); auto. Qed.
Lemma indep_consume_to o e : indep (consume_to o e).
Proof. intros pt pm1 pm2. unfold consume_to. destruct o; auto. destruct (split_at _ _) as [[]|]; auto. Qed.
Lemma indep_literal w : indep (literal w).
Proof.
  intros pt pm1 pm2. unfold literal. destruct (starts_with _ _); auto.
  apply indep_bind; [apply indep_consume_to|intros; apply indep_ret_ex].
Qed.
Lemma indep_split n e : indep (split_point_at_non_zero_offset n e).
Proof.
  intros pt pm1 pm2. unfold split_point_at_non_zero_offset. destruct (n =? 0); auto.
  destruct (split_at _ _) as [[]|]; auto.
Qed.
Lemma indep_fun {A} (p : spoint -> tparser A) :
  (forall pt, indep (p pt)) -> indep (fun pm pt => p pt pm pt).
Proof. intros H pt pm1 pm2. apply H. Qed.

Create HintDb indep.
#[export] Hint Resolve indep_bind indep_map indep_optional indep_not indep_peek indep_alternate
  indep_zero_or_more indep_ret indep_point indep_ret_ex indep_consume_to indep_literal indep_split : indep.

Ltac ind :=
  repeat (first
    [ match goal with |- forall _, _ => intro end
    | assumption
    | apply indep_bind | apply indep_map | apply indep_optional | apply indep_not
    | apply indep_peek | apply indep_alternate; repeat constructor
    | apply indep_zero_or_more | apply indep_ret | apply indep_point | apply indep_ret_ex
    | apply indep_consume_to | apply indep_literal | apply indep_split ]).


Section S.
Variable X : xid.

Lemma indep_simple_ident : indep (simple_ident X).
Proof. apply (indep_fun (fun pt => map_p (split_point_at_non_zero_offset (ident_len X (p_s pt)) TExpectedIdent) snd)). ind. Qed.

Lemma indep_keyword_or_ident : indep (keyword_or_ident X).
Proof.
  intros pt pm1 pm2. unfold keyword_or_ident. destruct (starts_with _ _).
  - destruct (split_at _ _) as [[]|]; auto. destruct (_ =? 0); auto. apply indep_map, indep_split.
  - apply indep_map, indep_split.
Qed.

Lemma indep_number_digits b : indep (number_digits b).
Proof. intros pt pm1 pm2. unfold number_digits. apply indep_map, indep_split. Qed.

Lemma indep_hex_string : indep hex_string.
Proof. intros pt pm1 pm2. unfold hex_string. apply indep_consume_to. Qed.

Lemma indep_number_fractional b : indep (number_fractional X b).
Proof.
  pose proof indep_simple_ident. pose proof (indep_number_digits b).
  unfold number_fractional. ind.
Qed.

Lemma indep_number_base p b r : indep (number_base X p b r).
Proof.
  unfold number_base. apply indep_bind; [apply indep_literal|]. intros _.
  apply indep_bind; [apply indep_number_digits|]. intros []. 
  apply indep_bind; [apply indep_optional, indep_number_fractional|]. ind.
Qed.

Lemma indep_number_p : indep (number_p X).
Proof.
  unfold number_p. apply indep_bind; [apply indep_point|]. intros spt.
  apply indep_bind.
  { apply indep_alternate. repeat constructor; apply indep_number_base. }
  intros [[[? ?] ?] ?].
  apply indep_bind.
  { apply indep_optional, indep_alternate.
    repeat constructor; unfold number_exponent_lowercase, number_exponent_uppercase;
      (apply indep_bind; [apply indep_literal|]; intros _;
       apply indep_bind; [apply indep_number_digits|]; intros []; apply indep_ret). }
  intros expo. apply indep_bind; [apply indep_optional, indep_simple_ident|]. ind.
Qed.

Lemma indep_comment : indep comment_or_doc_comment.
Proof.
  intros pt pm1 pm2. unfold comment_or_doc_comment.
  assert (H : forall k o, snd (comment_token k o pm1 pt) = snd (comment_token k o pm2 pt)).
  { intros k o. unfold comment_token. destruct o; auto.
    apply indep_bind; [apply indep_consume_to|]. intros. apply indep_ret_ex. }
  repeat match goal with |- context [if ?b then _ else _] => destruct b end; auto.
Qed.

Lemma indep_character : indep character.
Proof.
  assert (indep single_char) by (intros pt pm1 pm2; unfold single_char; destruct (p_s pt); auto).
  pose proof indep_hex_string.
  assert (indep escaped_char_hex) by (unfold escaped_char_hex; ind).
  assert (indep escaped_char_unicode) by (unfold escaped_char_unicode; ind).
  assert (indep escaped_char_code) by (unfold escaped_char_code; ind).
  assert (indep escaped_char) by (unfold escaped_char; ind).
  unfold character, character_char. ind.
Qed.

Lemma indep_string_p : indep string_p.
Proof.
  assert (indep string_char).
  { intros pt pm1 pm2. unfold string_char. destruct (split_at _ _) as [[]|]; auto. }
  unfold string_p. ind.
Qed.

Lemma indep_string_raw : indep string_raw.
Proof.
  assert (indep hashes_p).
  { apply (indep_fun (fun pt => zero_or_more sp_lt t_recoverable (S (List.length (p_s pt))) (literal (str "#")))). ind. }
  assert (forall n, indep (raw_string_tail n)).
  { intros n pt pm1 pm2. unfold raw_string_tail. destruct (find_str _ _); auto.
    destruct (split_at _ _) as [[]|]; auto. destruct (split_at _ _) as [[]|]; auto. }
  unfold string_raw. ind. apply H0.
Qed.

Lemma indep_whitespace : indep whitespace.
Proof. intros pt pm1 pm2. unfold whitespace. apply indep_map, indep_split. Qed.

Lemma indep_alts : Forall indep (single_token_alts X).
Proof.
  unfold single_token_alts. apply Forall_app. split.
  { pose proof indep_character. pose proof indep_string_p. pose proof indep_string_raw.
    pose proof indep_simple_ident.
    repeat constructor; try apply indep_comment; apply indep_map;
      unfold byte_p, byte_string, byte_string_raw, lifetime_p; ind. }
  apply Forall_app. split.
  { apply Forall_map. apply Forall_forall. intros [s k] _. ind. }
  repeat constructor; [apply indep_keyword_or_ident|apply indep_map, indep_number_p|apply indep_map, indep_whitespace].
Qed.

Lemma indep_single_token : indep (single_token X).
Proof. apply indep_alternate, indep_alts. Qed.

(** ** One step of the iterator *)

(** The iterator over [code] has consumed a prefix. *)
Definition inv (code : text) (st : tokens_state) : Prop :=
  exists pre, code = pre ++ p_s (ts_pt st) /\ p_off (ts_pt st) = blen pre /\
              fails_ok (boundary code) (ts_pm st).

Lemma inv_new code : inv code (tokens_new code).
Proof.
  exists []. simpl. repeat split; auto.
  - exists [], code; auto.
  - simpl. lia.
Qed.

Lemma reach_boundary code pre pt pt' :
  code = pre ++ p_s pt -> p_off pt = blen pre -> reach pt pt' ->
  exists pre', code = pre' ++ p_s pt' /\ p_off pt' = blen pre' /\ exists w, pre' = pre ++ w /\ p_s pt = w ++ p_s pt'.
Proof.
  intros E O (w & E' & O'). exists (pre ++ w). rewrite <- app_assoc, <- E', blen_app.
  split; auto. split; [lia|]. eauto.
Qed.

(** Everything that can happen in one call. *)
Lemma next_cases code st :
  inv code st -> ts_exhausted st = false ->
  (p_s (ts_pt st) = [] /\
   tokens_next X st = (mkTokens (ts_pm st) (ts_pt st) true,
                     NextOk (Tk KEndOfFile (p_off (ts_pt st), p_off (ts_pt st))))) \/
  (exists pm' pt' t, p_s (ts_pt st) <> [] /\
   tokens_next X st = (mkTokens pm' pt' false, NextOk t) /\
   inv code (mkTokens pm' pt' false) /\ reach (ts_pt st) pt' /\ tok_ok X (ts_pt st) pt' t) \/
  (exists pm' e, p_s (ts_pt st) <> [] /\
   tokens_next X st = (mkTokens pm' (ts_pt st) false, NextErr e) /\
   inv code (mkTokens pm' (ts_pt st) false) /\
   boundary code (te_location e) /\ te_errors e <> []).
Proof.
  intros (pre & E & O & F) NE. destruct st as [pm pt ex]. simpl in *. subst ex.
  unfold tokens_next. cbn [ts_exhausted ts_pt ts_pm].
  destruct (p_s pt) as [|c r] eqn:Es; [left; auto|right].
  pose proof (good_single_token X pm pt) as G.
  rewrite <- Es in E.
  assert (HB : forall pt', reach pt pt' -> boundary code (p_off pt')).
  { intros pt' R. destruct (reach_boundary _ _ _ _ E O R) as (pre' & E' & O' & _).
    exists pre', (p_s pt'). auto. }
  destruct (single_token X pm pt) as [pm1 [pt1 v|pt1 e|w]]; [left|right|contradiction].
  - destruct G as (R & T & K). simpl.
    destruct (Nat.eqb_spec (p_off pt) (p_off pt1)) as [Z|Z].
    { destruct T as (_ & L & _). lia. }
    exists pm1, pt1, v. split; [discriminate|]. split; auto. split; auto.
    destruct (reach_boundary _ _ _ _ E O R) as (pre' & E' & O' & _).
    exists pre'. cbn [ts_pt ts_pm]. split; [assumption|]. split; [assumption|]. exact (K _ HB F).
  - destruct G as (R & K). specialize (K _ HB F). simpl.
    do 2 eexists. split; [discriminate|]. split; [reflexivity|]. split.
    { exists pre. simpl. split; auto. split; auto. split; simpl; [|lia].
      exists [], code; auto. }
    simpl. pose proof (keeps_record pt pt1 pm1 e R _ HB K) as [K1 K2]. split; auto.
    cbn [record_failure m_failures] in K2.
    destruct (Nat.eq_dec (p_off (f_point (add_failure sp_lt (m_failures pm1) pt1 e))) 0) as [Z|Z].
    + revert Z. unfold add_failure, sp_lt.
      destruct (Nat.ltb_spec (p_off pt1) (p_off (f_point (m_failures pm1)))); [lia|].
      destruct (Nat.ltb_spec (p_off (f_point (m_failures pm1))) (p_off pt1)); simpl; intros _.
      * discriminate.
      * intros Hn. apply app_eq_nil in Hn as [_ Hn]. discriminate.
    + apply K2. lia.
Qed.

Lemma next_err_again st pm' e :
  tokens_next X st = (mkTokens pm' (ts_pt st) false, NextErr e) ->
  forall pm, exists pm'' e'', tokens_next X (mkTokens pm (ts_pt st) false) = (mkTokens pm'' (ts_pt st) false, NextErr e'').
Proof.
  unfold tokens_next. destruct st as [pm0 pt ex]. cbn [ts_exhausted ts_pt ts_pm].
  destruct ex; [discriminate|]. destruct (p_s pt) as [|c r] eqn:Es; [discriminate|].
  intros H pm. pose proof (indep_single_token pt pm0 pm) as I.
  destruct (single_token X pm0 pt) as [pm1 [pt1 v|pt1 e1|w]]; simpl in I;
  destruct (single_token X pm pt) as [pm2 [pt2 v2|pt2 e2|w2]]; simpl in I; inversion I; subst; simpl in *.
  - destruct (_ =? _); discriminate.
  - eauto.
  - discriminate.
Qed.

(** ** The whole iteration *)

Definition tok_valid (code : text) (t : token) : Prop :=
  Forall (valid_extent code) (token_extents t).

Lemma reach_valid code pre pt a b :
  code = pre ++ p_s pt -> p_off pt = blen pre -> reach pt a -> reach a b ->
  valid_extent code (p_off a, p_off b).
Proof.
  intros E O R1 R2.
  destruct (reach_boundary _ _ _ _ E O R1) as (p1 & E1 & O1 & _).
  destruct (reach_boundary _ _ _ _ E O (reach_trans _ _ _ R1 R2)) as (p2 & E2 & O2 & _).
  split; [simpl; now apply reach_off|].
  split; simpl; [exists p1, (p_s a)|exists p2, (p_s b)]; auto.
Qed.

Lemma boundary_app pre w s : boundary (pre ++ w ++ s) (blen pre + blen w).
Proof. exists (pre ++ w), s. rewrite app_assoc, blen_app; auto. Qed.

Lemma shape_valid code pre s off n rest :
  code = pre ++ s -> off = blen pre -> number_shape X s off n rest -> tok_valid code (TkNumber n).
Proof.
  intros -> -> (prefix & digits & frac & expo & suffix & base & -> & _ & _ & _ & HI & _ & HF & HE & HS & HX).
  set (whole := pre ++ prefix ++ digits ++ frac ++ expo ++ suffix ++ rest).
  assert (B : forall w r, prefix ++ digits ++ frac ++ expo ++ suffix ++ rest = w ++ r ->
              boundary whole (blen pre + blen w)).
  { intros w r Ew. unfold whole. rewrite Ew. apply boundary_app. }
  assert (V : forall w1 w2 r, prefix ++ digits ++ frac ++ expo ++ suffix ++ rest = w1 ++ w2 ++ r ->
              valid_extent whole (blen pre + blen w1, blen pre + blen w1 + blen w2)).
  { intros w1 w2 r Ew. split; [simpl; lia|]. split; simpl.
    - eapply B; eauto.
    - replace (blen pre + blen w1 + blen w2) with (blen pre + blen (w1 ++ w2)) by (rewrite blen_app; lia).
      eapply B. rewrite Ew, app_assoc; eauto. }
  unfold tok_valid. cbn [token_extents]. constructor; [|constructor].
  - rewrite HX.
    replace (blen pre) with (blen pre + blen []) at 1 by (simpl; lia).
    replace (blen pre + blen (prefix ++ digits ++ frac ++ expo ++ suffix))
      with (blen pre + blen [] + blen (prefix ++ digits ++ frac ++ expo ++ suffix)) by (simpl; lia).
    apply V with (r := rest). simpl. rewrite <- !app_assoc. auto.
  - rewrite HI. eapply V. reflexivity.
  - apply Forall_app. split; [|apply Forall_app; split].
    + destruct (n_fractional n) as [e|]; constructor; auto. destruct HF as [-> _].
      replace (blen pre + blen (prefix ++ digits ++ frac))
        with (blen pre + blen (prefix ++ digits) + blen frac) by (rewrite !blen_app; lia).
      eapply V. rewrite <- !app_assoc. reflexivity.
    + destruct (n_exponent n) as [e|]; constructor; auto. destruct HE as [-> (c & ds & -> & C & _)].
      assert (L : len_utf8 c = 1) by (destruct C; subst; reflexivity).
      replace (blen pre + blen (prefix ++ digits ++ frac) + 1)
        with (blen pre + blen (prefix ++ digits ++ frac ++ [c])) by (rewrite !blen_app; simpl; lia).
      replace (blen pre + blen (prefix ++ digits ++ frac ++ c :: ds))
        with (blen pre + blen (prefix ++ digits ++ frac ++ [c]) + blen ds) by (rewrite !blen_app; simpl; lia).
      eapply V. rewrite <- !app_assoc. reflexivity.
    + destruct (n_type_suffix n) as [e|]; constructor; auto. destruct HS as [-> _].
      replace (blen pre + blen (prefix ++ digits ++ frac ++ expo ++ suffix))
        with (blen pre + blen (prefix ++ digits ++ frac ++ expo) + blen suffix) by (rewrite !blen_app; lia).
      eapply V. rewrite <- !app_assoc. reflexivity.
Qed.

Lemma tok_ok_valid code st pt' t :
  inv code st -> reach (ts_pt st) pt' -> tok_ok X (ts_pt st) pt' t -> tok_valid code t.
Proof.
  intros (pre & E & O & _) R (TE & L & N). destruct t as [k e|n]; simpl in *.
  - subst e. apply Forall_cons; [|apply Forall_nil]. eapply reach_valid; eauto using reach_refl.
  - eapply shape_valid; eauto.
Qed.

(** Result of collecting from a state in the middle of the text. *)
Lemma collect_spec code : forall fuel st,
  inv code st -> ts_exhausted st = false -> List.length (p_s (ts_pt st)) + 1 < fuel ->
  match collect X fuel st with
  | TokOk ts =>
      exists init o, ts = init ++ [Tk KEndOfFile (o, o)] /\ o = blen code /\
        contiguous (p_off (ts_pt st)) (map token_extent init) o /\
        Forall (fun t => fst (token_extent t) < snd (token_extent t)) init /\
        Forall (tok_valid code) ts /\
        List.length ts <= List.length (p_s (ts_pt st)) + 1 /\
        (forall i t, nth_error ts i = Some t -> nth_call X i st = NextOk t) /\
        (forall i, List.length ts <= i -> nth_call X i st = NextNone)
  | TokErr e =>
      boundary code (te_location e) /\ te_errors e <> [] /\
      exists n, n <= List.length (p_s (ts_pt st)) /\
        (forall i, i < n -> exists t, nth_call X i st = NextOk t) /\
        nth_call X n st = NextErr e /\
        (forall i, n <= i -> exists e', nth_call X i st = NextErr e')
  | TokAbort _ => False
  end.
Proof.
  induction fuel as [|fuel IH]; intros st I NE L; [lia|].
  cbn [collect].
  destruct (next_cases code st I NE) as [(Es & EQ)|[(pm' & pt' & t & Es & EQ & I' & R & T)|(pm' & e & Es & EQ & I' & B & K)]].
  - rewrite EQ. destruct fuel as [|fuel']; [lia|]. cbn [collect].
    unfold tokens_next at 1. cbn [ts_exhausted].
    destruct I as (pre & E & O & F). rewrite Es, app_nil_r in E. subst pre.
    exists [], (p_off (ts_pt st)). simpl. split; auto. split; auto. split; auto. split; auto.
    split. { repeat constructor; simpl; auto; rewrite O; exists code, []; rewrite app_nil_r; auto. }
    split; [lia|]. split.
    + intros [|i] t; simpl; [|destruct i; discriminate]. rewrite EQ. simpl. congruence.
    + intros [|i] Hi; simpl; [lia|]. rewrite EQ. simpl.
      assert (H : forall j, nth_call X j (mkTokens (ts_pm st) (ts_pt st) true) = NextNone)
        by (induction j; simpl; auto).
      apply H.
  - rewrite EQ.
    assert (L' : List.length (p_s pt') < List.length (p_s (ts_pt st))).
    { destruct T as (_ & Lt & _). destruct R as (w & Ew & Ow). rewrite Ew, app_length.
      destruct w; [simpl in Ow; lia|simpl; lia]. }
    specialize (IH (mkTokens pm' pt' false) I' eq_refl). cbn [ts_pt] in IH.
    specialize (IH ltac:(lia)).
    pose proof (tok_ok_valid _ _ _ _ I R T) as TV.
    destruct (collect X fuel (mkTokens pm' pt' false)) as [ts|e|w]; [| |contradiction].
    + destruct IH as (init & o & -> & Ho & C & F & V & Len & N1 & N2).
      exists (t :: init), o. split; auto. split; auto.
      destruct T as (TE & Lt & _).
      split. { simpl. rewrite TE. simpl. split; auto. }
      split. { constructor; auto. rewrite TE; auto. }
      split. { constructor; auto. }
      split. { simpl. lia. }
      split.
      * intros [|i] t' Hn; simpl in Hn; simpl; rewrite EQ; simpl; [congruence|].
        apply N1; auto.
      * intros [|i] Hi; simpl in Hi; [lia|]. simpl. rewrite EQ. apply N2. lia.
    + destruct IH as (B & K & n & Ln & H1 & H2 & H3). split; auto. split; auto.
      exists (S n). split; [lia|]. split; [|split].
      * intros [|i] Hi; simpl; rewrite EQ; simpl; eauto. apply H1. lia.
      * simpl. rewrite EQ. auto.
      * intros [|i] Hi; [lia|]. simpl. rewrite EQ. simpl. apply H3. lia.
  - rewrite EQ. split; auto. split; auto. exists 0. split; [lia|].
    split; [intros; lia|]. split; [simpl; rewrite EQ; auto|].
    assert (H : forall i pm0, exists e', nth_call X i (mkTokens pm0 (ts_pt st) false) = NextErr e').
    { induction i as [|i IHi]; intros pm0.
      - destruct (next_err_again _ _ _ EQ pm0) as (a & b & E2). simpl. rewrite E2. simpl. eauto.
      - destruct (next_err_again _ _ _ EQ pm0) as (a & b & E2). simpl. rewrite E2. simpl. apply IHi. }
    intros i _. destruct st as [pm0 pt0 ex0]. simpl in NE. subst ex0. apply H.
Qed.

Lemma tokenize_spec code :
  match tokenize X code with
  | TokOk ts =>
      exists init, ts = init ++ [Tk KEndOfFile (blen code, blen code)] /\
        contiguous 0 (map token_extent init) (blen code) /\
        Forall (fun t => fst (token_extent t) < snd (token_extent t)) init /\
        Forall (tok_valid code) ts /\
        List.length ts <= List.length code + 1 /\
        (forall i t, nth_error ts i = Some t -> nth_call X i (tokens_new code) = NextOk t) /\
        (forall i, List.length ts <= i -> nth_call X i (tokens_new code) = NextNone)
  | TokErr e =>
      boundary code (te_location e) /\ te_errors e <> [] /\
      exists n, n <= List.length code /\
        (forall i, i < n -> exists t, nth_call X i (tokens_new code) = NextOk t) /\
        nth_call X n (tokens_new code) = NextErr e /\
        (forall i, n <= i -> exists e', nth_call X i (tokens_new code) = NextErr e')
  | TokAbort _ => False
  end.
Proof.
  pose proof (collect_spec code (S (S (List.length code))) (tokens_new code) (inv_new code) eq_refl) as H.
  unfold tokenize. cbn [tokens_new ts_pt p_s p_off] in H. specialize (H ltac:(lia)).
  destruct (collect X _ _) as [ts|e|w]; auto.
  destruct H as (init & o & -> & -> & H). exists init. tauto.
Qed.

(** Contiguous extents cut the text into the token texts. *)
Lemma contiguous_texts code : forall ts o o' pre,
  contiguous o (map token_extent ts) o' -> blen pre = o ->
  (exists s, code = pre ++ s) ->
  Forall (tok_valid code) ts -> 
  exists contents rest, texts_of code ts contents /\ code = pre ++ concat contents ++ rest /\
                        blen (pre ++ concat contents) = o'.
Proof.
  induction ts as [|t ts IH]; intros o o' pre C O (s & Ec) V; simpl in C.
  - subst. exists [], s. split; [constructor|]. simpl. rewrite app_nil_r. auto.
  - destruct C as [C1 C2]. apply Forall_cons_iff in V as [V1 V2]. rewrite <- O in C1. subst code.
    assert (Ht : exists w, token_text (pre ++ s) t = Some w /\ exists s', s = w ++ s' /\ blen (pre ++ w) = snd (token_extent t)).
    { assert (HV : valid_extent (pre ++ s) (token_extent t)).
      { destruct t; apply Forall_cons_iff in V1 as [V1 _]; exact V1. }
      destruct HV as (Le & _ & (a & b & Eb & Lb)).
      unfold token_text, slice. rewrite Lb, Eb, split_at_app.
      assert (exists w, a = pre ++ w) as (w & ->).
      { rewrite C1, Lb in Le. clear - Eb Le. revert a Eb Le.
        induction pre as [|c pre IHp]; intros a Eb Le; [eexists; reflexivity|].
        destruct a as [|c' a]; simpl in *. { pose proof (len_utf8_pos c). lia. }
        inversion Eb; subst. destruct (IHp a H1) as (w & ->); [lia|]. exists w; auto. }
      rewrite C1, split_at_app. exists w. split; auto. exists b. split; auto.
      rewrite <- app_assoc in Eb. now apply app_inv_head in Eb. }
    destruct Ht as (w & Hw & s' & -> & Lw).
    destruct (IH (snd (token_extent t)) o' (pre ++ w) C2 Lw) as (cs & rest & T & Ec & Lc).
    { exists s'. now rewrite app_assoc. }
    { exact V2. }
    exists (w :: cs), rest. split; [constructor; auto|]. simpl. rewrite <- !app_assoc in *. auto.
Qed.

End S.
