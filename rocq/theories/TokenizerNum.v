(** Structure of number tokens and of the remaining token parsers. *)

From Coq Require Import String List NArith Arith Bool Lia.
From Verif Require Import Base Peresil Token Tokenizer TokenizerSpec TokenizerSafe.
Import ListNotations.

Lemma is_digit_spec b c : is_digit b c = true <-> digit_of b c.
Proof.
  unfold is_digit, digit_of, digit_value.
  destruct ((48 <=? c) && (c <=? 57))%N%bool.
  { rewrite N.ltb_lt. split; [eauto|]. intros (v & E & L). inversion E; subst; auto. }
  destruct ((97 <=? c) && (c <=? 102))%N%bool eqn:E1.
  { apply andb_true_iff in E1 as [E1 _]. apply N.leb_le in E1.
    rewrite N.ltb_lt. split.
    - intros. eexists; split; eauto. lia.
    - intros (v & E & L). inversion E; subst; lia. }
  destruct ((65 <=? c) && (c <=? 70))%N%bool eqn:E2.
  { apply andb_true_iff in E2 as [E2 _]. apply N.leb_le in E2.
    rewrite N.ltb_lt. split.
    - intros. eexists; split; eauto. lia.
    - intros (v & E & L). inversion E; subst; lia. }
  split; [discriminate|]. intros (v & E & _). discriminate.
Qed.

Lemma digit_us_forall b m :
  forallb (fun c => is_digit b c || N.eqb c underscore) m = true -> Forall (digit_or_underscore b) m.
Proof.
  intros H. apply Forall_forall. intros c I. rewrite forallb_forall in H.
  specialize (H c I). apply orb_true_iff in H as [H|H].
  - left. now apply is_digit_spec.
  - right. now apply N.eqb_eq.
Qed.

(** What a parser consumed, as text. *)
Definition ate (pt pt' : spoint) (w : text) : Prop :=
  p_s pt = w ++ p_s pt' /\ p_off pt' = p_off pt + blen w.

Lemma ate_reach pt pt' w : ate pt pt' w -> reach pt pt'.
Proof. intros [E O]. exists w; auto. Qed.

Lemma reach_ate pt pt' : reach pt pt' -> exists w, ate pt pt' w.
Proof. intros (w & E & O). exists w; split; auto. Qed.

Lemma ate_trans a b c v w : ate a b v -> ate b c w -> ate a c (v ++ w).
Proof. intros [E1 O1] [E2 O2]. split; [rewrite E1, E2, app_assoc; auto|rewrite blen_app; lia]. Qed.

Lemma take_while_split_blen p s m r :
  s = m ++ r -> blen m = take_while_len p s ->
  forallb p m = true /\ (r = [] \/ exists c r', r = c :: r' /\ p c = false).
Proof.
  intros -> E. destruct (take_while_len_spec p (m ++ r)) as (a & b & Eq & L & F & B).
  assert (a = m /\ b = r) as [-> ->]; auto.
  { assert (S1 := split_at_app m r). assert (S2 := split_at_app a b).
    rewrite <- Eq, <- L, <- E, S1 in S2. inversion S2; auto. }
Qed.

Section S.
Variable X : xid.

Lemma good_number_digits b :
  good (number_digits b) (fun pt pt' '(e, u) =>
    exists m, ate pt pt' m /\ m <> [] /\ Forall (digit_or_underscore b) m /\
      u = count_char m 95%N /\ e = (p_off pt, p_off pt') /\
      (forall c r, p_s pt' = c :: r -> ~ digit_or_underscore b c)).
Proof.
  unfold number_digits.
  set (P := fun c : char => is_digit b c || N.eqb c underscore).
  eapply good_map with
    (p := fun pm pt => split_point_at_non_zero_offset (take_while_len P (p_s pt)) TExpectedNumber pm pt)
    (f := fun '(s, e) => (e, count_char s underscore)).
  - apply good_split with (t := take_while_len P); auto. apply take_while_len_split.
  - intros pt pt' [m x] R (E & L & NE & O & ->).
    exists m. split; [split; auto|]. split; auto.
    destruct (take_while_split_blen P _ _ _ E L) as [F B].
    split; [now apply digit_us_forall|]. split; auto. split; auto.
    intros c r Er Dc. destruct B as [B|(c' & r' & B & Pc)]; [congruence|].
    rewrite Er in B. inversion B; subst. unfold P in Pc. apply orb_false_iff in Pc as [P1 P2].
    destruct Dc as [D|D]; [apply is_digit_spec in D; congruence|].
    subst. unfold underscore in P2. rewrite N.eqb_refl in P2. discriminate.
Qed.

Lemma ident_len_ident s a b :
  s = a ++ b -> ident_len X s = blen a -> a <> [] -> is_ident X a /\ ident_stops X b.
Proof.
  intros E L NE. destruct a as [|c a]; [congruence|]. subst. simpl in L.
  pose proof (len_utf8_pos c).
  destruct (xid_start X c || N.eqb c underscore) eqn:Hc; [|lia].
  assert (L' : blen a = take_while_len (xid_continue X) (a ++ b)) by lia.
  destruct (take_while_split_blen _ _ _ _ eq_refl L') as [F B].
  split.
  - simpl. split.
    + apply orb_true_iff in Hc as [Hc|Hc]; auto. apply N.eqb_eq in Hc; auto.
    + apply Forall_forall. now rewrite forallb_forall in F.
  - destruct B as [->|(c' & r' & -> & P)]; simpl; auto.
Qed.

Lemma ident_len_zero s : ident_len X s = 0 <-> no_ident X s.
Proof.
  destruct s as [|c s]; simpl; [tauto|].
  pose proof (len_utf8_pos c). destruct (xid_start X c) eqn:Hx; simpl.
  - split; [lia|]. intros []; discriminate.
  - destruct (N.eqb_spec c underscore) as [->|NE]; simpl.
    + split; [lia|]. intros [_ F]. exfalso; apply F; reflexivity.
    + split; auto.
Qed.

Lemma good_simple_ident_text :
  good (simple_ident X) (fun pt pt' e =>
    exists w, ate pt pt' w /\ is_ident X w /\ ident_stops X (p_s pt') /\ e = (p_off pt, p_off pt')).
Proof.
  unfold simple_ident.
  eapply good_map with (f := snd)
    (p := fun pm pt => split_point_at_non_zero_offset (ident_len X (p_s pt)) TExpectedIdent pm pt).
  - apply good_split with (t := ident_len X); auto. apply ident_len_spec.
  - intros a b [m x] R (E & L & NE & O & ->). simpl. exists m. split; [split; auto|].
    destruct (ident_len_ident _ _ _ E (eq_sym L) NE). auto.
Qed.

(** When does [simple_ident] fail? *)
Lemma simple_ident_fails pm pt :
  no_ident X (p_s pt) -> simple_ident X pm pt = (pm, Failure pt TExpectedIdent).
Proof.
  intros H. apply ident_len_zero in H. unfold simple_ident, map_p, split_point_at_non_zero_offset.
  now rewrite H.
Qed.

Lemma simple_ident_outcome pm pt :
  (no_ident X (p_s pt) /\ simple_ident X pm pt = (pm, Failure pt TExpectedIdent)) \/
  (exists pt' e, ~ no_ident X (p_s pt) /\ simple_ident X pm pt = (pm, Success pt' e)).
Proof.
  destruct (Nat.eq_dec (ident_len X (p_s pt)) 0) as [Z|Z].
  - left. apply ident_len_zero in Z. split; auto. now apply simple_ident_fails.
  - right. unfold simple_ident, map_p, split_point_at_non_zero_offset.
    destruct (Nat.eqb_spec (ident_len X (p_s pt)) 0); [congruence|].
    destruct (ident_len_spec X (p_s pt)) as (a & b & E & L). rewrite L, E, split_at_app.
    do 2 eexists. split; [rewrite <- E, <- ident_len_zero; auto|reflexivity].
Qed.

Lemma literal_outcome w pm pt :
  (exists r, p_s pt = w ++ r /\ literal w pm pt = (pm, Success (mkPt r (p_off pt + blen w)) (p_off pt, p_off pt + blen w))) \/
  ((forall r, p_s pt <> w ++ r) /\ literal w pm pt = (pm, Failure pt (TLiteral w))).
Proof.
  unfold literal. destruct (starts_with (p_s pt) w) eqn:S.
  - left. apply starts_with_spec in S as [r S]. exists r. split; auto.
    unfold bind, consume_to. rewrite S, split_at_app. rewrite run_ret_ex; [reflexivity|].
    exists w; auto.
  - right. split; auto. intros r E. rewrite E, starts_with_app in S. discriminate.
Qed.

Definition frac_ok b (pt pt' : spoint) (e : extent) : Prop :=
  exists ds r, ate pt pt' (46%N :: ds) /\ p_s pt = 46%N :: r /\
    Forall (digit_or_underscore b) ds /\ e = (p_off pt, p_off pt') /\
    no_ident X r /\ ~ (exists r', r = 46%N :: r').

Lemma good_number_fractional b : good (number_fractional X b) (frac_ok b).
Proof.
  intros pm pt.
  unfold number_fractional.
  change (bind point ?k pm pt) with (k pt pm pt). cbv beta.
  unfold bind at 1.
  destruct (literal_outcome (str ".") pm pt) as [(r & E & ->)|(_ & ->)];
    [|split; [apply reach_refl|apply keeps_refl]].
  change (blen (str ".")) with 1. change (str "." ++ r) with (46%N :: r) in E.
  set (pt1 := mkPt r (p_off pt + 1)).
  assert (A1 : ate pt pt1 [46%N]) by (split; simpl; auto).
  unfold bind at 1. unfold not at 1, peek at 1.
  destruct (literal_outcome (str ".") pm pt1) as [(r' & E' & ->)|(N1 & ->)];
    [split; [eapply ate_reach; eauto|apply keeps_refl]|].
  unfold bind at 1. unfold not at 1, peek at 1.
  destruct (simple_ident_outcome pm pt1) as [(NI & ->)|(q & e & _ & ->)];
    [|split; [eapply ate_reach; eauto|apply keeps_refl]].
  unfold bind at 1.
  pose proof (good_optional _ _ (good_number_digits b) pm pt1) as G.
  destruct (t_optional (number_digits b) pm pt1) as [pm2 [pt2 o|pt2 e|w]].
  - destruct G as (R2 & Q2 & K2).
    assert (R : reach pt pt2) by (eapply reach_trans; [eapply ate_reach; eauto|auto]).
    rewrite run_ret_ex by auto. split; auto. split.
    + assert (exists ds, ate pt1 pt2 ds /\ Forall (digit_or_underscore b) ds) as (ds & A2 & F).
      { destruct o as [[e u]|].
        - destruct Q2 as (m & A & _ & F & _). eauto.
        - subst. exists []. split; [split; simpl; auto|constructor]. }
      exists ds, r. split; [apply (ate_trans _ _ _ _ _ A1 A2)|]. split; auto.
      split; auto. split; auto. split; auto.
      intros (r' & ->). apply (N1 r'). reflexivity.
    + eapply keeps_trans; [eapply ate_reach; exact A1|apply keeps_refl|auto].
  - destruct G as (R2 & K2). split.
    + eapply reach_trans; [eapply ate_reach; eauto|auto].
    + eapply keeps_trans; [eapply ate_reach; exact A1|apply keeps_refl|auto].
  - auto.
Qed.

Definition base_ok (pt pt' : spoint) (v : radix * extent * option extent * nat) : Prop :=
  let '(rx, integral, fractional, us) := v in
  exists prefix digits frac base,
    ate pt pt' (prefix ++ digits ++ frac) /\
    ((rx = RBinary /\ prefix = str "0b" /\ base = 2%N) \/
     (rx = RHexadecimal /\ prefix = str "0x" /\ base = 16%N) \/
     (rx = ROctal /\ prefix = str "0o" /\ base = 8%N) \/
     (rx = RDecimal /\ prefix = [] /\ base = 10%N)) /\
    digits <> [] /\ Forall (digit_or_underscore base) digits /\
    integral = (p_off pt + blen prefix, p_off pt + blen prefix + blen digits) /\
    us = count_char digits 95%N /\
    match fractional with
    | None => frac = []
    | Some e =>
        e = (p_off pt + blen (prefix ++ digits), p_off pt + blen (prefix ++ digits ++ frac)) /\
        (exists ds, frac = 46%N :: ds /\ Forall (digit_or_underscore base) ds /\
           no_ident X (ds ++ p_s pt') /\ ~ (exists r, ds ++ p_s pt' = 46%N :: r))
    end.

Lemma good_number_base prefix base rx :
  ((rx = RBinary /\ prefix = str "0b" /\ base = 2%N) \/
   (rx = RHexadecimal /\ prefix = str "0x" /\ base = 16%N) \/
   (rx = ROctal /\ prefix = str "0o" /\ base = 8%N) \/
   (rx = RDecimal /\ prefix = [] /\ base = 10%N)) ->
  good (number_base X prefix base rx) base_ok.
Proof.
  intros HR pm pt. unfold number_base.
  pose proof (reach_refl pt) as R0. pose proof (keeps_refl pt pm) as K0.
  step (good_literal prefix).
  step (good_number_digits base). destruct v0 as [integral us].
  step (good_optional _ _ (good_number_fractional base)).
  unfold ret. split; [assumption|]. split; [|assumption].
  destruct Q as (-> & O1 & E1). destruct Q0 as (digits & A2 & NE & F & -> & -> & _).
  assert (A1 : ate pt pt0 prefix) by (split; auto).
  assert (A3 : exists frac, ate pt1 pt2 frac /\ match v0 with
     | None => frac = []
     | Some e => e = (p_off pt1, p_off pt2) /\
        (exists ds, frac = 46%N :: ds /\ Forall (digit_or_underscore base) ds /\
           no_ident X (ds ++ p_s pt2) /\ ~ (exists r, ds ++ p_s pt2 = 46%N :: r))
     end).
  { destruct v0 as [e|]; cbv beta iota in Q1.
    - destruct Q1 as (ds & r & A & E & F' & -> & NI & ND).
      exists (46%N :: ds). split; auto. split; auto. exists ds. split; auto. split; auto.
      destruct A as [A _]. rewrite E in A. inversion A; subst. auto.
    - subst. exists []. split; auto. split; simpl; auto. }
  destruct A3 as (frac & A3 & HF).
  exists prefix, digits, frac, base.
  split; [eapply ate_trans; [eauto|eapply ate_trans; eauto]|].
  split; auto. split; auto. split; auto.
  destruct A1 as [_ A1], A2 as [_ A2], A3 as [_ A3].
  split; [f_equal; lia|]. split; auto.
  destruct v0 as [e|]; auto. destruct HF as [-> HF]. split; auto.
  rewrite !blen_app. f_equal; lia.
Qed.

Lemma good_number_value : good (number_value X) base_ok.
Proof.
  apply good_alternate; [discriminate|].
  repeat constructor; apply good_number_base; intuition.
Qed.

Definition expo_ok (pt pt' : spoint) (e : extent) : Prop :=
  exists c ds, ate pt pt' (c :: ds) /\ (c = 101%N \/ c = 69%N) /\ ds <> [] /\
    Forall (digit_or_underscore 10) ds /\ e = (p_off pt + 1, p_off pt').

Lemma good_number_exponent : good number_exponent expo_ok.
Proof.
  apply good_alternate; [discriminate|].
  repeat constructor; intros pm pt;
    pose proof (reach_refl pt) as R0; pose proof (keeps_refl pt pm) as K0;
    unfold number_exponent_lowercase, number_exponent_uppercase.
  - step (good_literal (str "e")). step (good_number_digits 10). destruct v0 as [e u].
    unfold ret. split; [assumption|]. split; [|assumption].
    destruct Q as (-> & O1 & E1). destruct Q0 as (digits & A2 & NE & F & -> & -> & _).
    exists 101%N, digits. split; [|split; [auto|split; [auto|split; [auto|]]]].
    + apply (ate_trans pt pt0 pt1 [101%N] digits); auto. split; auto.
    + f_equal; auto.
  - step (good_literal (str "E")). step (good_number_digits 10). destruct v0 as [e u].
    unfold ret. split; [assumption|]. split; [|assumption].
    destruct Q as (-> & O1 & E1). destruct Q0 as (digits & A2 & NE & F & -> & -> & _).
    exists 69%N, digits. split; [|split; [auto|split; [auto|split; [auto|]]]].
    + apply (ate_trans pt pt0 pt1 [69%N] digits); auto. split; auto.
    + f_equal; auto.
Qed.

(** [optional(simple_ident)] says [None] only when no identifier follows. *)
Lemma good_opt_ident :
  good (t_optional (simple_ident X)) (fun pt pt' o =>
    match o with
    | None => pt' = pt /\ no_ident X (p_s pt)
    | Some e => exists w, ate pt pt' w /\ is_ident X w /\ ident_stops X (p_s pt') /\
                          e = (p_off pt, p_off pt')
    end).
Proof.
  intros pm pt. unfold optional.
  pose proof (good_simple_ident_text pm pt) as G.
  destruct (simple_ident_outcome pm pt) as [(NI & E)|(q & e & NI & E)]; rewrite E in *.
  - simpl. split; [apply reach_refl|]. split; auto.
    eapply keeps_trans; [apply reach_refl|apply keeps_refl|apply keeps_record, reach_refl].
  - destruct G as (R & Q & K). auto.
Qed.

Definition number_ok (pt pt' : spoint) (n : number) : Prop :=
  number_shape X (p_s pt) (p_off pt) n (p_s pt').

Lemma good_number_p : good (number_p X) (fun pt pt' n => number_ok pt pt' n /\ p_off pt < p_off pt' /\ n_extent n = (p_off pt, p_off pt')).
Proof.
  unfold number_p. start_seq pt.
  step good_number_value. destruct v as [[[rx integral] fractional] us].
  step (good_optional _ _ good_number_exponent).
  step good_opt_ident.
  rewrite run_ret_ex by assumption. split; [assumption|]. split; [|assumption].
  destruct Q as (prefix & digits & frac & base & A1 & HR & NE & F & -> & -> & HF).
  assert (A2 : exists expo, ate pt0 pt1 expo /\ match v with
     | None => expo = []
     | Some e => e = (p_off pt0 + 1, p_off pt1) /\
        exists c ds, expo = c :: ds /\ (c = 101%N \/ c = 69%N) /\ ds <> [] /\ Forall (digit_or_underscore 10) ds
     end).
  { destruct v as [e|]; cbv beta iota in Q0.
    - destruct Q0 as (c & ds & A & C & N & F' & ->). exists (c :: ds). eauto 10.
    - subst. exists []. split; auto. split; simpl; auto. }
  destruct A2 as (expo & A2 & HE).
  assert (A3 : exists suffix, ate pt1 pt2 suffix /\ match v0 with
     | None => suffix = [] /\ no_ident X (p_s pt2)
     | Some e => e = (p_off pt1, p_off pt2) /\ is_ident X suffix /\ ident_stops X (p_s pt2)
     end).
  { destruct v0 as [e|]; cbv beta iota in Q1.
    - destruct Q1 as (w & A & I & S & ->). exists w. auto.
    - destruct Q1 as [-> NI]. exists []. split; auto. split; simpl; auto. }
  destruct A3 as (suffix & A3 & HS).
  split; [|split; [|reflexivity]].
  - exists prefix, digits, frac, expo, suffix, base. cbn [n_radix n_integral n_fractional n_exponent n_type_suffix n_underscores n_extent].
    destruct A1 as [E1 O1], A2 as [E2 O2], A3 as [E3 O3].
    rewrite !blen_app in *.
    split; [rewrite E1, E2, E3, <- !app_assoc; auto|].
    split; auto. split; auto. split; auto. split; auto. split; auto.
    split; [|split; [|split]].
    + destruct fractional as [e|]; auto. destruct HF as [-> (ds & Ef & Fd & NI & ND)].
      split; [reflexivity|]. exists ds. split; auto. split; auto.
      rewrite E2, E3 in NI, ND. auto.
    + destruct v as [e|]; auto. destruct HE as [-> HE]. split; auto. f_equal; lia.
    + destruct v0 as [e|]; auto. destruct HS as [-> HS]. split; auto. f_equal; lia.
    + f_equal. lia.
  - destruct A1 as [_ O1]. rewrite !blen_app in O1. apply pos_of_nonnil in NE. offs. lia.
Qed.

(** The remaining alternatives of [single_token]. *)

Definition tok_ok (pt pt' : spoint) (t : token) : Prop :=
  token_extent t = (p_off pt, p_off pt') /\ p_off pt < p_off pt' /\
  match t with TkNumber n => number_ok pt pt' n | Tk _ _ => True end.

Lemma good_comment_token k (f : text -> option nat) :
  (forall s, s <> [] -> match f s with Some i => 0 < i /\ exists a b, s = a ++ b /\ i = blen a | None => False end) ->
  forall pm pt, p_s pt <> [] ->
    match comment_token k (f (p_s pt)) pm pt with
    | (pm', Success pt' t) => reach pt pt' /\ tok_ok pt pt' t /\ keeps pt pm pm'
    | (pm', Failure pt' e) => reach pt pt' /\ keeps pt pm pm'
    | (pm', Abort _) => False
    end.
Proof.
  intros H pm pt NE. specialize (H _ NE). unfold comment_token.
  destruct (f (p_s pt)) as [i|]; [|auto]. destruct H as (P & a & b & E & ->).
  unfold bind, consume_to. rewrite E, split_at_app. rewrite run_ret_ex; [|exists a; auto].
  split; [exists a; auto|]. split; [|apply keeps_refl].
  split; [reflexivity|]. simpl. split; auto. lia.
Qed.

Lemma line_end_split s : exists a b, s = a ++ b /\ line_end s = blen a.
Proof.
  unfold line_end. pose proof (find_char_spec s newline) as F. destruct (find_char s newline).
  - destruct F as (a & r & -> & -> & _). eauto.
  - exists s, []. rewrite app_nil_r; auto.
Qed.

Lemma line_end_pos s : starts_with s (str "//") = true -> 0 < line_end s.
Proof.
  intros S. apply starts_with_spec in S as [r ->]. unfold line_end.
  cbn [str map list_ascii_of_string app find_char].
  change (N.eqb (Ascii.N_of_ascii _) newline) with false. cbn iota.
  destruct (find_char r newline); simpl; lia.
Qed.

Lemma block_end_split k p s :
  starts_with s p = true -> blen p = k -> 0 < k ->
  exists i, block_end k s = Some i /\ 0 < i /\ exists a b, s = a ++ b /\ i = blen a.
Proof.
  intros S L P. apply starts_with_spec in S as [r ->]. unfold block_end. subst k.
  rewrite split_at_app. pose proof (find_str_spec r (str "*/")) as F.
  destruct (find_str r (str "*/")) as [x|].
  - destruct F as (a & r' & -> & -> & _). eexists; split; [reflexivity|]. split; [lia|].
    exists (p ++ a ++ str "*/"), r'. rewrite !blen_app, <- !app_assoc. split; auto. simpl. lia.
  - eexists; split; [reflexivity|]. rewrite blen_app. split; [lia|].
    exists (p ++ r), []. rewrite app_nil_r, blen_app. auto.
Qed.

Lemma comment_token_ok k o pm pt :
  (exists i, o = Some i /\ 0 < i /\ exists a b, p_s pt = a ++ b /\ i = blen a) ->
  match comment_token k o pm pt with
  | (pm', Success pt' t) => reach pt pt' /\ tok_ok pt pt' t /\ keeps pt pm pm'
  | (pm', Failure pt' e) => reach pt pt' /\ keeps pt pm pm'
  | (pm', Abort _) => False
  end.
Proof.
  intros (i & -> & P & a & b & E & ->). unfold comment_token.
  unfold bind, consume_to. rewrite E, split_at_app. rewrite run_ret_ex; [|exists a; auto].
  split; [exists a; auto|]. split; [|apply keeps_refl].
  split; [reflexivity|]. simpl. split; auto. lia.
Qed.

Lemma starts_with_prefix s p q : starts_with s (p ++ q) = true -> starts_with s p = true.
Proof.
  rewrite !starts_with_spec. intros [r ->]. exists (q ++ r). now rewrite app_assoc.
Qed.

Lemma good_comment : good comment_or_doc_comment tok_ok.
Proof.
  intros pm pt. unfold comment_or_doc_comment.
  assert (LE : starts_with (p_s pt) (str "//") = true ->
    exists i, Some (line_end (p_s pt)) = Some i /\ 0 < i /\ exists a b, p_s pt = a ++ b /\ i = blen a).
  { intros S. eexists; split; [reflexivity|]. split; [now apply line_end_pos|]. apply line_end_split. }
  destruct (starts_with (p_s pt) (str "///")) eqn:S1.
  { assert (starts_with (p_s pt) (str "//") = true) by (apply starts_with_prefix with (q := str "/"); auto).
    cbn [andb]. destruct (negb _); [apply comment_token_ok; auto|].
    destruct (starts_with _ (str "//!")); [apply comment_token_ok; auto|].
    rewrite H. apply comment_token_ok; auto. }
  cbn [andb].
  destruct (starts_with (p_s pt) (str "//!")) eqn:S2.
  { apply comment_token_ok; auto. apply LE. apply starts_with_prefix with (q := str "!"); auto. }
  destruct (starts_with (p_s pt) (str "//")) eqn:S3.
  { apply comment_token_ok; auto. }
  destruct (starts_with (p_s pt) (str "/**")) eqn:S4.
  { cbn [andb]. destruct (negb _ && negb _).
    - apply comment_token_ok. eapply block_end_split; eauto.
    - destruct (starts_with _ (str "/*!")) eqn:S5.
      + apply comment_token_ok. eapply block_end_split; eauto.
      + assert (S6 : starts_with (p_s pt) (str "/*") = true) by (apply starts_with_prefix with (q := str "*"); auto).
        rewrite S6. apply comment_token_ok. eapply block_end_split; eauto. }
  cbn [andb].
  destruct (starts_with (p_s pt) (str "/*!")) eqn:S5.
  { apply comment_token_ok. eapply block_end_split; eauto. }
  destruct (starts_with (p_s pt) (str "/*")) eqn:S6.
  { apply comment_token_ok. eapply block_end_split; eauto. }
  split; [apply reach_refl|apply keeps_refl].
Qed.

Lemma good_keyword_or_ident : good (keyword_or_ident X) tok_ok.
Proof.
  intros pm pt. unfold keyword_or_ident.
  destruct (starts_with (p_s pt) (str "r#")) eqn:S.
  - apply starts_with_spec in S as [r S]. rewrite S.
    change 2 with (blen (str "r#")) at 1. rewrite split_at_app.
    destruct (Nat.eqb_spec (ident_len X r) 0) as [Z|Z].
    + split; [apply reach_refl|apply keeps_refl].
    + unfold map_p, split_point_at_non_zero_offset.
      destruct (ident_len_spec X r) as (a & b & E & L).
      destruct (Nat.eqb_spec (2 + ident_len X r) 0) as [?|_]; [lia|].
      rewrite S, L, E, app_assoc.
      change (2 + blen a) with (blen (str "r#" ++ a)). rewrite split_at_app.
      split; [exists (str "r#" ++ a); cbn [p_s p_off]; rewrite S, E, app_assoc; auto|].
      split; [|apply keeps_refl]. split; [reflexivity|]. simpl. split; auto. lia.
  - unfold map_p, split_point_at_non_zero_offset.
    destruct (Nat.eqb_spec (ident_len X (p_s pt)) 0) as [Z|Z].
    + split; [apply reach_refl|apply keeps_refl].
    + destruct (ident_len_spec X (p_s pt)) as (a & b & E & L).
      rewrite L, E, split_at_app.
      split; [exists a; auto|].
      split; [|apply keeps_refl]. split; [reflexivity|]. simpl. split; auto. lia.
Qed.

Lemma good_tk (p : tparser extent) k : good p spanE -> good (map_p p (Tk k)) tok_ok.
Proof.
  intros G. eapply good_map; eauto. intros a b v R [-> L]. split; simpl; auto.
Qed.

Lemma symbols_nonempty : Forall (fun '(s, _) => str s <> []) symbols.
Proof. repeat constructor; discriminate. Qed.

Lemma good_single_token : good (single_token X) tok_ok.
Proof.
  apply good_alternate; [discriminate|].
  unfold single_token_alts. apply Forall_app. split.
  { repeat constructor; try apply good_comment; apply good_tk;
    auto using good_character, good_string_p, good_string_raw, good_byte_p, good_byte_string,
      good_byte_string_raw, good_lifetime_p. }
  apply Forall_app. split.
  { apply Forall_map. eapply Forall_impl; [|exact symbols_nonempty].
    intros [s k] NE. apply good_tk. now apply good_literal'. }
  repeat constructor.
  - apply good_keyword_or_ident.
  - eapply good_map; [apply good_number_p|]. intros a b v R (H1 & H2 & H3). split; auto.
  - apply good_tk, good_whitespace.
Qed.

End S.
