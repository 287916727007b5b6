(** Safety of the tokenizer: every parser moves forward by whole characters,
    never panics, and keeps the recorded failures usable. *)

From Coq Require Import String List NArith Arith Bool Lia.
From Verif Require Import Base Peresil Token Tokenizer.
Import ListNotations.

(** [pt'] is [pt] after consuming some characters. *)
Definition reach (pt pt' : spoint) : Prop :=
  exists c, p_s pt = c ++ p_s pt' /\ p_off pt' = p_off pt + blen c.

Lemma reach_refl pt : reach pt pt.
Proof. exists []; simpl; auto. Qed.

Lemma reach_trans a b c : reach a b -> reach b c -> reach a c.
Proof.
  intros (x & E1 & O1) (y & E2 & O2). exists (x ++ y).
  rewrite E1, E2, app_assoc, blen_app. split; auto. lia.
Qed.

Lemma reach_off a b : reach a b -> p_off a <= p_off b.
Proof. intros (x & _ & ->). lia. Qed.

(** Strict progress. *)
Definition reachS (pt pt' : spoint) : Prop := reach pt pt' /\ p_off pt < p_off pt'.

(** Recorded failures: offset satisfies [B], and there is at least one error
    unless nothing has been recorded yet. *)
Definition fails_ok (B : nat -> Prop) (pm : tmaster) : Prop :=
  B (p_off (f_point (m_failures pm))) /\
  (0 < p_off (f_point (m_failures pm)) -> f_kinds (m_failures pm) <> []).

Definition keeps (pt : spoint) (pm pm' : tmaster) : Prop :=
  forall B : nat -> Prop, (forall pt', reach pt pt' -> B (p_off pt')) -> fails_ok B pm -> fails_ok B pm'.

Lemma keeps_refl pt pm : keeps pt pm pm.
Proof. intros B _ H; exact H. Qed.

Lemma keeps_trans pt pt' a b c : reach pt pt' -> keeps pt a b -> keeps pt' b c -> keeps pt a c.
Proof.
  intros R H1 H2 B HB F. apply H2; [|apply H1; auto].
  intros pt'' R'. apply HB. eapply reach_trans; eauto.
Qed.

Lemma keeps_record pt pt' pm e : reach pt pt' -> keeps pt pm (record_failure sp_lt pm pt' e).
Proof.
  intros R B HB [F1 F2]. unfold record_failure, fails_ok, add_failure, sp_lt; simpl.
  destruct (Nat.ltb_spec (p_off pt') (p_off (f_point (m_failures pm)))); [split; auto|].
  destruct (Nat.ltb_spec (p_off (f_point (m_failures pm))) (p_off pt')); simpl.
  - split; [auto|discriminate].
  - split; auto. intros _ H'. apply app_eq_nil in H' as [_ H']. discriminate.
Qed.

Definition good {A} (p : tparser A) (Q : spoint -> spoint -> A -> Prop) : Prop :=
  forall pm pt,
    match p pm pt with
    | (pm', Success pt' a) => reach pt pt' /\ Q pt pt' a /\ keeps pt pm pm'
    | (pm', Failure pt' e) => reach pt pt' /\ keeps pt pm pm'
    | (pm', Abort _) => False
    end.

Lemma good_weaken {A} (p : tparser A) (Q Q' : spoint -> spoint -> A -> Prop) :
  good p Q -> (forall a b v, reach a b -> Q a b v -> Q' a b v) -> good p Q'.
Proof.
  intros G W pm pt. specialize (G pm pt). destruct (p pm pt) as [pm' [pt' v|pt' e|w]]; auto.
  destruct G as (R & Hq & K); auto.
Qed.

(** Sequencing: [Q'] may depend on the intermediate result. *)
Lemma good_bind {A B} (p : tparser A) (k : A -> tparser B) Q Q' :
  good p Q ->
  (forall pm pt pt' a, reach pt pt' -> Q pt pt' a ->
     match k a pm pt' with
     | (pm', Success pt'' b) => reach pt' pt'' /\ Q' pt pt'' b /\ keeps pt' pm pm'
     | (pm', Failure pt'' e) => reach pt' pt'' /\ keeps pt' pm pm'
     | (pm', Abort _) => False
     end) ->
  good (bind p k) Q'.
Proof.
  intros G H pm pt. unfold bind. specialize (G pm pt).
  destruct (p pm pt) as [pm' [pt' v|pt' e|w]]; auto.
  destruct G as (R & Hq & K).
  specialize (H pm' pt pt' v R Hq).
  destruct (k v pm' pt') as [pm'' [pt'' b|pt'' e|w]]; auto.
  - destruct H as (R' & Hq' & K'). split; [eapply reach_trans; eauto|]. split; auto.
    eapply keeps_trans; eauto.
  - destruct H as (R' & K'). split; [eapply reach_trans; eauto|]. eapply keeps_trans; eauto.
Qed.

Lemma good_bind_simple {A B} (p : tparser A) (k : A -> tparser B) Q Q' :
  good p Q -> (forall a, good (k a) Q') ->
  good (bind p k) (fun pt pt'' b => exists pt' a, reach pt pt' /\ reach pt' pt'' /\ Q pt pt' a /\ Q' pt' pt'' b).
Proof.
  intros G H. eapply good_bind; eauto. intros pm pt pt' a R Hq. specialize (H a pm pt').
  destruct (k a pm pt') as [pm' [pt'' b|pt'' e|w]]; auto.
  destruct H as (R' & Hq' & K). split; auto. split; auto. exists pt', a. auto.
Qed.

Lemma good_ret {A} (a : A) : good (ret a) (fun pt pt' v => pt' = pt /\ v = a).
Proof. intros pm pt; simpl. split; [apply reach_refl|]. split; auto using keeps_refl. Qed.

Lemma good_point : good point (fun pt pt' v => pt' = pt /\ v = pt).
Proof. intros pm pt; simpl. split; [apply reach_refl|]. split; auto using keeps_refl. Qed.

Lemma good_map {A B} (p : tparser A) (f : A -> B) Q (Q' : spoint -> spoint -> B -> Prop) :
  good p Q -> (forall a b v, reach a b -> Q a b v -> Q' a b (f v)) -> good (map_p p f) Q'.
Proof.
  intros G W pm pt. unfold map_p. specialize (G pm pt).
  destruct (p pm pt) as [pm' [pt' v|pt' e|w]]; auto.
  destruct G as (R & Hq & K); auto.
Qed.

Lemma good_optional {A} (p : tparser A) Q :
  good p Q ->
  good (t_optional p) (fun pt pt' o =>
    match o with Some a => Q pt pt' a | None => pt' = pt end).
Proof.
  intros G pm pt. unfold optional. specialize (G pm pt).
  destruct (p pm pt) as [pm' [pt' v|pt' e|w]]; auto.
  destruct G as [R K]. destruct (t_recoverable e); auto.
  split; [apply reach_refl|]. split; auto.
  eapply keeps_trans; [apply reach_refl|eauto|]. now apply keeps_record.
Qed.

Lemma good_alternate_from {A} (ps : list (tparser A)) Q :
  Forall (fun p => good p Q) ps ->
  forall pm pt cur,
    match cur with
    | Success pt' a => reach pt pt' /\ Q pt pt' a
    | Failure pt' e => reach pt pt'
    | Abort _ => False
    end ->
    match alternate_from sp_lt t_recoverable cur ps pm pt with
    | (pm', Success pt' a) => reach pt pt' /\ Q pt pt' a /\ keeps pt pm pm'
    | (pm', Failure pt' e) => reach pt pt' /\ keeps pt pm pm'
    | (pm', Abort _) => False
    end.
Proof.
  induction 1 as [|p ps Hp Hps IH]; intros pm pt cur Hc; simpl.
  - destruct cur; intuition auto using keeps_refl.
  - destruct cur as [pt' v|pt' e|w]; try (intuition auto using keeps_refl; fail).
    destruct (t_recoverable e); [|auto using keeps_refl].
    specialize (Hp pm pt). destruct (p pm pt) as [pm1 r].
    specialize (IH (record_failure sp_lt pm1 pt' e) pt r).
    assert (Hr : match r with
      | Success pt'0 a => reach pt pt'0 /\ Q pt pt'0 a
      | Failure pt'0 _ => reach pt pt'0
      | Abort _ => False end /\ keeps pt pm pm1) by (destruct r; intuition).
    destruct Hr as [Hr K1]. specialize (IH Hr).
    assert (K2 : keeps pt pm (record_failure sp_lt pm1 pt' e))
      by (eapply keeps_trans; [apply reach_refl|eauto|now apply keeps_record]).
    destruct (alternate_from sp_lt t_recoverable r ps (record_failure sp_lt pm1 pt' e) pt)
      as [pm2 [pt2 v2|pt2 e2|w2]]; auto.
    + destruct IH as (R & Hq & K). split; [assumption|]. split; [assumption|].
      eapply keeps_trans; [apply reach_refl|eassumption|assumption].
    + destruct IH as (R & K). split; auto.
      eapply keeps_trans; [apply reach_refl|eassumption|assumption].
Qed.

Lemma good_alternate {A} (ps : list (tparser A)) Q :
  ps <> [] -> Forall (fun p => good p Q) ps -> good (t_alternate ps) Q.
Proof.
  intros NE F pm pt. destruct ps as [|p ps]; [congruence|]. inversion F; subst.
  simpl. specialize (H1 pm pt). destruct (p pm pt) as [pm1 r].
  pose proof (good_alternate_from ps Q H2 pm1 pt r) as H.
  assert (Hr : match r with
      | Success pt'0 a => reach pt pt'0 /\ Q pt pt'0 a
      | Failure pt'0 _ => reach pt pt'0
      | Abort _ => False end /\ keeps pt pm pm1) by (destruct r; intuition).
  destruct Hr as [Hr K1]. specialize (H Hr).
  destruct (alternate_from sp_lt t_recoverable r ps pm1 pt)
      as [pm2 [pt2 v2|pt2 e2|w2]]; auto.
  - destruct H as (R & Hq & K). split; [assumption|]. split; [assumption|].
    eapply keeps_trans; [apply reach_refl|eassumption|assumption].
  - destruct H as (R & K). split; auto.
    eapply keeps_trans; [apply reach_refl|eassumption|assumption].
Qed.

Lemma good_not {A} (p : tparser A) Q e : good p Q -> good (not p e) (fun pt pt' _ => pt' = pt).
Proof.
  intros G pm pt. unfold not. specialize (G pm pt).
  destruct (p pm pt) as [pm' [pt' v|pt' e'|w]]; auto; intuition auto using reach_refl.
Qed.

Lemma good_peek {A} (p : tparser A) Q :
  good p Q -> good (peek p) (fun pt pt' a => pt' = pt /\ exists pt'', Q pt pt'' a).
Proof.
  intros G pm pt. unfold peek. specialize (G pm pt).
  destruct (p pm pt) as [pm' [pt' v|pt' e'|w]]; auto; intuition eauto using reach_refl.
Qed.

(** The extent computed for what was consumed between two points. *)
Definition covers (pt pt' : spoint) (e : extent) : Prop := e = (p_off pt, p_off pt').

Lemma run_ret_ex {A} spt (f : extent -> A) pm pt :
  reach spt pt -> ret_ex spt f pm pt = (pm, Success pt (f (p_off spt, p_off pt))).
Proof.
  intros R. unfold ret_ex, ex. apply reach_off in R.
  destruct (Nat.leb_spec (p_off spt) (p_off pt)); [reflexivity|lia].
Qed.

(** Parsers of the form "remember the start; run; return the extent". *)
Lemma good_span {A B} (p : tparser A) (f : extent -> B) Q :
  good p Q ->
  good (bind point (fun spt => bind p (fun _ => ret_ex spt f)))
       (fun pt pt' v => (exists a, Q pt pt' a) /\ v = f (p_off pt, p_off pt')).
Proof.
  intros G pm pt. unfold bind, point. specialize (G pm pt).
  destruct (p pm pt) as [pm' [pt' v|pt' e|w]]; auto.
  destruct G as (R & Hq & K). rewrite run_ret_ex by auto. eauto 6.
Qed.

Lemma good_consume_to t e :
  (forall s, match t s with Some i => exists a b, s = a ++ b /\ i = blen a | None => True end) ->
  good (fun pm pt => consume_to (t (p_s pt)) e pm pt)
       (fun pt pt' v => exists i, t (p_s pt) = Some i /\ p_off pt' = p_off pt + i).
Proof.
  intros H pm pt. specialize (H (p_s pt)). unfold consume_to. destruct (t (p_s pt)) as [i|] eqn:T.
  - destruct H as (a & b & E & ->). rewrite E, split_at_app.
    split; [exists a; simpl; auto|]. split; [|apply keeps_refl]. eauto.
  - split; [apply reach_refl|apply keeps_refl].
Qed.

Lemma good_literal w : good (literal w) (fun pt pt' v => v = (p_off pt, p_off pt') /\ p_off pt' = p_off pt + blen w /\ p_s pt = w ++ p_s pt').
Proof.
  intros pm pt. unfold literal. destruct (starts_with (p_s pt) w) eqn:S.
  - apply starts_with_spec in S as [r S]. unfold bind, consume_to. rewrite S, split_at_app.
    rewrite run_ret_ex; [|exists w; auto]. cbn [p_s p_off].
    split; [exists w; auto|]. split; [auto|apply keeps_refl].
  - split; [apply reach_refl|apply keeps_refl].
Qed.

Lemma good_split idx e (t : text -> nat) :
  (forall pt, idx pt = t (p_s pt)) ->
  (forall s, exists a b, s = a ++ b /\ t s = blen a) ->
  good (fun pm pt => split_point_at_non_zero_offset (idx pt) e pm pt)
       (fun pt pt' '(m, x) => p_s pt = m ++ p_s pt' /\ blen m = t (p_s pt) /\ m <> [] /\
                              p_off pt' = p_off pt + blen m /\ x = (p_off pt, p_off pt')).
Proof.
  intros I H pm pt. unfold split_point_at_non_zero_offset. rewrite I.
  destruct (Nat.eqb_spec (t (p_s pt)) 0) as [Z|Z].
  - split; [apply reach_refl|apply keeps_refl].
  - destruct (H (p_s pt)) as (a & b & E & T). rewrite T, E, split_at_app. cbn [p_s p_off].
    split; [exists a; simpl; auto|]. split; [|apply keeps_refl].
    split; [auto|]. split; [congruence|]. split; [|auto].
    intros ->. simpl in T. lia.
Qed.

Lemma ident_len_spec X s : exists a b, s = a ++ b /\ ident_len X s = blen a.
Proof.
  destruct s as [|c s]; simpl.
  - exists [], []; auto.
  - destruct (_ || _).
    + destruct (take_while_len_spec (xid_continue X) s) as (a & b & -> & E & _).
      exists (c :: a), b. simpl. auto.
    + exists [], (c :: s); auto.
Qed.

Lemma take_while_len_split p s : exists a b, s = a ++ b /\ take_while_len p s = blen a.
Proof. destruct (take_while_len_spec p s) as (a & b & E & L & _). eauto. Qed.

(** Run the first parser of a sequence whose behaviour is described by [G]. *)
Ltac step G :=
  match goal with
  | R : reach ?pt0 ?pt, K : keeps ?pt0 ?pm0 ?pm |- context [bind ?p ?k ?pm ?pt] =>
      change (bind p k pm pt) with
        (match p pm pt with
         | (pm', Success pt' a) => k a pm' pt'
         | (pm', Failure pt' e) => (pm', Failure pt' e)
         | (pm', Abort w) => (pm', Abort w)
         end);
      let G' := fresh "G" in
      pose proof (G pm pt) as G';
      destruct (p pm pt) as [? [? ?|? ?|?]];
      [ let R' := fresh "R" in let K' := fresh "K" in let Q' := fresh "Q" in
        destruct G' as (R' & Q' & K'); cbv beta in Q';
        pose proof (keeps_trans _ _ _ _ _ R K K'); pose proof (reach_trans _ _ _ R R');
        clear K K'
      | let R' := fresh "R" in let K' := fresh "K" in
        destruct G' as (R' & K'); split;
        [exact (reach_trans _ _ _ R R') | exact (keeps_trans _ _ _ _ _ R K K')]
      | contradiction ]
  end.

Ltac start_seq pt :=
  let pm := fresh "pm" in
  intros pm pt;
  pose proof (reach_refl pt);
  pose proof (keeps_refl pt pm);
  unfold point;
  match goal with |- context [bind (fun pm pt => (pm, Success pt pt)) ?k ?pm0 ?pt0] =>
    change (bind (fun pm pt => (pm, Success pt pt)) k pm0 pt0) with (k pt0 pm0 pt0); cbv beta
  | _ => idtac end.

Definition spanE (pt pt' : spoint) (e : extent) : Prop :=
  e = (p_off pt, p_off pt') /\ p_off pt < p_off pt'.

Ltac offs :=
  repeat match goal with H : reach ?a ?b |- _ => apply reach_off in H end.

Section S.
Variable X : xid.

Definition span {A} (pt pt' : spoint) (_ : A) : Prop := p_off pt < p_off pt'.

Lemma pos_of_nonnil (m : text) : m <> [] -> 0 < blen m.
Proof. destruct m as [|c m]; [congruence|]. simpl. pose proof (len_utf8_pos c). lia. Qed.

Lemma good_simple_ident :
  good (simple_ident X) (fun pt pt' e => e = (p_off pt, p_off pt') /\ p_off pt < p_off pt').
Proof.
  unfold simple_ident.
  eapply good_map with (f := snd) (p := fun pm pt => split_point_at_non_zero_offset (ident_len X (p_s pt)) TExpectedIdent pm pt).
  - apply good_split with (t := ident_len X); auto. apply ident_len_spec.
  - intros a b [m x] R (E & L & NE & O & ->). simpl. split; auto.
    apply pos_of_nonnil in NE. lia.
Qed.

Lemma good_hashes : good hashes_p (fun pt pt' l => p_s pt = repeat hash (length l) ++ p_s pt').
Proof.
  intros pm pt. unfold hashes_p.
  assert (H : forall fuel pm pt, List.length (p_s pt) < fuel ->
     match zero_or_more sp_lt t_recoverable fuel (literal (str "#")) pm pt with
     | (pm', Success pt' l) => reach pt pt' /\ p_s pt = repeat hash (length l) ++ p_s pt' /\ keeps pt pm pm'
     | (pm', Failure pt' e) => reach pt pt' /\ keeps pt pm pm'
     | (pm', Abort _) => False
     end).
  { clear. induction fuel as [|fuel IH]; intros pm pt L; [lia|]. cbn [zero_or_more].
    pose proof (good_literal (str "#") pm pt) as G.
    destruct (literal (str "#") pm pt) as [pm' [pt' v|pt' e|w]]; auto.
    - destruct G as (R & (V & O & E) & K).
      assert (L' : List.length (p_s pt') < fuel) by (rewrite E in L; simpl in L; lia).
      specialize (IH pm' pt' L').
      destruct (zero_or_more _ _ fuel _ pm' pt') as [pm'' [pt'' l|pt'' e|w]]; auto.
      + destruct IH as (R' & E' & K'). split; [eapply reach_trans; eauto|]. split.
        * rewrite E, E'. reflexivity.
        * eapply keeps_trans; eauto.
      + destruct IH as (R' & K'). split; [eapply reach_trans; eauto|eapply keeps_trans; eauto].
    - destruct G as [R K]. destruct (t_recoverable e).
      + split; [apply reach_refl|]. split; auto.
        eapply keeps_trans; [apply reach_refl|eauto|now apply keeps_record].
      + auto. }
  apply H. lia.
Qed.

Lemma good_hex_string : good hex_string (fun pt pt' _ => p_off pt < p_off pt').
Proof.
  unfold hex_string.
  eapply good_weaken.
  - apply good_consume_to with (t := fun s =>
      if take_while_len (is_digit 16) s =? 0 then None else Some (take_while_len (is_digit 16) s)).
    intros s. destruct (_ =? 0); auto. apply take_while_len_split.
  - intros a b v R (i & E & O). destruct (Nat.eqb_spec (take_while_len (is_digit 16) (p_s a)) 0); inversion E; lia.
Qed.

Ltac finish_span :=
  unfold spanE in *; rewrite run_ret_ex by assumption; split; [assumption|]; split; [|assumption];
  split; [reflexivity|]; intuition (offs; try lia).

Lemma good_literal' w : w <> [] -> good (literal w) spanE.
Proof.
  intros NE. eapply good_weaken; [apply good_literal|].
  intros a b v R (-> & O & E). split; auto. apply pos_of_nonnil in NE. lia.
Qed.

Lemma good_escaped_char_hex : good escaped_char_hex spanE.
Proof.
  unfold escaped_char_hex. start_seq pt.
  step (good_literal' (str "x") ltac:(discriminate)). step good_hex_string. finish_span.
Qed.

Lemma good_escaped_char_unicode : good escaped_char_unicode spanE.
Proof.
  unfold escaped_char_unicode. start_seq pt.
  step (good_literal' (str "u{") ltac:(discriminate)). step good_hex_string. step (good_literal' (str "}") ltac:(discriminate)). finish_span.
Qed.

Lemma good_escaped_char_code : good escaped_char_code spanE.
Proof.
  apply good_alternate; [discriminate|].
  repeat constructor; try (apply good_literal'; discriminate).
  - apply good_escaped_char_hex.
  - apply good_escaped_char_unicode.
Qed.

Lemma good_escaped_char : good escaped_char spanE.
Proof.
  unfold escaped_char. start_seq pt.
  step (good_literal' [backslash] ltac:(discriminate)). step good_escaped_char_code. unfold spanE in *. finish_span.
Qed.

Lemma good_single_char : good single_char spanE.
Proof.
  intros pm pt. unfold single_char. destruct (p_s pt) as [|c r] eqn:E.
  - split; [apply reach_refl|apply keeps_refl].
  - pose proof (len_utf8_pos c). split; [exists [c]; simpl; split; [auto|lia]|].
    split; [|apply keeps_refl]. split; simpl; auto. lia.
Qed.

Lemma good_character_char : good character_char spanE.
Proof.
  apply good_alternate; [discriminate|].
  repeat constructor; auto using good_escaped_char, good_single_char.
Qed.

Lemma good_character : good character spanE.
Proof.
  unfold character. start_seq pt.
  step (good_literal' (str "'") ltac:(discriminate)). step good_character_char. step (good_literal' (str "'") ltac:(discriminate)).
  unfold spanE in *. finish_span.
Qed.

Lemma string_scan_split s : forall b, exists x y, s = x ++ y /\ string_scan b s = blen x.
Proof.
  induction s as [|c s IH]; intros b; simpl.
  - exists [], []; auto.
  - assert (H : forall b, exists x y, c :: s = x ++ y /\ len_utf8 c + string_scan b s = blen x).
    { intros b'. destruct (IH b') as (x & y & -> & E). exists (c :: x), y. simpl. auto. }
    destruct b; auto. destruct (N.eqb c backslash); auto. destruct (N.eqb c dquote); auto.
    exists [], (c :: s); auto.
Qed.

Lemma good_string_char : good string_char (fun _ _ _ => True).
Proof.
  intros pm pt. unfold string_char.
  destruct (string_scan_split (p_s pt) false) as (a & b & E & L).
  rewrite L, E, split_at_app. split; [exists a; simpl; auto|]. split; auto using keeps_refl.
Qed.

Lemma good_string_p : good string_p spanE.
Proof.
  unfold string_p. start_seq pt.
  step (good_literal' quote ltac:(discriminate)). step good_string_char. step (good_literal' quote ltac:(discriminate)). finish_span.
Qed.

Lemma good_raw_string_tail h : good (raw_string_tail h) (fun _ _ _ => True).
Proof.
  intros pm pt. unfold raw_string_tail.
  pose proof (find_str_spec (p_s pt) (quote ++ repeat hash h)) as F.
  destruct (find_str _ _) as [n|].
  - destruct F as (a & r & E & -> & _). rewrite E, split_at_app, split_at_app.
    split; [|auto using keeps_refl]. exists (a ++ quote ++ repeat hash h). cbn [p_s p_off].
    rewrite E, !blen_app, <- !app_assoc. split; auto. lia.
  - split; [apply reach_refl|apply keeps_refl].
Qed.

Lemma good_string_raw : good string_raw spanE.
Proof.
  unfold string_raw. start_seq pt.
  step (good_literal' (str "r") ltac:(discriminate)). step good_hashes. step (good_literal' quote ltac:(discriminate)).
  step (good_raw_string_tail (List.length v0)). finish_span.
Qed.

Lemma good_byte_p : good byte_p spanE.
Proof.
  unfold byte_p. start_seq pt. step (good_literal' (str "b") ltac:(discriminate)). step good_character.
  unfold spanE in *. finish_span.
Qed.

Lemma good_byte_string : good byte_string spanE.
Proof.
  unfold byte_string. start_seq pt. step (good_literal' (str "b") ltac:(discriminate)). step good_string_p.
  unfold spanE in *. finish_span.
Qed.

Lemma good_byte_string_raw : good byte_string_raw spanE.
Proof.
  unfold byte_string_raw. start_seq pt. step (good_literal' (str "b") ltac:(discriminate)). step good_string_raw.
  unfold spanE in *. finish_span.
Qed.

Lemma good_lifetime_p : good (lifetime_p X) spanE.
Proof.
  unfold lifetime_p. start_seq pt. step (good_literal' (str "'") ltac:(discriminate)). step good_simple_ident.
  finish_span.
Qed.

Lemma good_whitespace : good whitespace spanE.
Proof.
  unfold whitespace.
  eapply good_map with (f := snd)
    (p := fun pm pt => split_point_at_non_zero_offset (take_while_len is_ws (p_s pt)) TExpectedWhitespace pm pt).
  - apply good_split with (t := take_while_len is_ws); auto. apply take_while_len_split.
  - intros a b [m x] R (E & L & NE & O & ->). split; auto. apply pos_of_nonnil in NE. lia.
Qed.

End S.
