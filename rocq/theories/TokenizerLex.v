(** Soundness and completeness of [single_token] for the lexical specification. *)

From Coq Require Import String List NArith Arith Bool Lia.
From Verif Require Import Base Peresil Token Tokenizer TokenizerSpec TokenizerSafe TokenizerNum TokenizerIter.
Import ListNotations.

Definition pm0 : tmaster := new_master sp_zero tt.
Definition res {A} (p : tparser A) (pt : spoint) : progress spoint A terror := snd (p pm0 pt).

Lemma Success_inj {P A E : Type} (a c : P) (b d : A) :
  Success (E := E) a b = Success c d -> a = c /\ b = d.
Proof. intros H; inversion H; auto. Qed.

Lemma res_any {A} (p : tparser A) pm pt : indep p -> snd (p pm pt) = res p pt.
Proof. intros I. apply I. Qed.

Lemma res_bind {A B} (p : tparser A) (k : A -> tparser B) pt :
  (forall a, indep (k a)) ->
  res (bind p k) pt =
  match res p pt with
  | Success pt' a => res (k a) pt'
  | Failure pt' e => Failure pt' e
  | Abort w => Abort w
  end.
Proof.
  intros I. unfold res, bind. destruct (p pm0 pt) as [pm' [pt' a|pt' e|w]]; simpl; auto. apply I.
Qed.

Lemma res_map {A B} (p : tparser A) (f : A -> B) pt :
  res (map_p p f) pt =
  match res p pt with
  | Success pt' a => Success pt' (f a)
  | Failure pt' e => Failure pt' e
  | Abort w => Abort w
  end.
Proof. unfold res, map_p. destruct (p pm0 pt) as [pm' [pt' a|pt' e|w]]; auto. Qed.

Lemma res_point pt : res point pt = Success pt pt.
Proof. reflexivity. Qed.

Lemma res_ret_ex {A} spt (f : extent -> A) pt :
  p_off spt <= p_off pt -> res (ret_ex spt f) pt = Success pt (f (p_off spt, p_off pt)).
Proof.
  intros L. unfold res, ret_ex, ex. destruct (Nat.leb_spec (p_off spt) (p_off pt)); [auto|lia].
Qed.

Lemma res_literal w s o :
  res (literal w) (mkPt s o) =
  match (if starts_with s w then split_at s (blen w) else None) with
  | Some (_, r) => Success (mkPt r (o + blen w)) (o, o + blen w)
  | None => Failure (mkPt s o) (TLiteral w)
  end.
Proof.
  unfold res. destruct (literal_outcome w pm0 (mkPt s o)) as [(r & E & ->)|(N & ->)]; cbn [p_s p_off] in *.
  - subst s. rewrite starts_with_app, split_at_app. reflexivity.
  - destruct (starts_with s w) eqn:S; auto. apply starts_with_spec in S as [r ->]. exfalso; eapply N; eauto.
Qed.

Lemma res_literal_ok w r o :
  res (literal w) (mkPt (w ++ r) o) = Success (mkPt r (o + blen w)) (o, o + blen w).
Proof. rewrite res_literal, starts_with_app, split_at_app. reflexivity. Qed.

Lemma res_literal_no w s o :
  starts_with s w = false -> res (literal w) (mkPt s o) = Failure (mkPt s o) (TLiteral w).
Proof. intros E. rewrite res_literal, E. reflexivity. Qed.

Lemma res_literal_inv w s o pt' v :
  res (literal w) (mkPt s o) = Success pt' v ->
  s = w ++ p_s pt' /\ pt' = mkPt (p_s pt') (o + blen w) /\ v = (o, o + blen w).
Proof.
  rewrite res_literal. destruct (starts_with s w) eqn:S; [|discriminate].
  apply starts_with_spec in S as [r ->]. rewrite split_at_app. intros H; inversion H; subst; auto.
Qed.

Lemma sw_neq c r x p : x <> c -> starts_with (c :: r) (x :: p) = false.
Proof. intros H. cbn [starts_with]. destruct (N.eqb_spec x c); [congruence|reflexivity]. Qed.

(** Recoverable failure. *)
Definition fails {A} (p : tparser A) (pt : spoint) : Prop :=
  exists pt' e, res p pt = Failure pt' e /\ t_recoverable e = true.

Lemma alternate_from_pick {A} (ps : list (tparser A)) pt : Forall indep ps ->
  forall cur pm, snd (alternate_from sp_lt t_recoverable cur ps pm pt) =
  match cur with
  | Failure _ e => if t_recoverable e then
      match ps with
      | [] => cur
      | p :: ps' => snd (alternate_from sp_lt t_recoverable (res p pt) ps' pm0 pt)
      end else cur
  | _ => cur
  end.
Proof.
  intros F cur pm. destruct F as [|p ps Hp Hps]; simpl.
  - destruct cur; auto. destruct (t_recoverable e); auto.
  - destruct cur; auto. destruct (t_recoverable e) eqn:R; auto.
    destruct (p pm pt) as [pm1 r] eqn:E.
    assert (r = res p pt) as -> by (rewrite <- (res_any p pm pt Hp), E; auto).
    now apply indep_alternate_from.
Qed.

Lemma alternate_res {A} (p : tparser A) ps pt : Forall indep (p :: ps) ->
  res (t_alternate (p :: ps)) pt =
  match res p pt with
  | Failure pt' e => if t_recoverable e then
      match ps with [] => Failure pt' e | _ => res (t_alternate ps) pt end else Failure pt' e
  | r => r
  end.
Proof.
  intros F. inversion F as [|? ? Hp Hps]; subst. unfold res at 1. simpl.
  destruct (p pm0 pt) as [pm1 r] eqn:E.
  assert (r = res p pt) as -> by (unfold res; rewrite E; auto).
  rewrite alternate_from_pick by auto.
  destruct (res p pt) as [x v|x e|w]; auto. destruct (t_recoverable e); auto.
  destruct ps as [|q ps]; auto. inversion Hps; subst.
  unfold res at 2. simpl. destruct (q pm0 pt) as [pm2 r2] eqn:E2.
  unfold res. rewrite E2. simpl. now apply indep_alternate_from.
Qed.

Lemma alternate_pick {A} (a : list (tparser A)) p b pt :
  Forall indep (a ++ p :: b) -> Forall (fun q => fails q pt) a ->
  (forall pt' e, res p pt = Failure pt' e -> t_recoverable e = false) ->
  res (t_alternate (a ++ p :: b)) pt = res p pt.
Proof.
  intros I F NF. induction a as [|q a IH]; cbn [app] in *.
  - rewrite alternate_res by auto. destruct (res p pt) as [x v|x e|w]; auto.
    now rewrite (NF x e).
  - rewrite alternate_res by auto. inversion F as [|? ? (x & e & E & R) F']; subst.
    rewrite E, R. inversion I; subst. rewrite <- IH by auto.
    destruct (a ++ p :: b) eqn:D; auto. destruct a; discriminate.
Qed.

Lemma alternate_inv {A} (ps : list (tparser A)) pt pt' v :
  Forall indep ps -> res (t_alternate ps) pt = Success pt' v ->
  exists a p b, ps = a ++ p :: b /\ Forall (fun q => fails q pt) a /\ res p pt = Success pt' v.
Proof.
  induction ps as [|p ps IH]; intros I H; [discriminate|].
  rewrite alternate_res in H by auto. inversion I; subst.
  destruct (res p pt) as [x w|x e|w] eqn:E.
  - exists [], p, ps. rewrite E. simpl. auto.
  - destruct (t_recoverable e) eqn:R; [|discriminate].
    destruct ps as [|q ps]; [discriminate|].
    destruct (IH H3 H) as (a & p' & b & Eq & F & Rs). exists (p :: a), p', b.
    rewrite Eq. split; auto. split; auto. constructor; auto. exists x, e; auto.
  - discriminate.
Qed.

(** ** Spans: parsers that return exactly the extent of what they consumed *)

(** [p], run at text [s], succeeds having eaten exactly [w]. *)
Definition eats {A} (p : tparser A) (w rest : text) (o : nat) (v : A) : Prop :=
  res p (mkPt (w ++ rest) o) = Success (mkPt rest (o + blen w)) v.



Lemma res_bind_ok {A B} (p : tparser A) (k : A -> tparser B) pt pt1 a :
  (forall a, indep (k a)) -> res p pt = Success pt1 a -> res (bind p k) pt = res (k a) pt1.
Proof. intros I E. rewrite res_bind by auto. now rewrite E. Qed.

Lemma res_bind_fail {A B} (p : tparser A) (k : A -> tparser B) pt pt1 e :
  (forall a, indep (k a)) -> res p pt = Failure pt1 e -> res (bind p k) pt = Failure pt1 e.
Proof. intros I E. rewrite res_bind by auto. now rewrite E. Qed.

Lemma res_bind_inv {A B} (p : tparser A) (k : A -> tparser B) pt pt' v :
  (forall a, indep (k a)) -> res (bind p k) pt = Success pt' v ->
  exists pt1 a, res p pt = Success pt1 a /\ res (k a) pt1 = Success pt' v.
Proof.
  intros I H. rewrite res_bind in H by auto. destruct (res p pt); try discriminate. eauto.
Qed.

Lemma fails_bind1 {A B} (p : tparser A) (k : A -> tparser B) pt :
  (forall a, indep (k a)) -> fails p pt -> fails (bind p k) pt.
Proof. intros I (x & e & E & R). exists x, e. split; auto. eapply res_bind_fail; eauto. Qed.

Lemma fails_bind2 {A B} (p : tparser A) (k : A -> tparser B) pt pt1 a :
  (forall a, indep (k a)) -> res p pt = Success pt1 a -> fails (k a) pt1 -> fails (bind p k) pt.
Proof. intros I E (x & e & E' & R). exists x, e. split; auto. erewrite res_bind_ok; eauto. Qed.

Lemma fails_map {A B} (p : tparser A) (f : A -> B) pt : fails p pt -> fails (map_p p f) pt.
Proof. intros (x & e & E & R). exists x, e. rewrite res_map, E. auto. Qed.

Lemma fails_literal w s o : starts_with s w = false -> fails (literal w) (mkPt s o).
Proof. intros H. exists (mkPt s o), (TLiteral w). rewrite res_literal_no by auto. auto. Qed.

Lemma fails_not_success {A} (p : tparser A) pt pt' v : fails p pt -> res p pt = Success pt' v -> False.
Proof. intros (x & e & E & R) H. congruence. Qed.

(** All tokenizer parsers are independent of recorded failures. *)
Lemma indep_escaped_char_hex : indep escaped_char_hex.
Proof. pose proof indep_hex_string. unfold escaped_char_hex; ind. Qed.
Lemma indep_escaped_char_unicode : indep escaped_char_unicode.
Proof. pose proof indep_hex_string. unfold escaped_char_unicode; ind. Qed.
Lemma indep_escaped_char_code : indep escaped_char_code.
Proof.
  pose proof indep_escaped_char_hex. pose proof indep_escaped_char_unicode.
  unfold escaped_char_code; ind.
Qed.
Lemma indep_escaped_char : indep escaped_char.
Proof. pose proof indep_escaped_char_code. unfold escaped_char; ind. Qed.
Lemma indep_single_char : indep single_char.
Proof. intros pt pm1 pm2; unfold single_char; destruct (p_s pt); auto. Qed.
Lemma indep_character_char : indep character_char.
Proof. pose proof indep_escaped_char. pose proof indep_single_char. unfold character_char; ind. Qed.
Lemma indep_string_char : indep string_char.
Proof. intros pt pm1 pm2. unfold string_char. destruct (split_at _ _) as [[]|]; auto. Qed.
Lemma indep_hashes_p : indep hashes_p.
Proof. apply (indep_fun (fun pt => zero_or_more sp_lt t_recoverable (S (List.length (p_s pt))) (literal (str "#")))). ind. Qed.
Lemma indep_raw_string_tail n : indep (raw_string_tail n).
Proof.
  intros pt pm1 pm2. unfold raw_string_tail. destruct (find_str _ _); auto.
  destruct (split_at _ _) as [[]|]; auto. destruct (split_at _ _) as [[]|]; auto.
Qed.

Ltac indp :=
  pose proof indep_hex_string; pose proof indep_escaped_char_code; pose proof indep_character_char;
  pose proof indep_string_char; pose proof indep_hashes_p; pose proof indep_raw_string_tail;
  pose proof indep_character; pose proof indep_string_p; pose proof indep_string_raw;
  pose proof (@indep_simple_ident);
  repeat (first [ match goal with |- forall _, _ => intro end | assumption
    | match goal with H : forall _, indep _ |- _ => apply H end
    | apply indep_bind | apply indep_ret | apply indep_point | apply indep_ret_ex | apply indep_literal ]).

(** Run a literal that is present. *)
Ltac rlit := erewrite res_bind_ok; [|indp|first [apply res_literal_ok|reflexivity]]; cbv beta.

Lemma twl_eq p w rest :
  forallb p w = true -> (forall c r, rest = c :: r -> p c = false) ->
  take_while_len p (w ++ rest) = blen w.
Proof.
  intros F S. destruct rest as [|c r].
  - rewrite app_nil_r. now apply take_while_len_all.
  - apply take_while_len_app; auto. eapply S; eauto.
Qed.

(** [hex_string] *)
Lemma hex_forallb ds : Forall (digit_of 16) ds -> forallb (is_digit 16) ds = true.
Proof. intros F. apply forallb_forall. intros c I. apply is_digit_spec. eapply Forall_forall in F; eauto. Qed.

Lemma hex_ok ds rest o :
  ds <> [] -> Forall (digit_of 16) ds -> (forall c r, rest = c :: r -> is_digit 16 c = false) ->
  res hex_string (mkPt (ds ++ rest) o) = Success (mkPt rest (o + blen ds)) ds.
Proof.
  intros NE F S. unfold res, hex_string. cbn [p_s].
  rewrite twl_eq by (auto using hex_forallb). apply pos_of_nonnil in NE.
  destruct (Nat.eqb_spec (blen ds) 0); [lia|]. unfold consume_to. cbn [p_s p_off].
  rewrite split_at_app. reflexivity.
Qed.

Lemma hex_inv s o pt' v :
  res hex_string (mkPt s o) = Success pt' v ->
  exists ds rest, s = ds ++ rest /\ pt' = mkPt rest (o + blen ds) /\ ds <> [] /\ Forall (digit_of 16) ds.
Proof.
  unfold res, hex_string. cbn [p_s].
  destruct (take_while_len_spec (is_digit 16) s) as (a & b & -> & L & F & _). rewrite L.
  destruct (Nat.eqb_spec (blen a) 0) as [Z|Z]; unfold consume_to; cbn [p_s p_off]; [discriminate|].
  rewrite split_at_app. intros H. exists a, b. simpl in H. split; [auto|]. split; [congruence|]. split.
  - intros ->. simpl in Z. lia.
  - apply Forall_forall. intros c I. apply is_digit_spec. rewrite forallb_forall in F. auto.
Qed.

(** ** Character literals *)

Lemma escape_ok e rest o :
  escape e -> (forall ds c r, e = str "x" ++ ds -> rest = c :: r -> is_digit 16 c = false) ->
  exists v, res escaped_char_code (mkPt (e ++ rest) o) = Success (mkPt rest (o + blen e)) v.
Proof.
  pose proof indep_escaped_char_hex as I1. pose proof indep_escaped_char_unicode as I2.
  assert (FI : Forall indep [literal (str "n"); literal (str "r"); literal (str "t"); literal [backslash];
       literal (str "'"); literal quote; literal (str "0");
       escaped_char_hex; escaped_char_unicode]).
  { repeat constructor; auto using indep_literal. }
  intros E S. unfold escaped_char_code. destruct E as [c I | ds NE F | ds NE F].
  - assert (HC : forall p q x, [literal (str "n"); literal (str "r"); literal (str "t"); literal [backslash];
       literal (str "'"); literal quote; literal (str "0");
       escaped_char_hex; escaped_char_unicode] = p ++ literal [x] :: q ->
       Forall (fun r => fails r (mkPt ([x] ++ rest) o)) p ->
       exists v, res (t_alternate (p ++ literal [x] :: q)) (mkPt ([x] ++ rest) o) = Success (mkPt rest (o + blen [x])) v).
    { intros p q x Eq Fp. rewrite Eq in FI. rewrite alternate_pick; auto.
      - rewrite res_literal_ok. eauto.
      - rewrite res_literal_ok. discriminate. }
    simpl in I.
    repeat match goal with H : _ \/ _ |- _ => destruct H as [<-|H] end; [..|contradiction].
    + apply (HC [] _ _ eq_refl). constructor.
    + apply (HC [_] _ _ eq_refl). repeat constructor; apply fails_literal; reflexivity.
    + apply (HC [_;_] _ _ eq_refl). repeat constructor; apply fails_literal; reflexivity.
    + apply (HC [_;_;_] _ _ eq_refl). repeat constructor; apply fails_literal; reflexivity.
    + apply (HC [_;_;_;_] _ _ eq_refl). repeat constructor; apply fails_literal; reflexivity.
    + apply (HC [_;_;_;_;_] _ _ eq_refl). repeat constructor; apply fails_literal; reflexivity.
    + apply (HC [_;_;_;_;_;_] _ _ eq_refl). repeat constructor; apply fails_literal; reflexivity.
  - assert (R : exists v, res escaped_char_hex (mkPt ((str "x" ++ ds) ++ rest) o) = Success (mkPt rest (o + blen (str "x" ++ ds))) v).
    { unfold escaped_char_hex. rewrite <- app_assoc.
      erewrite res_bind_ok; [|indp|apply res_point]. cbv beta.
      rlit. erewrite res_bind_ok; [|indp|apply hex_ok; eauto]. cbv beta.
      rewrite res_ret_ex by (simpl; lia). rewrite blen_app, Nat.add_assoc. eauto. }
    destruct R as [v R]. exists v. rewrite <- R.
    apply (alternate_pick [_;_;_;_;_;_;_]); auto.
    + repeat constructor; apply fails_literal; reflexivity.
    + rewrite R; discriminate.
  - assert (R : exists v, res escaped_char_unicode (mkPt ((str "u{" ++ ds ++ str "}") ++ rest) o) = Success (mkPt rest (o + blen (str "u{" ++ ds ++ str "}"))) v).
    { unfold escaped_char_unicode. rewrite <- !app_assoc.
      erewrite res_bind_ok; [|indp|apply res_point]. cbv beta.
      rlit. erewrite res_bind_ok; [|indp|apply hex_ok; auto].
      2: { intros c r Hc. inversion Hc. reflexivity. }
      cbv beta. rlit. rewrite res_ret_ex by (simpl; lia). rewrite !blen_app, !Nat.add_assoc. eauto. }
    destruct R as [v R]. exists v. rewrite <- R.
    apply (alternate_pick [_;_;_;_;_;_;_;_]); auto.
    + repeat constructor; try (apply fails_literal; reflexivity).
      unfold escaped_char_hex. eapply fails_bind2; [indp|apply res_point|].
      apply fails_bind1; [indp|]. apply fails_literal; reflexivity.
    + rewrite R; discriminate.
Qed.

Lemma escape_inv s o pt' v :
  res escaped_char_code (mkPt s o) = Success pt' v ->
  exists e rest, escape e /\ s = e ++ rest /\ pt' = mkPt rest (o + blen e).
Proof.
  pose proof indep_escaped_char_hex as I1. pose proof indep_escaped_char_unicode as I2.
  intros H. unfold escaped_char_code in H. apply alternate_inv in H;
    [|repeat constructor; auto using indep_literal].
  destruct H as (a & p & b & Eq & _ & R).
  assert (I : In p [literal (str "n"); literal (str "r"); literal (str "t"); literal [backslash];
       literal (str "'"); literal quote; literal (str "0");
       escaped_char_hex; escaped_char_unicode]) by (rewrite Eq; apply in_elt).
  clear Eq.
  assert (HL : forall x, In x (str "nrt\'""0") -> p = literal [x] ->
     exists e rest, escape e /\ s = e ++ rest /\ pt' = mkPt rest (o + blen e)).
  { intros x Ix ->. apply res_literal_inv in R as (E & Ep & _). exists [x], (p_s pt').
    split; [constructor; auto|]. auto. }
  simpl in I. repeat destruct I as [I|I]; try contradiction;
    try (eapply HL; [|symmetry; exact I]; simpl; tauto); subst p.
  - unfold escaped_char_hex in R.
    apply res_bind_inv in R as (p1 & a1 & R1 & R); [|indp]. rewrite res_point in R1; apply Success_inj in R1 as [<- <-].
    apply res_bind_inv in R as (p2 & a2 & R1 & R); [|indp].
    apply res_literal_inv in R1 as (-> & E2 & _). rewrite E2 in R. cbn [p_s] in *.
    apply res_bind_inv in R as (p3 & a3 & R1 & R); [|indp].
    apply hex_inv in R1 as (ds & rest & E3 & -> & NE & F).
    rewrite res_ret_ex in R by (simpl; lia). apply Success_inj in R as [<- <-].
    exists (str "x" ++ ds), rest. split; [constructor; auto|].
    rewrite E3, app_assoc, blen_app, Nat.add_assoc. auto.
  - unfold escaped_char_unicode in R.
    apply res_bind_inv in R as (p1 & a1 & R1 & R); [|indp]. rewrite res_point in R1; apply Success_inj in R1 as [<- <-].
    apply res_bind_inv in R as (p2 & a2 & R1 & R); [|indp].
    apply res_literal_inv in R1 as (-> & E2 & _). rewrite E2 in R. cbn [p_s] in *.
    apply res_bind_inv in R as (p3 & a3 & R1 & R); [|indp].
    apply hex_inv in R1 as (ds & rest & E3 & -> & NE & F).
    apply res_bind_inv in R as (p4 & a4 & R1 & R); [|indp].
    apply res_literal_inv in R1 as (E4 & E5 & _). rewrite E5 in R.
    rewrite res_ret_ex in R by (simpl; lia). apply Success_inj in R as [<- <-].
    exists (str "u{" ++ ds ++ str "}"), (p_s p4). split; [constructor; auto|].
    rewrite E3, E4, <- !app_assoc, !blen_app, !Nat.add_assoc. auto.
Qed.

Lemma escaped_ok e rest o :
  escape e -> (forall ds c r, e = str "x" ++ ds -> rest = c :: r -> is_digit 16 c = false) ->
  exists v, res escaped_char (mkPt ([92%N] ++ e ++ rest) o) = Success (mkPt rest (o + 1 + blen e)) v.
Proof.
  intros E S. destruct (escape_ok e rest (o + 1) E S) as [v R].
  unfold escaped_char. erewrite res_bind_ok; [|indp|apply res_point]. cbv beta.
  rlit. erewrite res_bind_ok; [|indp|exact R]. cbv beta. rewrite res_ret_ex by (simpl; lia). eauto.
Qed.

Lemma escaped_inv s o pt' v :
  res escaped_char (mkPt s o) = Success pt' v ->
  exists e rest, escape e /\ s = [92%N] ++ e ++ rest /\ pt' = mkPt rest (o + 1 + blen e).
Proof.
  intros R. unfold escaped_char in R.
  apply res_bind_inv in R as (p1 & a1 & R1 & R); [|indp]. rewrite res_point in R1; apply Success_inj in R1 as [<- <-].
  apply res_bind_inv in R as (p2 & a2 & R1 & R); [|indp].
  apply res_literal_inv in R1 as (-> & E2 & _). rewrite E2 in R. cbn [p_s] in *.
  apply res_bind_inv in R as (p3 & a3 & R1 & R); [|indp].
  apply escape_inv in R1 as (e & rest & E & Es & ->).
  rewrite res_ret_ex in R by (simpl; lia). apply Success_inj in R as [<- <-]; rewrite Es. eauto.
Qed.

Lemma fails_escaped_first c r o : c <> 92%N -> fails escaped_char (mkPt (c :: r) o).
Proof.
  intros NE. unfold escaped_char. eapply fails_bind2; [indp|apply res_point|].
  apply fails_bind1; [indp|]. apply fails_literal, sw_neq. unfold backslash; congruence.
Qed.

Lemma quote_not_hex : forall c r rest, 39%N :: rest = c :: r -> is_digit 16 c = false.
Proof. intros c r rest H. inversion H. reflexivity. Qed.

Lemma character_ok w rest o :
  char_literal w -> res character (mkPt (w ++ rest) o) = Success (mkPt rest (o + blen w)) (o, o + blen w).
Proof.
  intros [(c & NE & ->)|(e & E & ->)].
  - unfold character. erewrite res_bind_ok; [|indp|apply res_point]. cbv beta.
    change ([39%N; c; 39%N] ++ rest) with (str "'" ++ c :: str "'" ++ rest).
    rlit.
    assert (R : res character_char (mkPt (c :: str "'" ++ rest) (o + blen (str "'"))) =
       Success (mkPt (str "'" ++ rest) (o + blen (str "'") + len_utf8 c)) (o + blen (str "'"), o + blen (str "'") + len_utf8 c)).
    { unfold character_char. rewrite (alternate_pick [escaped_char] single_char []); auto.
      - repeat constructor; [apply indep_escaped_char|apply indep_single_char].
      - constructor; auto. now apply fails_escaped_first.
      - discriminate. }
    erewrite res_bind_ok; [|indp|exact R]. cbv beta. rlit.
    rewrite res_ret_ex by (simpl; lia). cbn [p_off].
    assert (Hl : o + blen (str "'") + len_utf8 c + blen (str "'") = o + blen [39%N; c; 39%N]).
    { cbn [blen]. change (len_utf8 39%N) with 1; change (blen (str "'")) with 1. lia. }
    now rewrite Hl.
  - unfold character. erewrite res_bind_ok; [|indp|apply res_point]. cbv beta.
    match goal with |- context [mkPt ?x o] =>
      replace x with (str "'" ++ [92%N] ++ e ++ str "'" ++ rest)
        by (cbn [app]; rewrite <- app_assoc; reflexivity)
    end.
    rlit.
    destruct (escaped_ok e (str "'" ++ rest) (o + blen (str "'")) E) as [v R].
    { intros ds c r _ H. eapply quote_not_hex; exact H. }
    assert (R' : res character_char (mkPt ([92%N] ++ e ++ str "'" ++ rest) (o + blen (str "'"))) =
       Success (mkPt (str "'" ++ rest) (o + blen (str "'") + 1 + blen e)) v).
    { unfold character_char. rewrite (alternate_pick [] escaped_char [single_char]); auto.
      - repeat constructor; [apply indep_escaped_char|apply indep_single_char].
      - rewrite R. discriminate. }
    erewrite res_bind_ok; [|indp|exact R']. cbv beta. rlit.
    rewrite res_ret_ex by (simpl; lia). cbn [p_off].
    assert (Hl : o + blen (str "'") + 1 + blen e + blen (str "'") = o + blen ([39%N; 92%N] ++ e ++ [39%N])).
    { rewrite !blen_app; change (blen (str "'")) with 1; change (blen [39%N]) with 1; change (blen [39%N; 92%N]) with 2; lia. }
    now rewrite Hl.
Qed.

Lemma character_inv s o pt' v :
  res character (mkPt s o) = Success pt' v ->
  exists w rest, char_literal w /\ s = w ++ rest /\ pt' = mkPt rest (o + blen w) /\ v = (o, o + blen w).
Proof.
  intros R. unfold character in R.
  apply res_bind_inv in R as (p1 & a1 & R1 & R); [|indp]. rewrite res_point in R1; apply Success_inj in R1 as [<- <-].
  apply res_bind_inv in R as (p2 & a2 & R1 & R); [|indp].
  apply res_literal_inv in R1 as (-> & E2 & _). rewrite E2 in R. cbn [p_s p_off] in *.
  apply res_bind_inv in R as (p3 & a3 & R1 & R); [|indp].
  apply res_bind_inv in R as (p4 & a4 & R2 & R); [|indp].
  destruct p3 as [s3 o3]. apply res_literal_inv in R2 as (E4 & E5 & _).
  rewrite E5 in R. 
  unfold character_char in R1. apply alternate_inv in R1;
    [|repeat constructor; [apply indep_escaped_char|apply indep_single_char]].
  destruct R1 as (a & p & b & Eq & F & R1).
  destruct a as [|x [|y a]]; simpl in Eq; inversion Eq; subst.
  - apply escaped_inv in R1 as (e & rest & E & Es & Ep). inversion Ep; subst.
    rewrite res_ret_ex in R by (simpl; lia). apply Success_inj in R as [<- <-]; cbn [p_off].
    exists ([39%N; 92%N] ++ e ++ [39%N]), (p_s p4). split; [right; eauto|]. rewrite Es.
    assert (Hl : o + blen (str "'") + 1 + blen e + blen (str "'") = o + blen ([39%N; 92%N] ++ e ++ [39%N])).
    { rewrite !blen_app; change (blen (str "'")) with 1; change (blen [39%N]) with 1; change (blen [39%N; 92%N]) with 2; lia. }
    rewrite <- Hl. split; [simpl; rewrite <- app_assoc; reflexivity|]. split; auto.
  - unfold res, single_char in R1. cbn [p_s p_off] in R1.
    destruct (p_s p2) as [|c r] eqn:Ep2; [discriminate|]. simpl in R1. inversion R1; subst.
    pose proof (len_utf8_pos c).
    rewrite res_ret_ex in R by (simpl; lia). apply Success_inj in R as [<- <-]; cbn [p_off].
    assert (NE : c <> 92%N).
    { intros ->. inversion F; subst.
      destruct (escaped_ok [39%N] (p_s p4) (o + blen (str "'"))) as [v' R'].
      - constructor. simpl. tauto.
      - discriminate.
      - eapply fails_not_success; eauto. }
    exists [39%N; c; 39%N], (p_s p4). split; [left; eauto|]. split; [reflexivity|].
    assert (Hl : o + blen (str "'") + len_utf8 c + blen (str "'") = o + blen [39%N; c; 39%N]).
    { cbn [blen]. change (len_utf8 39%N) with 1; change (blen (str "'")) with 1. lia. }
    rewrite <- Hl. split; auto.
  - destruct a; discriminate.
Qed.

(** ** String literals *)

Lemma scan_body b rest : str_body b -> string_scan false (b ++ 34%N :: rest) = blen b.
Proof.
  induction 1 as [|c b N1 N2 H IH|c b H IH]; cbn [app string_scan].
  - reflexivity.
  - destruct (N.eqb_spec c backslash); [contradiction|].
    destruct (N.eqb_spec c dquote); [contradiction|]. cbn [blen]. now rewrite IH.
  - change (N.eqb 92 backslash) with true. cbn iota. cbn [blen]. rewrite IH. lia.
Qed.

Lemma scan_inv n : forall s, List.length s <= n -> forall r,
  (exists a, s = a ++ 34%N :: r /\ string_scan false s = blen a) ->
  exists b, str_body b /\ s = b ++ 34%N :: r.
Proof.
  induction n as [|n IH]; intros s L r (a & E & S).
  - destruct s; [destruct a; discriminate|simpl in L; lia].
  - destruct s as [|c s]; [destruct a; discriminate|]. cbn [string_scan] in S.
    assert (HX : forall a, c :: s = a ++ 34%N :: r -> blen a = 0 -> c = 34%N /\ s = r).
    { intros a' E' Z. apply blen_nil in Z. subst. simpl in E'. inversion E'; auto. }
    destruct (N.eqb_spec c backslash) as [->|N1].
    + destruct s as [|d s].
      * destruct a as [|x [|y a]]; discriminate.
      * cbn [string_scan] in S.
        destruct a as [|x a]; [discriminate|]. inversion E; subst x.
        destruct a as [|y a]; simpl in H1.
        { inversion H1; subst. cbn [blen] in S. pose proof (len_utf8_pos 34%N). lia. }
        inversion H1; subst y s.
        destruct (IH (a ++ 34%N :: r)) with (r := r) as (b & B & Eb).
        { simpl in L. rewrite app_length in *. simpl in *. lia. }
        { exists a. split; auto. cbn [blen] in S. lia. }
        exists (backslash :: d :: b). split; [now constructor|]. simpl. now rewrite Eb.
    + destruct (N.eqb_spec c dquote) as [->|N2].
      * symmetry in S. apply HX in S as [_ ->]; auto. exists []. split; [constructor|reflexivity].
      * destruct a as [|x a]; simpl in E; inversion E; subst.
        { exfalso. apply N2. reflexivity. }
        destruct (IH (a ++ 34%N :: r)) with (r := r) as (b & B & Eb).
        { simpl in L. lia. }
        { exists a. split; auto. cbn [blen] in S. lia. }
        exists (x :: b). split; [now constructor|]. simpl. now rewrite Eb.
Qed.

Lemma string_ok w rest o :
  string_literal w -> res string_p (mkPt (w ++ rest) o) = Success (mkPt rest (o + blen w)) (o, o + blen w).
Proof.
  intros (b & B & ->). unfold string_p. erewrite res_bind_ok; [|indp|apply res_point]. cbv beta.
  rewrite <- !app_assoc. erewrite res_bind_ok; [|indp|apply res_literal_ok]. cbv beta.
  assert (R : res string_char (mkPt (b ++ quote ++ rest) (o + blen quote)) = Success (mkPt (quote ++ rest) (o + blen quote + blen b)) b).
  { unfold res, string_char. cbn [p_s p_off]. change (b ++ quote ++ rest) with (b ++ 34%N :: rest).
    rewrite scan_body by auto. rewrite split_at_app. reflexivity. }
  erewrite res_bind_ok; [|indp|exact R]. cbv beta.
  erewrite res_bind_ok; [|indp|apply res_literal_ok]. cbv beta.
  rewrite res_ret_ex by (simpl; lia). cbn [p_off].
  assert (Hl : o + blen quote + blen b + blen quote = o + blen ([34%N] ++ b ++ [34%N])).
  { rewrite !blen_app. unfold quote. lia. }
  now rewrite Hl.
Qed.

Lemma string_inv s o pt' v :
  res string_p (mkPt s o) = Success pt' v ->
  exists w rest, string_literal w /\ s = w ++ rest /\ pt' = mkPt rest (o + blen w) /\ v = (o, o + blen w).
Proof.
  intros R. unfold string_p in R.
  apply res_bind_inv in R as (p1 & a1 & R1 & R); [|indp]. rewrite res_point in R1; apply Success_inj in R1 as [<- <-].
  apply res_bind_inv in R as (p2 & a2 & R1 & R); [|indp].
  apply res_literal_inv in R1 as (-> & E2 & _). rewrite E2 in R. cbn [p_s p_off] in *.
  apply res_bind_inv in R as (p3 & a3 & R1 & R); [|indp].
  apply res_bind_inv in R as (p4 & a4 & R2 & R); [|indp].
  unfold res, string_char in R1. cbn [p_s p_off] in R1.
  destruct (string_scan_split (p_s p2) false) as (a & b & E & L).
  rewrite L in R1. rewrite E, split_at_app in R1. simpl in R1. apply Success_inj in R1 as [<- <-].
  apply res_literal_inv in R2 as (E4 & E5 & _). rewrite E5 in R.
  rewrite res_ret_ex in R by (simpl; lia). apply Success_inj in R as [<- <-]. cbn [p_off].
  destruct (scan_inv (List.length (p_s p2)) (p_s p2) (le_n _) (p_s p4)) as (bd & B & Eb).
  { exists a. split; auto. rewrite E, E4. reflexivity. }
  assert (a = bd) as -> .
  { rewrite Eb in E. rewrite E4 in E. rewrite Eb in L. rewrite (scan_body _ _ B) in L.
    change (quote ++ p_s p4) with (34%N :: p_s p4) in E.
    assert (S1 := split_at_app bd (34%N :: p_s p4)). rewrite E, L in S1.
    rewrite split_at_app in S1. inversion S1; auto. }
  exists ([34%N] ++ bd ++ [34%N]), (p_s p4). split; [exists bd; auto|].
  rewrite E, E4.
  assert (Hl : o + 1 + blen bd + blen quote = o + blen ([34%N] ++ bd ++ [34%N])).
  { rewrite !blen_app. unfold quote. change (blen [34%N]) with 1. lia. }
  change (blen quote) with 1 in *. rewrite Hl, <- !app_assoc. split; [reflexivity|]. split; reflexivity.
Qed.

(** ** Raw strings *)

Lemma hashes_ok n rest o :
  (forall r, rest <> 35%N :: r) ->
  exists l, res hashes_p (mkPt (repeat hash n ++ rest) o) = Success (mkPt rest (o + n)) l /\ List.length l = n.
Proof.
  intros NH. unfold res, hashes_p. cbn [p_s].
  assert (H : forall fuel n o pm, n < fuel -> exists l,
    snd (zero_or_more sp_lt t_recoverable fuel (literal (str "#")) pm (mkPt (repeat hash n ++ rest) o)) =
    Success (mkPt rest (o + n)) l /\ List.length l = n).
  { clear n o. induction fuel as [|fuel IH]; intros n o pm L; [lia|]. cbn [zero_or_more].
    destruct n as [|n].
    - assert (F : snd (literal (str "#") pm (mkPt rest o)) = Failure (mkPt rest o) (TLiteral (str "#"))).
      { rewrite res_any by apply indep_literal. apply res_literal_no.
        destruct rest as [|c r]; auto. apply sw_neq. intros <-. eapply NH; reflexivity. }
      cbn [repeat app]. destruct (literal (str "#") pm (mkPt rest o)) as [pm' r]. simpl in F. subst r. simpl.
      exists []. rewrite Nat.add_0_r. auto.
    - assert (F : snd (literal (str "#") pm (mkPt (repeat hash (S n) ++ rest) o)) =
                 Success (mkPt (repeat hash n ++ rest) (o + 1)) (o, o + 1)).
      { rewrite res_any by apply indep_literal. apply (res_literal_ok (str "#")). }
      destruct (literal (str "#") pm (mkPt (repeat hash (S n) ++ rest) o)) as [pm' r]. simpl in F. subst r.
      destruct (IH n (o + 1) pm' ltac:(lia)) as (l & E & Ll).
      destruct (zero_or_more _ _ fuel _ pm' _) as [pm'' r]. simpl in E. subst r.
      simpl. exists ((o, o + 1) :: l). simpl. split; [f_equal; f_equal; lia|lia]. }
  apply H. rewrite app_length, repeat_length. lia.
Qed.

Lemma hashes_inv s o pt' l :
  res hashes_p (mkPt s o) = Success pt' l ->
  s = repeat hash (List.length l) ++ p_s pt' /\ p_off pt' = o + List.length l /\ (forall r, p_s pt' <> 35%N :: r).
Proof.
  intros R.
  assert (exists n rest, s = repeat hash n ++ rest /\ forall r, rest <> 35%N :: r) as (n & rest & -> & N).
  { clear. induction s as [|c s IH].
    - exists 0, []. split; auto. discriminate.
    - destruct (N.eq_dec c 35) as [->|NE].
      + destruct IH as (n & rest & -> & N). exists (S n), rest. auto.
      + exists 0, (c :: s). split; auto. congruence. }
  destruct (hashes_ok n rest o N) as (l' & E & L). rewrite E in R. apply Success_inj in R as [<- <-].
  rewrite L. auto.
Qed.

Lemma blen_hashes n : blen (repeat 35%N n) = n.
Proof. induction n; simpl; auto. Qed.

Lemma first_at_spec p body rest a : p <> [] ->
  first_at p body rest -> find_str (body ++ p ++ rest) p = Some (blen a) -> True.
Proof. auto. Qed.

Lemma prefix_same_length (a b c d : text) :
  a ++ b = c ++ d -> List.length a = List.length c -> a = c /\ b = d.
Proof.
  revert c; induction a as [|x a IH]; intros [|y c] E L; simpl in *; try lia; auto.
  inversion E; subst. destruct (IH c H1) as [-> ->]; auto.
Qed.

Lemma find_first p body rest :
  first_at p body rest -> find_str (body ++ p ++ rest) p = Some (blen body).
Proof.
  intros F. pose proof (find_str_spec (body ++ p ++ rest) p) as H.
  destruct (find_str _ p) as [n|].
  - destruct H as (a & r & E & -> & M). specialize (M body rest eq_refl).
    apply F in E as L. f_equal. f_equal.
    destruct (prefix_same_length _ _ _ _ E) as [? _]; [lia|auto].
  - exfalso. eapply H; eauto.
Qed.

Lemma raw_ok w rest o :
  raw_string_literal w rest ->
  res string_raw (mkPt (w ++ rest) o) = Success (mkPt rest (o + blen w)) (o, o + blen w).
Proof.
  intros (n & b & -> & F). unfold string_raw. rewrite <- !app_assoc.
  erewrite res_bind_ok; [|indp|apply res_point]. cbv beta.
  erewrite res_bind_ok; [|indp|apply res_literal_ok]. cbv beta.
  destruct (hashes_ok n ([34%N] ++ b ++ [34%N] ++ repeat 35%N n ++ rest) (o + blen (str "r"))) as (l & E & L).
  { discriminate. }
  erewrite res_bind_ok; [|indp|exact E]. cbv beta.
  erewrite res_bind_ok; [|indp|apply (res_literal_ok quote)]. cbv beta.
  assert (R : res (raw_string_tail (List.length l))
            (mkPt (b ++ [34%N] ++ repeat 35%N n ++ rest) (o + blen (str "r") + n + blen quote)) =
          Success (mkPt rest (o + blen (str "r") + n + blen quote + blen b + blen (quote ++ repeat hash n))) b).
  { unfold res, raw_string_tail. cbn [p_s p_off]. rewrite L.
    replace (b ++ [34%N] ++ repeat 35%N n ++ rest) with (b ++ (quote ++ repeat hash n) ++ rest)
      by (rewrite <- app_assoc; reflexivity).
    rewrite find_first by exact F. rewrite split_at_app, split_at_app. reflexivity. }
  erewrite res_bind_ok; [|indp|exact R]. cbv beta.
  rewrite res_ret_ex by (simpl; lia). cbn [p_off].
  assert (Hl : o + blen (str "r") + n + blen quote + blen b + blen (quote ++ repeat hash n) =
               o + blen (str "r" ++ repeat 35%N n ++ [34%N] ++ b ++ [34%N] ++ repeat 35%N n)).
  { rewrite !blen_app. unfold hash. rewrite !blen_hashes. unfold quote. lia. }
  now rewrite Hl.
Qed.

Lemma raw_inv s o pt' v :
  res string_raw (mkPt s o) = Success pt' v ->
  exists w rest, raw_string_literal w rest /\ s = w ++ rest /\ pt' = mkPt rest (o + blen w) /\ v = (o, o + blen w).
Proof.
  intros R. unfold string_raw in R.
  apply res_bind_inv in R as (p1 & a1 & R1 & R); [|indp]. rewrite res_point in R1; apply Success_inj in R1 as [<- <-].
  apply res_bind_inv in R as (p2 & a2 & R1 & R); [|indp].
  apply res_literal_inv in R1 as (-> & E2 & _). rewrite E2 in R. cbn [p_s p_off] in *.
  apply res_bind_inv in R as (p3 & h & R1 & R); [|indp].
  apply hashes_inv in R1 as (E3 & O3 & NH). destruct p3 as [s3 o3]. cbn [p_s p_off] in *.
  apply res_bind_inv in R as (p4 & a4 & R2 & R); [|indp].
  apply res_literal_inv in R2 as (E4 & E5 & _).
  apply res_bind_inv in R as (p5 & a5 & R3 & R); [|indp].
  rewrite E5 in R3. unfold res, raw_string_tail in R3. cbn [p_s p_off] in R3.
  pose proof (find_str_spec (p_s p4) (quote ++ repeat hash (List.length h))) as F.
  destruct (find_str _ _) as [n|]; [|discriminate].
  destruct F as (b & rest & E & -> & M). rewrite E, split_at_app, split_at_app in R3. simpl snd in R3.
  apply Success_inj in R3 as [<- <-].
  rewrite res_ret_ex in R by (simpl; lia). apply Success_inj in R as [<- <-]. cbn [p_off].
  set (n := List.length h) in *.
  exists (str "r" ++ repeat 35%N n ++ [34%N] ++ b ++ [34%N] ++ repeat 35%N n), rest.
  assert (Hl : o3 + blen quote + blen b + blen (quote ++ repeat hash n) =
               o + blen (str "r" ++ repeat 35%N n ++ [34%N] ++ b ++ [34%N] ++ repeat 35%N n)).
  { rewrite O3, !blen_app. unfold hash. rewrite !blen_hashes. unfold quote. lia. }
  split.
  { exists n, b. split; auto. intros a' b' Ea. apply (M a' b').
    rewrite E. exact Ea. }
  split; [rewrite E3, E4, E; rewrite <- !app_assoc; reflexivity|].
  split; [f_equal; exact Hl|f_equal; exact Hl].
Qed.

(** ** Prefix [b], lifetimes *)

Lemma prefixed_ok pre (p : tparser extent) w rest o v :
  indep p -> res p (mkPt (w ++ rest) (o + blen pre)) = Success (mkPt rest (o + blen pre + blen w)) v ->
  res (bind point (fun spt => bind (literal pre) (fun _ => bind p (fun _ => ret_ex spt (fun e => e)))))
      (mkPt ((pre ++ w) ++ rest) o) =
  Success (mkPt rest (o + blen (pre ++ w))) (o, o + blen (pre ++ w)).
Proof.
  intros I R. rewrite <- app_assoc.
  erewrite res_bind_ok; [|indp|apply res_point]. cbv beta.
  erewrite res_bind_ok; [|indp|apply res_literal_ok]. cbv beta.
  erewrite res_bind_ok; [|indp|exact R]. cbv beta.
  rewrite res_ret_ex by (simpl; lia). cbn [p_off]. rewrite blen_app, Nat.add_assoc. reflexivity.
Qed.

Lemma prefixed_inv pre (p : tparser extent) (L : text -> text -> Prop) s o pt' v :
  indep p ->
  (forall s o pt' v, res p (mkPt s o) = Success pt' v ->
     exists w rest, L w rest /\ s = w ++ rest /\ pt' = mkPt rest (o + blen w) /\ v = (o, o + blen w)) ->
  res (bind point (fun spt => bind (literal pre) (fun _ => bind p (fun _ => ret_ex spt (fun e => e)))))
      (mkPt s o) = Success pt' v ->
  exists w rest, (exists c, w = pre ++ c /\ L c rest) /\ s = w ++ rest /\
                 pt' = mkPt rest (o + blen w) /\ v = (o, o + blen w).
Proof.
  intros I H R.
  apply res_bind_inv in R as (p1 & a1 & R1 & R); [|indp]. rewrite res_point in R1; apply Success_inj in R1 as [<- <-].
  apply res_bind_inv in R as (p2 & a2 & R1 & R); [|indp].
  apply res_literal_inv in R1 as (-> & E2 & _). rewrite E2 in R. cbn [p_s p_off] in *.
  apply res_bind_inv in R as (p3 & h & R1 & R); [|indp].
  apply H in R1 as (w & rest & Lw & E & -> & ->).
  rewrite res_ret_ex in R by (simpl; lia). apply Success_inj in R as [<- <-]. cbn [p_off].
  exists (pre ++ w), rest. split; [eauto|]. rewrite E, <- app_assoc, blen_app, Nat.add_assoc. auto.
Qed.

Lemma prefixed_fails pre (p : tparser extent) s o :
  indep p -> starts_with s pre = false ->
  fails (bind point (fun spt => bind (literal pre) (fun _ => bind p (fun _ => ret_ex spt (fun e => e))))) (mkPt s o).
Proof.
  intros I S. eapply fails_bind2; [indp|apply res_point|].
  apply fails_bind1; [indp|]. now apply fails_literal.
Qed.

Section S.
Variable X : xid.

Lemma ident_len_eq w rest : is_ident X w -> ident_stops X rest -> ident_len X (w ++ rest) = blen w.
Proof.
  destruct w as [|c w]; simpl; [contradiction|]. intros [Hc F] S.
  assert (xid_start X c || (c =? underscore)%N = true) as ->.
  { destruct Hc as [->| ->]; auto. rewrite N.eqb_refl. apply orb_true_r. }
  f_equal. apply twl_eq.
  - apply forallb_forall. now apply Forall_forall.
  - intros d r ->. exact S.
Qed.

Lemma ident_pos w : is_ident X w -> 0 < blen w.
Proof. destruct w as [|c w]; simpl; [contradiction|]. pose proof (len_utf8_pos c). lia. Qed.

Lemma simple_ident_ok w rest o :
  is_ident X w -> ident_stops X rest ->
  res (simple_ident X) (mkPt (w ++ rest) o) = Success (mkPt rest (o + blen w)) (o, o + blen w).
Proof.
  intros I S. unfold res, simple_ident, map_p, split_point_at_non_zero_offset. cbn [p_s p_off].
  rewrite ident_len_eq by auto. apply ident_pos in I as P.
  destruct (Nat.eqb_spec (blen w) 0); [lia|]. rewrite split_at_app. reflexivity.
Qed.

Lemma simple_ident_inv s o pt' v :
  res (simple_ident X) (mkPt s o) = Success pt' v ->
  exists w rest, (is_ident X w /\ ident_stops X rest) /\ s = w ++ rest /\ pt' = mkPt rest (o + blen w) /\ v = (o, o + blen w).
Proof.
  intros R. pose proof (good_simple_ident_text X pm0 (mkPt s o)) as G. unfold res in R.
  destruct (simple_ident X pm0 (mkPt s o)) as [pm' r]. simpl in R. subst r.
  destruct G as (_ & (w & (E & O) & I & S & ->) & _). simpl in *.
  exists w, (p_s pt'). split; auto. split; auto. destruct pt'; simpl in *. subst. auto.
Qed.

Lemma lifetime_ok w rest o :
  is_ident X w -> ident_stops X rest ->
  res (lifetime_p X) (mkPt (([39%N] ++ w) ++ rest) o) = Success (mkPt rest (o + blen ([39%N] ++ w))) (o, o + blen ([39%N] ++ w)).
Proof.
  intros I S. unfold lifetime_p. apply (prefixed_ok (str "'") (simple_ident X)) with (v := (o + 1, o + 1 + blen w)).
  - apply indep_simple_ident.
  - apply simple_ident_ok; auto.
Qed.

(** ** Whitespace *)

Lemma is_ws_spec c : is_ws c = true <-> ws_char c.
Proof.
  unfold is_ws, ws_char. rewrite !orb_true_iff, !N.eqb_eq. tauto.
Qed.

Lemma whitespace_ok w rest o :
  w <> [] -> Forall ws_char w -> (forall c r, rest = c :: r -> ~ ws_char c) ->
  res whitespace (mkPt (w ++ rest) o) = Success (mkPt rest (o + blen w)) (o, o + blen w).
Proof.
  intros NE F S. unfold res, whitespace, map_p, split_point_at_non_zero_offset. cbn [p_s p_off].
  rewrite twl_eq.
  - apply pos_of_nonnil in NE. destruct (Nat.eqb_spec (blen w) 0); [lia|]. rewrite split_at_app. reflexivity.
  - apply forallb_forall. intros c I. apply is_ws_spec. eapply Forall_forall in F; eauto.
  - intros c r E. destruct (is_ws c) eqn:W; auto. exfalso. apply (S c r E). now apply is_ws_spec.
Qed.

Lemma whitespace_inv s o pt' v :
  res whitespace (mkPt s o) = Success pt' v ->
  exists w rest, (w <> [] /\ Forall ws_char w /\ (forall c r, rest = c :: r -> ~ ws_char c)) /\
     s = w ++ rest /\ pt' = mkPt rest (o + blen w) /\ v = (o, o + blen w).
Proof.
  unfold res, whitespace, map_p, split_point_at_non_zero_offset. cbn [p_s p_off].
  destruct (take_while_len_spec is_ws s) as (a & b & -> & L & F & B). rewrite L.
  destruct (Nat.eqb_spec (blen a) 0) as [Z|Z]; [discriminate|].
  rewrite split_at_app. cbn [snd]. intros H. apply Success_inj in H as [<- <-].
  exists a, b. split; auto. split; [intros ->; simpl in Z; lia|]. split.
  - apply Forall_forall. intros c I. apply is_ws_spec. rewrite forallb_forall in F. auto.
  - intros c r -> W. apply is_ws_spec in W. destruct B as [B|(c' & r' & B & P)]; [discriminate|].
    inversion B; subst. congruence.
Qed.

(** ** Identifiers and keywords *)

Lemma lookup_keyword_spec w :
  (exists s, keyword_spelling (lookup_keyword keywords w) = Some s /\ w = str s) \/
  (lookup_keyword keywords w = KIdent /\ forall k s, keyword_spelling k = Some s -> w <> str s).
Proof.
  assert (G : forall tbl, Forall (fun '(s, k) => keyword_spelling k = Some s) tbl ->
    (exists s, keyword_spelling (lookup_keyword tbl w) = Some s /\ w = str s) \/
    (lookup_keyword tbl w = KIdent /\ Forall (fun '(s, k) => w <> str s) tbl)).
  { induction 1 as [|[s k] tbl H F IH]; simpl; auto.
    destruct (text_eqb w (str s)) eqn:E.
    - apply text_eqb_eq in E. left. eauto.
    - destruct IH as [IH|[IH1 IH2]]; auto. right. split; auto. constructor; auto.
      intros Ew. apply text_eqb_eq in Ew. congruence. }
  destruct (G keywords) as [H|[H1 H2]]; auto.
  - repeat constructor.
  - right. split; auto. intros k s Hk.
    assert (I : In (s, k) keywords).
    { destruct k; simpl in Hk; inversion Hk; subst; simpl; tauto. }
    eapply Forall_forall in H2; eauto. simpl in H2. auto.
Qed.

Lemma lookup_keyword_hit k s : keyword_spelling k = Some s -> lookup_keyword keywords (str s) = k.
Proof. destruct k; simpl; intros H; inversion H; subst; reflexivity. Qed.

Lemma kw_ok w rest o :
  is_ident X w -> ident_stops X rest -> starts_with (w ++ rest) (str "r#") = false ->
  res (keyword_or_ident X) (mkPt (w ++ rest) o) =
  Success (mkPt rest (o + blen w)) (Tk (lookup_keyword keywords w) (o, o + blen w)).
Proof.
  intros I S NR. unfold res, keyword_or_ident. cbn [p_s p_off]. rewrite NR.
  unfold map_p, split_point_at_non_zero_offset. cbn [p_s p_off].
  rewrite ident_len_eq by auto. apply ident_pos in I as P.
  destruct (Nat.eqb_spec (blen w) 0); [lia|]. rewrite split_at_app. reflexivity.
Qed.

Lemma raw_ident_ok w rest o :
  is_ident X w -> ident_stops X rest ->
  res (keyword_or_ident X) (mkPt (str "r#" ++ w ++ rest) o) =
  Success (mkPt rest (o + (2 + blen w))) (Tk KIdent (o, o + (2 + blen w))).
Proof.
  intros I S. unfold res, keyword_or_ident. cbn [p_s p_off]. rewrite starts_with_app.
  change 2 with (blen (str "r#")) at 1. rewrite split_at_app.
  rewrite ident_len_eq by auto. apply ident_pos in I as P.
  destruct (Nat.eqb_spec (blen w) 0); [lia|].
  unfold map_p, split_point_at_non_zero_offset. cbn [p_s p_off].
  destruct (Nat.eqb_spec (2 + blen w) 0); [lia|].
  rewrite app_assoc. change (2 + blen w) with (blen (str "r#" ++ w)). rewrite split_at_app. reflexivity.
Qed.

Lemma raw_ident_missing rest o :
  no_ident X rest ->
  res (keyword_or_ident X) (mkPt (str "r#" ++ rest) o) = Failure (mkPt (str "r#" ++ rest) o) TRawIdentifierMissingIdentifier.
Proof.
  intros NI. unfold res, keyword_or_ident. cbn [p_s p_off]. rewrite starts_with_app.
  change 2 with (blen (str "r#")) at 1. rewrite split_at_app.
  apply ident_len_zero in NI. rewrite NI. reflexivity.
Qed.

Lemma fails_kw s o : no_ident X s -> starts_with s (str "r#") = false -> fails (keyword_or_ident X) (mkPt s o).
Proof.
  intros NI NR. exists (mkPt s o), TExpectedIdentOrKeyword. split; auto.
  unfold res, keyword_or_ident. cbn [p_s p_off]. rewrite NR.
  apply ident_len_zero in NI. unfold map_p, split_point_at_non_zero_offset. cbn [p_s p_off].
  rewrite NI. reflexivity.
Qed.

(** What [keyword_or_ident] accepts. *)
Definition word (k : tkind) (w rest : text) : Prop :=
  (is_ident X w /\ ident_stops X rest /\ ~ has_prefix (str "r#") (w ++ rest) /\
   k = lookup_keyword keywords w) \/
  (k = KIdent /\ exists i, w = str "r#" ++ i /\ is_ident X i /\ ident_stops X rest).

Lemma kw_inv s o pt' v :
  res (keyword_or_ident X) (mkPt s o) = Success pt' v ->
  exists k w rest, word k w rest /\ s = w ++ rest /\ pt' = mkPt rest (o + blen w) /\ v = Tk k (o, o + blen w).
Proof.
  unfold res, keyword_or_ident. cbn [p_s p_off].
  destruct (starts_with s (str "r#")) eqn:NR.
  - apply starts_with_spec in NR as [r ->].
    change 2 with (blen (str "r#")) at 1. rewrite split_at_app.
    destruct (Nat.eqb_spec (ident_len X r) 0) as [Z|Z]; [discriminate|].
    unfold map_p, split_point_at_non_zero_offset. cbn [p_s p_off].
    destruct (Nat.eqb_spec (2 + ident_len X r) 0); [lia|].
    destruct (ident_len_spec X r) as (a & b & -> & L). rewrite L in *.
    rewrite app_assoc. change (2 + blen a) with (blen (str "r#" ++ a)). rewrite split_at_app.
    intros H. apply Success_inj in H as [<- <-].
    exists KIdent, (str "r#" ++ a), b.
    destruct (ident_len_ident X _ a b eq_refl L) as [I S].
    { intros ->. simpl in Z. lia. }
    split; [right; split; auto; exists a; auto|]. auto.
  - unfold map_p, split_point_at_non_zero_offset. cbn [p_s p_off].
    destruct (Nat.eqb_spec (ident_len X s) 0) as [Z|Z]; [discriminate|].
    destruct (ident_len_spec X s) as (a & b & -> & L). rewrite L in *. rewrite split_at_app.
    intros H. apply Success_inj in H as [<- <-].
    destruct (ident_len_ident X _ a b eq_refl L) as [I S].
    { intros ->. simpl in Z. lia. }
    exists (lookup_keyword keywords a), a, b. split; auto.
    left. split; [auto|]. split; [auto|]. split; auto. intros [r E]. rewrite E, starts_with_app in NR. discriminate.
Qed.

(** ** Symbols *)

Lemma prefix_comparable (p q r1 r2 : text) : p ++ r1 = q ++ r2 -> List.length p <= List.length q -> exists t, q = p ++ t.
Proof.
  revert q; induction p as [|x p IH]; intros q E L; [eexists; reflexivity|].
  destruct q as [|y q]; simpl in *; [lia|]. inversion E; subst.
  destruct (IH q H1) as [t ->]; [lia|]. exists t; auto.
Qed.

(** Earlier entries of the table are never proper prefixes of later ones. *)
Fixpoint ordered_table (l : list (string * tkind)) : bool :=
  match l with
  | [] => true
  | (s, _) :: r =>
      forallb (fun '(s', _) => negb (starts_with (str s') (str s))) r && ordered_table r
  end.

Lemma symbols_ordered : ordered_table symbols = true.
Proof. vm_compute. reflexivity. Qed.

Lemma symbols_spelling : Forall (fun '(s, k) => symbol_spelling k = Some s /\ keyword_spelling k = None) symbols.
Proof. repeat constructor. Qed.

Lemma symbol_in_table k s : symbol_spelling k = Some s -> In (s, k) symbols.
Proof.
  intros H. assert (F : existsb (fun '(s', k') => String.eqb s s' && tkind_eqb k k') symbols = true).
  { destruct k; simpl in H; inversion H; subst; vm_compute; reflexivity. }
  apply existsb_exists in F as ([s' k'] & I & E). apply andb_true_iff in E as [E1 E2].
  apply String.eqb_eq in E1. apply tkind_eqb_eq in E2. now subst.
Qed.

Lemma str_length s : List.length (str s) = String.length s.
Proof. unfold str. rewrite map_length. induction s; simpl; auto. Qed.

Lemma ordered_app a s k b : ordered_table (a ++ (s, k) :: b) = true ->
  forall s' k', In (s', k') b -> starts_with (str s') (str s) = false.
Proof.
  induction a as [|[s0 k0] a IH]; simpl; intros H s' k' I.
  - apply andb_true_iff in H as [H _]. rewrite forallb_forall in H. specialize (H _ I). simpl in H.
    now apply negb_true_iff in H.
  - apply andb_true_iff in H as [_ H]. eauto.
Qed.

Lemma symbol_first_longest a s k b text0 :
  symbols = a ++ (s, k) :: b ->
  starts_with text0 (str s) = true ->
  Forall (fun '(s', _) => starts_with text0 (str s') = false) a ->
  forall k' s', symbol_spelling k' = Some s' -> has_prefix (str s') text0 -> String.length s' <= String.length s.
Proof.
  intros Eq M F k' s' Hk [r Hr]. apply symbol_in_table in Hk. rewrite Eq in Hk.
  apply starts_with_spec in M as [r0 M].
  apply in_app_or in Hk as [I|[I|I]].
  - eapply Forall_forall in F; eauto. simpl in F. rewrite Hr, starts_with_app in F. discriminate.
  - inversion I; subst; auto.
  - pose proof symbols_ordered as O. rewrite Eq in O. pose proof (ordered_app _ _ _ _ O _ _ I) as N.
    destruct (Nat.le_gt_cases (String.length s') (String.length s)) as [L|L]; auto.
    exfalso. rewrite Hr in M. symmetry in M.
    destruct (prefix_comparable _ _ _ _ M) as [t E]. { rewrite !str_length. lia. }
    rewrite E, starts_with_app in N. discriminate.
Qed.

(** ** Comments *)

Lemma comment_token_res k eol s o a b :
  s = a ++ b -> eol = Some (blen a) ->
  res (comment_token k eol) (mkPt s o) = Success (mkPt b (o + blen a)) (Tk k (o, o + blen a)).
Proof.
  intros -> ->. unfold res, comment_token, bind, consume_to. cbn [p_s p_off].
  rewrite split_at_app. rewrite run_ret_ex; [reflexivity|]. exists a; auto.
Qed.

Lemma sw_false s p : starts_with s p = false <-> ~ has_prefix p s.
Proof.
  unfold has_prefix. rewrite <- starts_with_spec. destruct (starts_with s p); split; congruence.
Qed.

Lemma sw_true s p : starts_with s p = true <-> has_prefix p s.
Proof. apply starts_with_spec. Qed.

Lemma fails_comment s o : no_comment s -> fails comment_or_doc_comment (mkPt s o).
Proof.
  intros [N1 N2]. exists (mkPt s o), TExpectedComment. split; auto.
  unfold res, comment_or_doc_comment. cbn [p_s p_off].
  assert (F1 : forall q, starts_with s (str "//" ++ q) = false).
  { intros q. apply sw_false. intros [r ->]. apply N1. exists (q ++ r). rewrite <- app_assoc. auto. }
  assert (F2 : forall q, starts_with s (str "/*" ++ q) = false).
  { intros q. apply sw_false. intros [r ->]. apply N2. exists (q ++ r). rewrite <- app_assoc. auto. }
  pose proof (F1 (str "/")) as G1. pose proof (F1 (str "!")) as G2. pose proof (F1 []) as G3.
  pose proof (F2 (str "*")) as G4. pose proof (F2 (str "!")) as G5. pose proof (F2 []) as G6.
  change (starts_with s (str "///") = false) in G1. change (starts_with s (str "//!") = false) in G2.
  change (starts_with s (str "//") = false) in G3. change (starts_with s (str "/**") = false) in G4.
  change (starts_with s (str "/*!") = false) in G5. change (starts_with s (str "/*") = false) in G6.
  rewrite G1, G2, G3, G4, G5, G6. reflexivity.
Qed.

Lemma line_end_comment s : has_prefix (str "//") s ->
  exists w rest, s = w ++ rest /\ line_end s = blen w /\ line_comment w rest /\
    (forall p, ~ In 10%N p -> (has_prefix p s <-> has_prefix p w)).
Proof.
  intros _. unfold line_end. pose proof (find_char_spec s newline) as F.
  destruct (find_char s newline).
  - destruct F as (a & r & -> & -> & NI). exists a, (newline :: r). split; auto. split; auto.
    split; [split; eauto|].
    intros p NP. split; intros [q E].
    + destruct (Nat.le_gt_cases (List.length p) (List.length a)) as [L|L].
      * symmetry in E. destruct (prefix_comparable _ _ _ _ E L) as [t ->]. exists t; auto.
      * exfalso. destruct (prefix_comparable _ _ _ _ E) as [t ->]; [exact (Nat.lt_le_incl _ _ L)|].
        rewrite <- app_assoc in E. apply app_inv_head in E. destruct t as [|x t].
        { rewrite app_nil_r in L. exact (Nat.lt_irrefl _ L). }
        inversion E; subst. apply NP. apply in_or_app. right. left. auto.
    + rewrite E, <- app_assoc. eexists; eauto.
  - exists s, []. rewrite app_nil_r. split; auto. split; auto. split; [split; auto|]. tauto.
Qed.

Lemma block_end_comment op s k : has_prefix op s -> blen op = k ->
  exists w rest, s = w ++ rest /\ block_end k s = Some (blen w) /\ block_comment op w rest.
Proof.
  intros [r ->] <-. unfold block_end. rewrite split_at_app.
  pose proof (find_str_spec r (str "*/")) as F. destruct (find_str r (str "*/")) as [x|].
  - destruct F as (b & r' & -> & -> & M). exists (op ++ b ++ str "*/"), r'.
    rewrite <- !app_assoc. split; auto. split.
    + f_equal. rewrite !blen_app. change (blen (str "*/")) with 2. lia.
    + left. exists b. split; auto.
  - exists (op ++ r), []. rewrite app_nil_r. split; auto. split; auto. right. exists r. auto.
Qed.

(** A block comment's first characters are those of the text. *)
Lemma block_prefix op w rest p :
  block_comment op w rest -> List.length p <= List.length op + 2 -> has_prefix p (w ++ rest) ->
  has_prefix p w.
Proof.
  intros B L [r E]. destruct B as [(b & -> & _)|(b & -> & -> & _)].
  - symmetry in E. destruct (prefix_comparable _ _ _ _ E) as [t ->].
    { rewrite !app_length. simpl. lia. }
    exists t; auto.
  - rewrite app_nil_r in E. exists r; auto.
Qed.

Lemma comment_ok s o :
  has_prefix (str "//") s \/ has_prefix (str "/*") s ->
  exists k w rest, s = w ++ rest /\ lexical X k w rest /\
    In k [KDocCommentOuterLine; KDocCommentInnerLine; KCommentLine; KDocCommentOuterBlock;
          KDocCommentInnerBlock; KCommentBlock] /\
    res comment_or_doc_comment (mkPt s o) = Success (mkPt rest (o + blen w)) (Tk k (o, o + blen w)).
Proof.
  intros H.
  assert (NN : forall p, forallb (fun c => negb (N.eqb c 10)) p = true -> ~ In 10%N p).
  { intros p F I. rewrite forallb_forall in F. specialize (F _ I). discriminate. }
  destruct (starts_with s (str "//")) eqn:S3.
  - assert (P3 := proj1 (sw_true _ _) S3).
    destruct (line_end_comment s P3) as (w & rest & Es & LE & LC & PP).
    assert (Q : forall p, forallb (fun c => negb (N.eqb c 10)) (str p) = true ->
       (starts_with s (str p) = true -> has_prefix (str p) w) /\ (starts_with s (str p) = false -> ~ has_prefix (str p) w)).
    { intros p Hp. rewrite sw_true, sw_false. specialize (PP (str p) (NN _ Hp)). tauto. }
    destruct (starts_with s (str "///")) eqn:S1; [destruct (starts_with s (str "////")) eqn:S1'|].
    + assert (S2 : starts_with s (str "//!") = false).
      { apply sw_true in S1 as [r ->]. reflexivity. }
      exists KCommentLine, w, rest. split; auto. split; [|split; [simpl; tauto|]].
      * unfold lexical; cbn [keyword_spelling symbol_spelling]. split; [apply (Q "//"%string); auto|]. split; [apply Q; auto|]. split; auto. intros _. apply (Q "////"%string); auto.
      * transitivity (res (comment_token KCommentLine (Some (line_end s))) (mkPt s o)).
        { unfold res, comment_or_doc_comment. cbn [p_s p_off]. rewrite S1, S1', S2, S3. reflexivity. }
        rewrite LE. now apply comment_token_res.
    + exists KDocCommentOuterLine, w, rest. split; auto. split; [|split; [simpl; tauto|]].
      * unfold lexical; cbn [keyword_spelling symbol_spelling]. split; [apply (Q "///"%string); auto|]. split; auto. apply (Q "////"%string); auto.
      * transitivity (res (comment_token KDocCommentOuterLine (Some (line_end s))) (mkPt s o)).
        { unfold res, comment_or_doc_comment. cbn [p_s p_off]. rewrite S1, S1'. reflexivity. }
        rewrite LE. now apply comment_token_res.
    + destruct (starts_with s (str "//!")) eqn:S2.
      * exists KDocCommentInnerLine, w, rest. split; auto. split; [|split; [simpl; tauto|]].
        -- unfold lexical; cbn [keyword_spelling symbol_spelling]. split; auto. apply (Q "//!"%string); auto.
        -- transitivity (res (comment_token KDocCommentInnerLine (Some (line_end s))) (mkPt s o)).
           { unfold res, comment_or_doc_comment. cbn [p_s p_off]. rewrite S1, S2. reflexivity. }
           rewrite LE. now apply comment_token_res.
      * exists KCommentLine, w, rest. split; auto. split; [|split; [simpl; tauto|]].
        -- unfold lexical; cbn [keyword_spelling symbol_spelling]. split; [apply (Q "//"%string); auto|]. split; [apply (Q "//!"%string); auto|]. split; auto.
           intros P. exfalso. revert P. apply (Q "///"%string); auto.
        -- transitivity (res (comment_token KCommentLine (Some (line_end s))) (mkPt s o)).
           { unfold res, comment_or_doc_comment. cbn [p_s p_off]. rewrite S1, S2, S3. reflexivity. }
           rewrite LE. now apply comment_token_res.
  - assert (P6 : has_prefix (str "/*") s).
    { destruct H as [H|H]; auto. apply sw_true in H. congruence. }
    assert (S1 : starts_with s (str "///") = false).
    { apply sw_false. intros [r ->]. discriminate. }
    assert (S2 : starts_with s (str "//!") = false).
    { apply sw_false. intros [r ->]. discriminate. }
    assert (S6 := proj2 (sw_true _ _) P6).
    destruct (starts_with s (str "/*!")) eqn:S5.
    { assert (S4 : starts_with s (str "/**") = false).
      { apply sw_false. intros [r ->]. discriminate. }
      assert (P := proj1 (sw_true _ _) S5).
      destruct (block_end_comment _ s 3 P eq_refl) as (w & rest & Es & BE & BC).
      exists KDocCommentInnerBlock, w, rest. split; auto. split; [exact BC|split; [simpl; tauto|]].
      transitivity (res (comment_token KDocCommentInnerBlock (block_end 3 s)) (mkPt s o)).
      { unfold res, comment_or_doc_comment. cbn [p_s p_off]. rewrite S1, S2, S3, S4, S5. reflexivity. }
      now apply comment_token_res. }
    destruct (starts_with s (str "/**") && negb (starts_with s (str "/***")) && negb (starts_with s (str "/**/"))) eqn:S4.
    + pose proof S4 as S4'. apply andb_true_iff in S4' as [S4' S4c]. apply andb_true_iff in S4' as [S4a S4b].
      apply negb_true_iff in S4b. apply negb_true_iff in S4c.
      assert (P := proj1 (sw_true _ _) S4a).
      destruct (block_end_comment _ s 3 P eq_refl) as (w & rest & Es & BE & BC).
      exists KDocCommentOuterBlock, w, rest. split; auto. split; [|split; [simpl; tauto|]].
      * unfold lexical; cbn [keyword_spelling symbol_spelling]. rewrite <- Es. split; auto. split; apply sw_false; auto.
      * transitivity (res (comment_token KDocCommentOuterBlock (block_end 3 s)) (mkPt s o)).
        { unfold res, comment_or_doc_comment. cbn [p_s p_off]. rewrite S1, S2, S3, S4. reflexivity. }
        now apply comment_token_res.
    + destruct (block_end_comment _ s 2 P6 eq_refl) as (w & rest & Es & BE & BC).
      exists KCommentBlock, w, rest. split; auto. split; [|split; [simpl; tauto|]].
      * unfold lexical; cbn [keyword_spelling symbol_spelling]. split; auto. split.
        -- intros [r E]. rewrite Es in S5. rewrite E, <- app_assoc, starts_with_app in S5. discriminate.
        -- intros P. assert (P' : starts_with s (str "/**") = true).
           { apply sw_true. rewrite Es. destruct P as [r ->]. rewrite <- app_assoc. eexists; eauto. }
           rewrite P' in S4. cbn [andb] in S4. apply andb_false_iff in S4 as [S4|S4];
             apply negb_false_iff in S4; [left|right];
             apply (block_prefix _ _ _ _ BC); [simpl; lia| |simpl; lia|]; rewrite <- Es; now apply sw_true.
      * transitivity (res (comment_token KCommentBlock (block_end 2 s)) (mkPt s o)).
        { unfold res, comment_or_doc_comment. cbn [p_s p_off]. rewrite S1, S2, S3, S4, S5, S6. reflexivity. }
        now apply comment_token_res.
Qed.

End S.
