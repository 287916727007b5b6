(** Number tokens: the tokenizer yields exactly the specified number. *)

From Coq Require Import String List NArith Arith Bool Lia.
From Verif Require Import Base Peresil Token Tokenizer TokenizerSpec TokenizerSafe TokenizerNum
  TokenizerIter TokenizerLex TokenizerTop.
Import ListNotations.

Definition dou (b : N) (c : char) : bool := is_digit b c || N.eqb c underscore.

Lemma dou_spec b c : dou b c = true <-> digit_or_underscore b c.
Proof.
  unfold dou, digit_or_underscore. rewrite orb_true_iff, is_digit_spec, N.eqb_eq. reflexivity.
Qed.

Lemma dou_stop b t : digits_stop b t <-> (forall c r, t = c :: r -> dou b c = false).
Proof.
  unfold digits_stop. split; intros H c r E.
  - destruct (dou b c) eqn:D; auto. apply dou_spec in D. exfalso; eapply H; eauto.
  - intros D. apply dou_spec in D. rewrite (H c r E) in D. discriminate.
Qed.

Lemma dou_forall b w : Forall (digit_or_underscore b) w -> forallb (dou b) w = true.
Proof. intros F. apply forallb_forall. intros c I. apply dou_spec. eapply Forall_forall in F; eauto. Qed.

Lemma dou_split b s : exists ds r, s = ds ++ r /\ Forall (digit_or_underscore b) ds /\ digits_stop b r.
Proof.
  induction s as [|c s IH].
  - exists [], []. split; auto. split; auto. intros c r E. discriminate.
  - destruct (dou b c) eqn:D.
    + destruct IH as (ds & r & -> & F & S). exists (c :: ds), r. split; auto. split; auto.
      constructor; auto. now apply dou_spec.
    + exists [], (c :: s). split; auto. split; auto. apply dou_stop. intros c' r E. inversion E; subst; auto.
Qed.

Lemma digits_ok b ds rest o :
  ds <> [] -> Forall (digit_or_underscore b) ds -> digits_stop b rest ->
  res (number_digits b) (mkPt (ds ++ rest) o) =
  Success (mkPt rest (o + blen ds)) ((o, o + blen ds), count_char ds 95%N).
Proof.
  intros NE F S. unfold res, number_digits, map_p, split_point_at_non_zero_offset. cbn [p_s p_off].
  fold (dou b). change (fun c : char => is_digit b c || (c =? underscore)%N) with (dou b).
  rewrite twl_eq; [|now apply dou_forall|now apply dou_stop].
  apply pos_of_nonnil in NE. destruct (Nat.eqb_spec (blen ds) 0); [lia|]. rewrite split_at_app. reflexivity.
Qed.

Lemma digits_fail b s o : digits_stop b s -> fails (number_digits b) (mkPt s o).
Proof.
  intros S. exists (mkPt s o), TExpectedNumber. split; auto.
  unfold res, number_digits, map_p, split_point_at_non_zero_offset. cbn [p_s p_off].
  change (fun c : char => is_digit b c || (c =? underscore)%N) with (dou b).
  pose proof (twl_eq (dou b) [] s eq_refl) as T. cbn [app blen] in T. rewrite T; auto. now apply dou_stop.
Qed.

Lemma res_optional_some {A} (p : tparser A) pt pt' a :
  res p pt = Success pt' a -> res (t_optional p) pt = Success pt' (Some a).
Proof. unfold res, optional. destruct (p pm0 pt) as [pm1 r]. simpl. intros ->. reflexivity. Qed.

Lemma res_optional_none {A} (p : tparser A) pt : fails p pt -> res (t_optional p) pt = Success pt None.
Proof.
  intros (x & e & E & R). unfold res, optional in *. destruct (p pm0 pt) as [pm1 r]. simpl in *. subst r. simpl.
  now rewrite R.
Qed.

Lemma res_not_ok {A} (p : tparser A) e pt : fails p pt -> res (not (peek p) e) pt = Success pt tt.
Proof.
  intros (x & e' & E & R). unfold res, not, peek in *. destruct (p pm0 pt) as [pm1 r]. simpl in *. subst r. reflexivity.
Qed.

Lemma fails_not {A} (p : tparser A) e pt pt' v :
  t_recoverable e = true -> res p pt = Success pt' v -> fails (not (peek p) e) pt.
Proof.
  intros R E. unfold fails, res, not, peek in *. destruct (p pm0 pt) as [pm1 r]. simpl in E. subst r.
  simpl. eauto.
Qed.

Ltac ind2 := repeat (first
    [ match goal with |- forall _, _ => intro end
    | match goal with |- context [let '(_, _) := ?x in _] => destruct x end
    | assumption
    | match goal with H : forall _, indep _ |- _ => apply H end
    | match goal with H : forall _ _ _, indep _ |- _ => apply H end
    | apply indep_bind | apply indep_map | apply indep_optional | apply indep_not
    | apply indep_peek | apply indep_alternate; repeat constructor
    | apply indep_zero_or_more | apply indep_ret | apply indep_point | apply indep_ret_ex
    | apply indep_consume_to | apply indep_literal | apply indep_split ]).

Section S.
Variable X : xid.

Lemma fails_simple_ident s o : no_ident X s -> fails (simple_ident X) (mkPt s o).
Proof.
  intros N. exists (mkPt s o), TExpectedIdent. split; auto. unfold res.
  now rewrite (simple_ident_fails X pm0 (mkPt s o)).
Qed.

Lemma ident_or_not s : no_ident X s \/ exists w r, s = w ++ r /\ is_ident X w /\ ident_stops X r.
Proof.
  destruct (Nat.eq_dec (ident_len X s) 0) as [Z|Z].
  - left. now apply ident_len_zero.
  - right. destruct (ident_len_spec X s) as (a & b & -> & L). exists a, b. split; auto.
    apply (ident_len_ident X (a ++ b)); auto. intros ->. apply Z. rewrite L. reflexivity.
Qed.

Ltac indn := pose proof (indep_simple_ident X); pose proof indep_number_digits;
  pose proof (indep_number_fractional X); pose proof (indep_number_base X); ind2.

Lemma fraction_ok b frac after o :
  frac <> [] -> fraction_part X b frac after ->
  res (number_fractional X b) (mkPt (frac ++ after) o) = Success (mkPt after (o + blen frac)) (o, o + blen frac).
Proof.
  intros NE [[E _]|(St & ds & -> & F & S)]; [congruence|].
  destruct St as (r & E & NI & NP). cbn [app] in E. inversion E; subst r. clear E.
  unfold number_fractional.
  erewrite res_bind_ok; [|indn|apply res_point]. cbv beta.
  change ((46%N :: ds) ++ after) with (str "." ++ ds ++ after).
  erewrite res_bind_ok; [|indn|apply res_literal_ok]. cbv beta.
  erewrite res_bind_ok; [|indn|apply res_not_ok, fails_literal, sw_false; exact NP]. cbv beta.
  erewrite res_bind_ok; [|indn|apply res_not_ok, fails_simple_ident; exact NI]. cbv beta.
  destruct ds as [|d ds].
  - erewrite res_bind_ok; [|indn|apply res_optional_none, digits_fail; exact S]. cbv beta.
    rewrite res_ret_ex by (simpl; lia). reflexivity.
  - erewrite res_bind_ok; [|indn|apply res_optional_some, digits_ok; [discriminate|exact F|exact S]]. cbv beta.
    rewrite res_ret_ex by (simpl; lia). cbn [p_off].
    change (46%N :: d :: ds) with (str "." ++ d :: ds). rewrite blen_app, Nat.add_assoc. reflexivity.
Qed.

Lemma fraction_fail b s o : ~ fraction_starts X s -> fails (number_fractional X b) (mkPt s o).
Proof.
  intros N. unfold number_fractional. eapply fails_bind2; [indn|apply res_point|].
  destruct (starts_with s (str ".")) eqn:S.
  - apply starts_with_spec in S as [r ->]. eapply fails_bind2; [indn|apply res_literal_ok|].
    destruct (starts_with r (str ".")) eqn:S2.
    + apply starts_with_spec in S2 as [r2 ->]. apply fails_bind1; [indn|].
      eapply fails_not; [reflexivity|apply res_literal_ok].
    + eapply fails_bind2; [indn|apply res_not_ok, fails_literal; exact S2|].
      destruct (ident_or_not r) as [NI|(w & r' & -> & I & St)].
      * exfalso. apply N. exists r. split; auto. split; auto. now apply sw_false.
      * apply fails_bind1; [indn|]. eapply fails_not; [reflexivity|]. now apply simple_ident_ok.
  - apply fails_bind1; [indn|]. now apply fails_literal.
Qed.

Lemma exponent_ok expo after o :
  expo <> [] -> exponent_part expo after ->
  res number_exponent (mkPt (expo ++ after) o) = Success (mkPt after (o + blen expo)) (o + 1, o + blen expo).
Proof.
  intros NE [[E _]|(c & ds & -> & C & ND & F & S)]; [congruence|].
  assert (D : forall ch, ch = str "e" \/ ch = str "E" -> 
     res (bind (literal ch) (fun _ => bind (number_digits 10) (fun '(value, _) => ret value)))
       (mkPt (ch ++ ds ++ after) o) = Success (mkPt after (o + blen (ch ++ ds))) (o + 1, o + blen (ch ++ ds))).
  { intros ch Hc. erewrite res_bind_ok; [|indn|apply res_literal_ok]. cbv beta.
    erewrite res_bind_ok; [|indn|apply digits_ok; auto]. cbv beta. unfold res, ret. simpl snd.
    assert (blen ch = 1) as L by (destruct Hc; subst; reflexivity).
    rewrite blen_app, L, Nat.add_assoc. reflexivity. }
  unfold number_exponent. destruct C as [-> | ->].
  - rewrite (alternate_pick [] number_exponent_lowercase [number_exponent_uppercase]).
    + apply (D (str "e")); auto.
    + unfold number_exponent_lowercase, number_exponent_uppercase. repeat constructor; indn.
    + constructor.
    + intros pt' e. change ((101%N :: ds) ++ after) with (str "e" ++ ds ++ after).
      unfold number_exponent_lowercase. rewrite (D (str "e")) by auto. discriminate.
  - rewrite (alternate_pick [number_exponent_lowercase] number_exponent_uppercase []).
    + apply (D (str "E")); auto.
    + unfold number_exponent_lowercase, number_exponent_uppercase. repeat constructor; indn.
    + constructor; auto. unfold number_exponent_lowercase. apply fails_bind1; [indn|].
      now apply fails_literal.
    + intros pt' e. change ((69%N :: ds) ++ after) with (str "E" ++ ds ++ after).
      unfold number_exponent_uppercase. rewrite (D (str "E")) by auto. discriminate.
Qed.

Lemma alternate_fails {A} (ps : list (tparser A)) pt :
  ps <> [] -> Forall indep ps -> Forall (fun q => fails q pt) ps -> fails (t_alternate ps) pt.
Proof.
  intros NE I F. induction ps as [|p ps IH]; [congruence|].
  inversion I; subst. apply Forall_cons_iff in F as [(x & e & E & R) F].
  unfold fails. rewrite alternate_res by auto. rewrite E, R. destruct ps as [|q ps]; [eauto|].
  apply IH; auto. discriminate.
Qed.

Lemma exponent_fail s o : ~ exponent_starts s -> fails number_exponent (mkPt s o).
Proof.
  intros N. apply alternate_fails; [discriminate| |].
  - unfold number_exponent_lowercase, number_exponent_uppercase. repeat constructor; indn.
  - assert (D : forall c, c = 101%N \/ c = 69%N ->
     fails (bind (literal [c]) (fun _ => bind (number_digits 10) (fun '(value, _) => ret value))) (mkPt s o)).
    { intros c Hc. destruct (starts_with s [c]) eqn:S.
      - apply starts_with_spec in S as [r ->]. eapply fails_bind2; [indn|apply res_literal_ok|].
        apply fails_bind1; [indn|]. apply digits_fail. intros d r' -> D. apply N.
        exists c, d, r'. auto.
      - apply fails_bind1; [indn|]. now apply fails_literal. }
    repeat constructor; [apply (D 101%N)|apply (D 69%N)]; auto.
Qed.

Lemma base_ok_res prefix base rx digits frac tail o :
  digits <> [] -> Forall (digit_or_underscore base) digits -> digits_stop base (frac ++ tail) ->
  fraction_part X base frac tail ->
  res (number_base X prefix base rx) (mkPt (prefix ++ digits ++ frac ++ tail) o) =
  Success (mkPt tail (o + blen (prefix ++ digits ++ frac)))
    (rx, (o + blen prefix, o + blen (prefix ++ digits)),
     part_extent (o + blen (prefix ++ digits)) 0 frac, count_char digits 95%N).
Proof.
  intros NE F S FP. unfold number_base.
  erewrite res_bind_ok; [|indn|apply res_literal_ok]. cbv beta.
  erewrite res_bind_ok; [|indn|apply digits_ok; auto]. cbv beta iota.
  assert (R : res (t_optional (number_fractional X base)) (mkPt (frac ++ tail) (o + blen prefix + blen digits)) =
     Success (mkPt tail (o + blen (prefix ++ digits ++ frac))) (part_extent (o + blen (prefix ++ digits)) 0 frac)).
  { rewrite !blen_app. destruct frac as [|c frac].
    - destruct FP as [[_ N]|(_ & ds & E & _)]; [|discriminate]. cbn [app part_extent blen].
      rewrite res_optional_none by now apply fraction_fail. f_equal. f_equal. lia.
    - erewrite res_optional_some; [|apply fraction_ok; [discriminate|exact FP]].
      unfold part_extent. f_equal; [f_equal; lia|]. f_equal. f_equal; lia. }
  erewrite res_bind_ok; [|indn|exact R]. cbv beta. unfold res, ret. simpl snd.
  rewrite !blen_app, !Nat.add_assoc. reflexivity.
Qed.

Lemma base_fail prefix base rx s o :
  ~ has_radix_prefix prefix base s -> fails (number_base X prefix base rx) (mkPt s o).
Proof.
  intros N. unfold number_base. destruct (starts_with s prefix) eqn:S.
  - apply starts_with_spec in S as [r ->]. eapply fails_bind2; [indn|apply res_literal_ok|].
    apply fails_bind1; [indn|]. apply digits_fail. intros d r' -> D. apply N. exists d, r'. auto.
  - apply fails_bind1; [indn|]. now apply fails_literal.
Qed.

Lemma value_ok rx prefix base digits frac tail o :
  let s := prefix ++ digits ++ frac ++ tail in
  (In (rx, prefix, base) radix_prefixes \/
     (rx = RDecimal /\ prefix = [] /\ base = 10%N /\
      forall rx' p b, In (rx', p, b) radix_prefixes -> ~ has_radix_prefix p b s)) ->
  digits <> [] -> Forall (digit_or_underscore base) digits -> digits_stop base (frac ++ tail) ->
  fraction_part X base frac tail ->
  res (number_value X) (mkPt s o) =
  Success (mkPt tail (o + blen (prefix ++ digits ++ frac)))
    (rx, (o + blen prefix, o + blen (prefix ++ digits)),
     part_extent (o + blen (prefix ++ digits)) 0 frac, count_char digits 95%N).
Proof.
  intros s HR NE F S FP. pose proof (base_ok_res prefix base rx digits frac tail o NE F S FP) as R.
  fold s in R. rewrite <- R. unfold number_value.
  assert (FI : Forall indep [number_base X (str "0b") 2 RBinary; number_base X (str "0x") 16 RHexadecimal;
       number_base X (str "0o") 8 ROctal; number_base X (str "") 10 RDecimal]) by (repeat constructor; indn).
  assert (ND : forall p b, In (p, b) [(str "0b", 2%N); (str "0x", 16%N); (str "0o", 8%N)] ->
     (forall r, s <> p ++ r) -> ~ has_radix_prefix p b s).
  { intros p b _ N (d & r & E & _). eapply N; eauto. }
  assert (HRS : forall pt' e, res (number_base X prefix base rx) (mkPt s o) = Failure pt' e -> t_recoverable e = false)
    by (rewrite R; discriminate).
  destruct HR as [I|(-> & -> & -> & N)].
  - unfold radix_prefixes in I. simpl in I. destruct I as [I|[I|[I|[]]]]; inversion I; subst rx prefix base.
    + apply (alternate_pick [] _ [_;_;_]); auto.
    + apply (alternate_pick [_] _ [_;_]); auto. repeat constructor; apply base_fail; intros (d & r & E & _); discriminate.
    + apply (alternate_pick [_;_] _ [_]); auto. repeat constructor; apply base_fail; intros (d & r & E & _); discriminate.
  - apply (alternate_pick [_;_;_] _ []); auto.
    repeat constructor; apply base_fail; eapply N; simpl; eauto.
Qed.

Lemma number_ok_res s off n rest :
  number_token X s off n rest ->
  exists w, s = w ++ rest /\ n_extent n = (off, off + blen w) /\ w <> [] /\
  (exists c r, s = c :: r /\ digit_of 10 c) /\
  res (number_p X) (mkPt s off) = Success (mkPt rest (off + blen w)) n.
Proof.
  intros (rx & prefix & base & digits & frac & expo & suffix & Es & HR & NE & F & S & FP & EP & SP & ->).
  exists (prefix ++ digits ++ frac ++ expo ++ suffix).
  split; [rewrite <- !app_assoc; exact Es|]. split; [reflexivity|].
  split; [destruct prefix; [destruct digits; [congruence|discriminate]|discriminate]|].
  split.
  { destruct HR as [I|(_ & _ & _ & D & _)]; auto. unfold radix_prefixes in I. simpl in I.
    destruct I as [I|[I|[I|[]]]]; inversion I; subst prefix; subst s; do 2 eexists; (split; [reflexivity|]);
      exists 0%N; (split; [reflexivity|lia]). }
  unfold number_p. erewrite res_bind_ok; [|indn|apply res_point].
  cbv beta.
  assert (IE : indep number_exponent).
  { apply indep_alternate; unfold number_exponent_lowercase, number_exponent_uppercase; repeat constructor; indn. }
  assert (HR' : In (rx, prefix, base) radix_prefixes \/
     (rx = RDecimal /\ prefix = [] /\ base = 10%N /\
      forall rx' p b, In (rx', p, b) radix_prefixes -> ~ has_radix_prefix p b s))
    by (destruct HR as [I|(A & B & C & _ & D)]; auto).
  rewrite Es in *. erewrite res_bind_ok; [|indn|eapply value_ok; eassumption].
  cbv beta iota.
  assert (R1 : res (t_optional number_exponent) (mkPt (expo ++ suffix ++ rest) (off + blen (prefix ++ digits ++ frac))) =
    Success (mkPt (suffix ++ rest) (off + blen (prefix ++ digits ++ frac ++ expo)))
       (part_extent (off + blen (prefix ++ digits ++ frac)) 1 expo)).
  { rewrite !blen_app. destruct expo as [|c expo].
    - destruct EP as [[_ N]|(c & ds & E & _)]; [|discriminate]. cbn [app blen part_extent].
      rewrite res_optional_none by now apply exponent_fail. f_equal. f_equal. lia.
    - erewrite res_optional_some; [|apply exponent_ok; [discriminate|exact EP]].
      unfold part_extent. f_equal. f_equal. lia. }
  erewrite res_bind_ok; [|indn|exact R1]. cbv beta.
  assert (R2 : res (t_optional (simple_ident X)) (mkPt (suffix ++ rest) (off + blen (prefix ++ digits ++ frac ++ expo))) =
    Success (mkPt rest (off + blen (prefix ++ digits ++ frac ++ expo ++ suffix)))
       (part_extent (off + blen (prefix ++ digits ++ frac ++ expo)) 0 suffix)).
  { rewrite !blen_app. destruct suffix as [|c suffix].
    - destruct SP as [[_ N]|[[] _]]. cbn [app blen part_extent].
      rewrite res_optional_none by now apply fails_simple_ident. f_equal. f_equal. lia.
    - destruct SP as [[E _]|[I St]]; [discriminate|].
      erewrite res_optional_some; [|apply simple_ident_ok; auto].
      unfold part_extent. f_equal; [f_equal; lia|]. f_equal. f_equal; lia. }
  erewrite res_bind_ok; [|indn|exact R2]. cbv beta.
  rewrite res_ret_ex by (simpl; lia). reflexivity.
Qed.

(** Every text that starts with a digit starts with exactly one number. *)
Lemma number_exists s off : (exists c r, s = c :: r /\ digit_of 10 c) -> exists n rest, number_token X s off n rest.
Proof.
  intros D.
  assert (HR : exists rx prefix base s1, s = prefix ++ s1 /\
    (In (rx, prefix, base) radix_prefixes \/
     (rx = RDecimal /\ prefix = [] /\ base = 10%N /\
      (exists c r, s = c :: r /\ digit_of 10 c) /\
      forall rx' p b, In (rx', p, b) radix_prefixes -> ~ has_radix_prefix p b s)) /\
    exists c r, s1 = c :: r /\ digit_or_underscore base c).
  { assert (Dec : forall p b, has_radix_prefix p b s \/ ~ has_radix_prefix p b s).
    { intros p b. destruct (starts_with s p) eqn:S.
      - apply starts_with_spec in S as [r ->]. destruct r as [|d r].
        + right. intros (d & r & E & _). apply app_inv_head in E. discriminate.
        + destruct (dou b d) eqn:Db.
          * left. exists d, r. split; auto. now apply dou_spec.
          * right. intros (d' & r' & E & Dd). apply app_inv_head in E. inversion E; subst.
            apply dou_spec in Dd. congruence.
      - right. intros (d & r & -> & _). rewrite starts_with_app in S. discriminate. }
    destruct (Dec (str "0b") 2%N) as [(d & r & E & Dd)|N1].
    { exists RBinary, (str "0b"), 2%N, (d :: r). split; auto. split; [left; simpl; auto|eauto]. }
    destruct (Dec (str "0x") 16%N) as [(d & r & E & Dd)|N2].
    { exists RHexadecimal, (str "0x"), 16%N, (d :: r). split; auto. split; [left; simpl; auto|eauto]. }
    destruct (Dec (str "0o") 8%N) as [(d & r & E & Dd)|N3].
    { exists ROctal, (str "0o"), 8%N, (d :: r). split; auto. split; [left; simpl; auto|eauto]. }
    exists RDecimal, [], 10%N, s. split; auto. split.
    - right. split; auto. split; auto. split; auto. split; auto. intros rx p b I.
      unfold radix_prefixes in I. simpl in I. destruct I as [I|[I|[I|[]]]]; inversion I; subst; auto.
    - destruct D as (c & r & -> & D). exists c, r. split; auto. now left. }
  destruct HR as (rx & prefix & base & s1 & Es & HR & (c & r & Ec & Dc)).
  destruct (dou_split base s1) as (digits & s2 & E1 & F1 & S1).
  assert (NE : digits <> []).
  { intros ->. cbn [app] in E1. rewrite <- E1, Ec in S1. eapply S1; eauto. }
  assert (HF : exists frac s3, s2 = frac ++ s3 /\ fraction_part X base frac s3).
  { destruct (starts_with s2 (str ".")) eqn:S.
    - apply starts_with_spec in S as [q ->]. destruct (starts_with q [46%N]) eqn:S2.
      + exists [], (str "." ++ q). split; auto. left. split; auto. intros (q' & E & _ & N).
        inversion E; subst. apply N. now apply sw_true.
      + destruct (ident_or_not q) as [NI|(w & q' & -> & I & _)].
        * destruct (dou_split base q) as (ds & s3 & -> & F3 & S3).
          exists (46%N :: ds), s3. split; auto. right. split.
          -- exists (ds ++ s3). split; auto. split; auto. now apply sw_false.
          -- exists ds. auto.
        * exists [], (str "." ++ w ++ q'). split; auto. left. split; auto. intros (q2 & E & N & _).
          inversion E; subst. destruct w; [contradiction|]. simpl in N, I. destruct N, I as [[I|I] _]; congruence.
    - exists [], s2. split; auto. left. split; auto. intros (q & E & _). subst. discriminate. }
  destruct HF as (frac & s3 & E3 & FP).
  assert (HE : exists expo s4, s3 = expo ++ s4 /\ exponent_part expo s4).
  { destruct s3 as [|e s3]; [exists [], []; split; auto; left; split; auto; intros (? & ? & ? & E & _); discriminate|].
    destruct s3 as [|d s3]; [exists [], [e]; split; auto; left; split; auto; intros (? & ? & ? & E & _); discriminate|].
    destruct (N.eqb e 101 || N.eqb e 69)%bool eqn:Ee.
    - destruct (dou 10 d) eqn:Dd.
      + destruct (dou_split 10 s3) as (ds & s4 & -> & F4 & S4).
        exists (e :: d :: ds), s4. split; auto. right. exists e, (d :: ds). split; auto. split.
        { apply orb_true_iff in Ee. rewrite !N.eqb_eq in Ee. auto. }
        split; [discriminate|]. split; auto. constructor; auto. now apply dou_spec.
      + exists [], (e :: d :: s3). split; auto. left. split; auto. intros (c' & d' & r' & E & _ & Dd').
        inversion E; subst. apply dou_spec in Dd'. congruence.
    - exists [], (e :: d :: s3). split; auto. left. split; auto. intros (c' & d' & r' & E & Ce & _).
      inversion E; subst. apply orb_false_iff in Ee. rewrite !N.eqb_neq in Ee. tauto. }
  destruct HE as (expo & s4 & E4 & EP).
  assert (HS : exists suffix rest, s4 = suffix ++ rest /\ suffix_part X suffix rest).
  { destruct (ident_or_not s4) as [NI|(w & q & -> & I & St)].
    - exists [], s4. split; auto. left. auto.
    - exists w, q. split; auto. right. auto. }
  destruct HS as (suffix & rest & E5 & SP).
  do 2 eexists. exists rx, prefix, base, digits, frac, expo, suffix.
  split; [rewrite Es, E1, E3, E4, E5; reflexivity|].
  split; [exact HR|]. split; auto. split; auto. split; [rewrite <- E5, <- E4, <- E3; auto|].
  split; [rewrite <- E5, <- E4; auto|]. split; [rewrite <- E5; auto|]. split; auto.
Qed.

Lemma number_unique s off n rest n' rest' :
  number_token X s off n rest -> number_token X s off n' rest' -> n = n' /\ rest = rest'.
Proof.
  intros H1 H2. apply number_ok_res in H1 as (w1 & _ & _ & _ & _ & R1). apply number_ok_res in H2 as (w2 & _ & _ & _ & _ & R2).
  rewrite R1 in R2. apply Success_inj in R2 as [E ->]. inversion E; auto.
Qed.

Hypothesis XS : xid_sane X.

Lemma single_number s off n rest :
  number_token X s off n rest ->
  exists w, s = w ++ rest /\ n_extent n = (off, off + blen w) /\ w <> [] /\
  res (single_token X) (mkPt s off) = Success (mkPt rest (off + blen w)) (TkNumber n).
Proof.
  intros H. destruct (number_ok_res _ _ _ _ H) as (w & Es & EX & NE & (c & r & Ec & D) & R).
  exists w. split; auto. split; auto. split; auto.
  apply (single_pick X (head8 X ++ symbol_alts ++ [keyword_or_ident X]) (map_p (number_p X) TkNumber)
     [map_p whitespace (Tk KWhitespace)]).
  - rewrite alts_eq, <- !app_assoc. reflexivity.
  - rewrite Ec.
    assert (Hd : In c (str "0123456789")).
    { destruct D as (v & Dv & Lv). unfold digit_value in Dv.
      destruct ((48 <=? c) && (c <=? 57))%N eqn:B.
      - apply andb_true_iff in B as [B1 B2]. apply N.leb_le in B1. apply N.leb_le in B2.
        assert (C : (c = 48 \/ c = 49 \/ c = 50 \/ c = 51 \/ c = 52 \/ c = 53 \/ c = 54 \/ c = 55 \/ c = 56 \/ c = 57)%N) by lia.
        simpl. intuition.
      - destruct ((97 <=? c) && (c <=? 102))%N eqn:B2.
        + apply andb_true_iff in B2 as [B1 B2]. apply N.leb_le in B1. apply N.leb_le in B2. inversion Dv; subst. lia.
        + destruct ((65 <=? c) && (c <=? 70))%N eqn:B3; [|discriminate].
          apply andb_true_iff in B3 as [B1 B3]. apply N.leb_le in B1. apply N.leb_le in B3. inversion Dv; subst. lia. }
    assert (Hc : forall d, In d symbol_starts \/ In d [39; 34; 114; 98; 47; 95]%N -> c <> d).
    { assert (FF : forallb (fun c => forallb (fun d => negb (N.eqb c d)) (symbol_starts ++ [39; 34; 114; 98; 47; 95]%N)) (str "0123456789") = true)
        by (vm_compute; reflexivity).
      rewrite forallb_forall in FF. specialize (FF _ Hd). rewrite forallb_forall in FF.
      intros d I. apply in_or_app in I. specialize (FF _ I). apply negb_true_iff, N.eqb_neq in FF. auto. }
    apply Forall_app. split; [|apply Forall_app; split].
    + apply fails_head8.
      * apply no_comment_first; auto. apply Hc; simpl; tauto.
      * apply no_literal_starts. repeat constructor; apply sw_neq; intros Eq; refine (Hc _ _ (eq_sym Eq)); simpl; tauto.
      * intros q E. inversion E. eapply Hc; [|eassumption]. simpl; tauto.
    + apply fails_symbols_first. intros I. eapply Hc; eauto.
    + constructor; auto. apply fails_kw.
      * destruct XS as (X1 & _). simpl. split; [|apply Hc; simpl; tauto].
        simpl in Hd. repeat destruct Hd as [<-|Hd]; try contradiction; rewrite X1; reflexivity.
      * apply sw_neq. intros Eq; refine (Hc _ _ (eq_sym Eq)); simpl; tauto.
  - rewrite res_map, R. reflexivity.
Qed.

(** ** One call of the iterator *)

Lemma res_yields s off pt' v :
  res (single_token X) (mkPt s off) = Success pt' v -> s <> [] ->
  exists w, s = w ++ p_s pt' /\ p_off pt' = off + blen w /\
  forall pm, exists pm', tokens_next X (mkTokens pm (mkPt s off) false) = (mkTokens pm' pt' false, NextOk v).
Proof.
  intros R NE. pose proof (good_single_token X pm0 (mkPt s off)) as G. unfold res in R.
  destruct (single_token X pm0 (mkPt s off)) as [pm1 rr] eqn:E. simpl in R. subst rr.
  destruct G as ((w & Es & Eo) & (TE & L & _) & _). cbn [p_s p_off] in *.
  exists w. split; auto. split; auto. intros pm.
  unfold tokens_next. cbn [ts_exhausted ts_pt ts_pm p_s p_off]. destruct s as [|c r]; [congruence|].
  pose proof (res_any (single_token X) pm (mkPt (c :: r) off) (indep_single_token X)) as I.
  unfold res in I. rewrite E in I. destruct (single_token X pm _) as [pm2 rr]. simpl in I. subst rr. simpl.
  destruct (Nat.eqb_spec off (p_off pt')); [lia|]. eauto.
Qed.

Lemma yields_res s off t rest :
  s <> [] -> yields X s off t rest ->
  exists w, s = w ++ rest /\ res (single_token X) (mkPt s off) = Success (mkPt rest (off + blen w)) t.
Proof.
  intros NE (w & Es & Y). exists w. split; auto. destruct (Y pm0) as [pm' E].
  unfold tokens_next in E. cbn [ts_exhausted ts_pt ts_pm p_s p_off] in E. destruct s as [|c r]; [congruence|].
  unfold res. destruct (single_token X pm0 (mkPt (c :: r) off)) as [pm1 [x v|x e|ww]]; simpl in E; try discriminate.
  destruct (_ =? _); inversion E; subst. reflexivity.
Qed.

(** The iterator yields a token exactly when the specification says so. *)
Theorem yields_token s off k e rest :
  yields X s off (Tk k e) rest <->
  exists w, s = w ++ rest /\ e = (off, off + blen w) /\ lexical X k w rest.
Proof.
  split.
  - intros Y. destruct s as [|c r].
    + exfalso. destruct Y as (w & Es & Y). destruct (Y pm0) as [pm' E]. simpl in E. inversion E.
    + apply yields_res in Y as (w & Es & R); [|discriminate].
      apply single_token_sound in R as [(k' & w' & rest' & E & Es' & Ep & L)|(n & E & _)]; [|discriminate].
      inversion E; subst. inversion Ep; subst. exists w'. auto.
  - intros (w & -> & -> & L).
    assert (NE : w <> []).
    { intros ->. pose proof (single_token_complete X XS k [] rest off L) as R. unfold res in R.
      pose proof (good_single_token X pm0 (mkPt ([] ++ rest) off)) as G.
      destruct (single_token X pm0 (mkPt ([] ++ rest) off)) as [pm1 rr]. simpl in R. subst rr.
      destruct G as (_ & (_ & L' & _) & _). cbn [p_off blen] in L'. lia. }
    pose proof (single_token_complete X XS k w rest off L) as R.
    destruct (res_yields _ _ _ _ R) as (w' & Es & Eo & Y).
    + destruct w; [congruence|discriminate].
    + exists w. split; auto.
Qed.

Theorem yields_number s off n rest :
  yields X s off (TkNumber n) rest <-> number_token X s off n rest.
Proof.
  split.
  - intros Y. destruct s as [|c r].
    + exfalso. destruct Y as (w & Es & Y). destruct (Y pm0) as [pm' E]. simpl in E. inversion E.
    + apply yields_res in Y as (w & Es & R); [|discriminate].
      pose proof R as R0.
      apply single_token_sound in R as [(k' & w' & rest' & E & Es' & Ep & L)|(n' & E & _ & _ & D)]; [discriminate|].
      destruct (number_exists _ off D) as (n2 & rest2 & N2). pose proof N2 as N2'.
      apply single_number in N2 as (w2 & _ & _ & _ & R2). rewrite R2 in R0. apply Success_inj in R0 as [E1 E2].
      inversion E1; inversion E2; subst. exact N2'.
  - intros N. apply single_number in N as (w & Es & _ & NE & R).
    destruct (res_yields _ _ _ _ R) as (w' & Es' & Eo & Y).
    + rewrite Es. destruct w; [congruence|discriminate].
    + exists w. split; auto.
Qed.

End S.
