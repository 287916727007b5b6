(** [single_token] and the iterator against the lexical specification. *)

From Coq Require Import String List NArith Arith Bool Lia.
From Verif Require Import Base Peresil Token Tokenizer TokenizerSpec TokenizerSafe TokenizerNum
  TokenizerIter TokenizerLex.
Import ListNotations.

(** ** Recoverable failures *)

Definition recov {A} (p : tparser A) : Prop :=
  forall pt pt' e, res p pt = Failure pt' e -> t_recoverable e = true.

Lemma recov_bind {A B} (p : tparser A) (k : A -> tparser B) :
  (forall a, indep (k a)) -> recov p -> (forall a, recov (k a)) -> recov (bind p k).
Proof.
  intros I Rp Rk pt pt' e H. rewrite res_bind in H by auto.
  destruct (res p pt) eqn:E; try discriminate.
  - eapply Rk; eauto.
  - inversion H; subst. eapply Rp; eauto.
Qed.
Lemma recov_point : recov point.
Proof. intros pt pt' e H. discriminate. Qed.
Lemma recov_ret_ex {A} spt (f : extent -> A) : recov (ret_ex spt f).
Proof. intros pt pt' e H. unfold res, ret_ex in H. destruct (ex spt pt); discriminate. Qed.
Lemma recov_literal w : recov (literal w).
Proof.
  intros [s o] pt' e H. rewrite res_literal in H.
  destruct (if starts_with s w then _ else _) as [[]|]; inversion H; reflexivity.
Qed.
Lemma recov_alternate {A} (ps : list (tparser A)) :
  Forall indep ps -> Forall recov ps -> ps <> [] -> recov (t_alternate ps).
Proof.
  intros I R _ pt pt' e H.
  induction ps as [|p ps IH]; [discriminate|]. rewrite alternate_res in H by auto.
  inversion I; inversion R; subst.
  destruct (res p pt) as [x v|x e'|w] eqn:E; try discriminate.
  destruct (t_recoverable e') eqn:Re.
  - destruct ps; [inversion H; congruence|]. apply IH; auto.
  - match goal with Hr : recov p |- _ => rewrite (Hr _ _ _ E) in Re end; discriminate.
Qed.
Lemma recov_hex_string : recov hex_string.
Proof.
  intros pt pt' e. unfold res, hex_string, consume_to.
  destruct (_ =? 0); [simpl; intros H; inversion H; reflexivity|].
  destruct (split_at _ _) as [[]|]; discriminate.
Qed.
Lemma recov_single_char : recov single_char.
Proof. intros pt pt' e. unfold res, single_char. destruct (p_s pt); simpl; intros H; inversion H; reflexivity. Qed.
Lemma recov_string_char : recov string_char.
Proof. intros pt pt' e. unfold res, string_char. destruct (split_at _ _) as [[]|]; discriminate. Qed.
Lemma recov_raw_string_tail n : recov (raw_string_tail n).
Proof.
  intros pt pt' e. unfold res, raw_string_tail. destruct (find_str _ _).
  - destruct (split_at _ _) as [[]|]; [|discriminate]. destruct (split_at _ _) as [[]|]; discriminate.
  - simpl. intros H; inversion H; reflexivity.
Qed.
Lemma recov_hashes : recov hashes_p.
Proof.
  intros pt pt' e. unfold res, hashes_p.
  assert (H : forall fuel pm pt, snd (zero_or_more sp_lt t_recoverable fuel (literal (str "#")) pm pt) = Failure pt' e ->
     t_recoverable e = true).
  { induction fuel as [|fuel IH]; intros pm pt0; [discriminate|]. cbn [zero_or_more].
    pose proof (res_any (literal (str "#")) pm pt0 (indep_literal _)) as L.
    pose proof (recov_literal (str "#") pt0) as R.
    destruct (literal (str "#") pm pt0) as [pm1 [x v|x e1|w]]; simpl in L; try discriminate.
    - specialize (IH pm1 x). destruct (zero_or_more _ _ fuel _ pm1 x) as [pm2 [y l|y e2|w]]; simpl; try discriminate.
      simpl in IH. exact IH.
    - rewrite (R x e1) by auto. discriminate. }
  apply H.
Qed.
Lemma recov_simple_ident X : recov (simple_ident X).
Proof.
  intros pt pt' e. unfold res, simple_ident, map_p, split_point_at_non_zero_offset.
  destruct (_ =? 0); [simpl; intros H; inversion H; reflexivity|].
  destruct (split_at _ _) as [[]|]; discriminate.
Qed.
Lemma recov_whitespace : recov whitespace.
Proof.
  intros pt pt' e. unfold res, whitespace, map_p, split_point_at_non_zero_offset.
  destruct (_ =? 0); [simpl; intros H; inversion H; reflexivity|].
  destruct (split_at _ _) as [[]|]; discriminate.
Qed.

Ltac rec := repeat (first
  [ apply recov_point | apply recov_ret_ex | apply recov_literal | apply recov_hex_string
  | apply recov_single_char | apply recov_string_char | apply recov_raw_string_tail | apply recov_hashes
  | apply recov_simple_ident | assumption
  | apply recov_bind; [indp| |intro] ]).

Lemma recov_character : recov character.
Proof.
  assert (R1 : recov escaped_char_hex) by (unfold escaped_char_hex; rec).
  assert (R2 : recov escaped_char_unicode) by (unfold escaped_char_unicode; rec).
  assert (R3 : recov escaped_char_code).
  { apply recov_alternate; [| |discriminate].
    - repeat constructor; auto using indep_literal, indep_escaped_char_hex, indep_escaped_char_unicode.
    - repeat constructor; auto using recov_literal. }
  assert (R4 : recov escaped_char) by (unfold escaped_char; rec).
  assert (R5 : recov character_char).
  { apply recov_alternate; [| |discriminate].
    - repeat constructor; auto using indep_escaped_char, indep_single_char.
    - repeat constructor; auto using recov_single_char. }
  unfold character; rec.
Qed.
Lemma recov_string_p : recov string_p.
Proof. unfold string_p; rec. Qed.
Lemma recov_string_raw : recov string_raw.
Proof. unfold string_raw; rec. Qed.
Lemma recov_byte_p : recov byte_p.
Proof. pose proof recov_character. unfold byte_p; rec. Qed.
Lemma recov_byte_string : recov byte_string.
Proof. pose proof recov_string_p. unfold byte_string; rec. Qed.
Lemma recov_byte_string_raw : recov byte_string_raw.
Proof. pose proof recov_string_raw. unfold byte_string_raw; rec. Qed.
Lemma recov_lifetime X : recov (lifetime_p X).
Proof. unfold lifetime_p; rec. Qed.

Lemma good_total {A} (p : tparser A) Q pt :
  good p Q -> recov p -> (exists pt' v, res p pt = Success pt' v) \/ fails p pt.
Proof.
  intros G R. specialize (G pm0 pt). specialize (R pt). unfold fails, res in *.
  destruct (p pm0 pt) as [pm' [x v|x e|w]]; [left; exists x, v; reflexivity|right|contradiction].
  simpl. exists x, e. split; auto. eapply R. reflexivity.
Qed.

(** The six literal parsers, with their kinds. *)
Definition literal_parsers : list (tkind * tparser extent) :=
  [(KCharacter, character); (KString, string_p); (KStringRaw, string_raw);
   (KByte, byte_p); (KByteString, byte_string); (KByteStringRaw, byte_string_raw)].

Lemma literal_parser_ok k p w rest o :
  In (k, p) literal_parsers -> literal_token k w rest ->
  res p (mkPt (w ++ rest) o) = Success (mkPt rest (o + blen w)) (o, o + blen w).
Proof.
  intros I. simpl in I.
  repeat destruct I as [I|I]; inversion I; subst; cbn [literal_token].
  - apply character_ok.
  - apply string_ok.
  - apply raw_ok.
  - intros (c & -> & H). eapply (prefixed_ok (str "b")); [apply indep_character|]. now apply character_ok.
  - intros (c & -> & H). eapply (prefixed_ok (str "b")); [apply indep_string_p|]. now apply string_ok.
  - intros (c & -> & H). eapply (prefixed_ok (str "b")); [apply indep_string_raw|]. now apply raw_ok.
Qed.

Lemma literal_parser_inv k p s o pt' v :
  In (k, p) literal_parsers -> res p (mkPt s o) = Success pt' v ->
  exists w rest, literal_token k w rest /\ s = w ++ rest /\ pt' = mkPt rest (o + blen w) /\ v = (o, o + blen w).
Proof.
  intros I. simpl in I.
  repeat destruct I as [I|I]; inversion I; subst; cbn [literal_token].
  - apply character_inv.
  - apply string_inv.
  - apply raw_inv.
  - apply (prefixed_inv _ _ (fun w _ => char_literal w)); [apply indep_character|apply character_inv].
  - apply (prefixed_inv _ _ (fun w _ => string_literal w)); [apply indep_string_p|apply string_inv].
  - apply prefixed_inv; [apply indep_string_raw|apply raw_inv].
Qed.

Lemma literal_parser_cases k p s o :
  In (k, p) literal_parsers ->
  (exists w rest, literal_token k w rest /\ s = w ++ rest) \/ fails p (mkPt s o).
Proof.
  intros I.
  assert (T : (exists pt' v, res p (mkPt s o) = Success pt' v) \/ fails p (mkPt s o)).
  { simpl in I. repeat destruct I as [I|I]; inversion I; subst; eapply good_total;
      eauto using good_character, good_string_p, good_string_raw, good_byte_p, good_byte_string,
        good_byte_string_raw, recov_character, recov_string_p, recov_string_raw, recov_byte_p,
        recov_byte_string, recov_byte_string_raw. }
  destruct T as [(pt' & v & E)|]; auto. left.
  destruct (literal_parser_inv _ _ _ _ _ _ I E) as (w & rest & H & Es & _). eauto.
Qed.

(** Which characters the literals start with. *)
Lemma literal_token_first k w rest : literal_token k w rest ->
  match k with
  | KCharacter => exists r, w = 39%N :: r
  | KString => exists r, w = 34%N :: r
  | KStringRaw => exists r, w = 114%N :: 34%N :: r \/ w = 114%N :: 35%N :: r
  | KByte => exists r, w = 98%N :: 39%N :: r
  | KByteString => exists r, w = 98%N :: 34%N :: r
  | KByteStringRaw => exists r, w = 98%N :: 114%N :: 34%N :: r \/ w = 98%N :: 114%N :: 35%N :: r
  | _ => False
  end.
Proof.
  assert (HC : forall w, char_literal w -> exists r, w = 39%N :: r).
  { intros w0 [(c & _ & ->)|(e & _ & ->)]; eexists; reflexivity. }
  assert (HS : forall w, string_literal w -> exists r, w = 34%N :: r).
  { intros w0 (b & _ & ->); eexists; reflexivity. }
  assert (HR : forall w, raw_string_literal w rest -> exists r, w = 114%N :: 34%N :: r \/ w = 114%N :: 35%N :: r).
  { intros w0 (n & b & -> & _). destruct n; eexists; [left|right]; reflexivity. }
  destruct k; simpl; try contradiction; auto.
  - intros (c & -> & H). apply HC in H as [r ->]. eexists; reflexivity.
  - intros (c & -> & H). apply HS in H as [r ->]. eexists; reflexivity.
  - intros (c & -> & H). apply HR in H as [r [-> | ->]]; eexists; [left|right]; reflexivity.
Qed.

Lemma fails_literal_kind k p s o : In (k, p) literal_parsers ->
  (forall w rest, s = w ++ rest -> ~ literal_token k w rest) -> fails p (mkPt s o).
Proof.
  intros I N. destruct (literal_parser_cases k p s o I) as [(w & rest & H & E)|]; auto.
  exfalso. eapply N; eauto.
Qed.

Ltac swneq := apply sw_neq; let Eq := fresh in intros Eq;
  match goal with H : ?c <> _ |- _ => solve [apply H; rewrite <- Eq; reflexivity] end.

Definition literal_alts : list (tparser token) := map (fun '(k, p) => map_p p (Tk k)) literal_parsers.

Lemma fails_literals s o : no_literal s -> Forall (fun q => fails q (mkPt s o)) literal_alts.
Proof.
  intros N. unfold literal_alts. apply Forall_map. apply Forall_forall. intros [k p] I.
  apply fails_map. eapply fails_literal_kind; eauto.
Qed.

(** First-character analysis. *)
Definition literal_starts : list text :=
  [[39%N]; [34%N]; str "r" ++ [34%N]; str "r#"; str "b'"; str "b" ++ [34%N]; str "br" ++ [34%N]; str "br#"].

Lemma no_literal_starts s : Forall (fun p => starts_with s p = false) literal_starts -> no_literal s.
Proof.
  intros F k w rest -> L. apply literal_token_first in L.
  assert (G : forall p r, In p literal_starts -> w = p ++ r -> False).
  { intros p r I E. rewrite Forall_forall in F. specialize (F p I).
    rewrite E, <- app_assoc, starts_with_app in F. discriminate. }
  unfold literal_starts in G.
  destruct k; try contradiction.
  - destruct L as [r ->]. apply (G [39%N] r); simpl; tauto.
  - destruct L as [r ->]. apply (G [34%N] r); simpl; tauto.
  - destruct L as [r [-> | ->]]; [apply (G (str "r" ++ [34%N]) r)|apply (G (str "r#") r)]; simpl; tauto.
  - destruct L as [r ->]. apply (G (str "b'") r); simpl; tauto.
  - destruct L as [r ->]. apply (G (str "b" ++ [34%N]) r); simpl; tauto.
  - destruct L as [r [-> | ->]]; [apply (G (str "br" ++ [34%N]) r)|apply (G (str "br#") r)]; simpl; tauto.
Qed.

Section S.
Variable X : xid.

Definition head8 : list (tparser token) :=
  comment_or_doc_comment :: literal_alts ++ [map_p (lifetime_p X) (Tk KLifetime)].
Definition symbol_alts : list (tparser token) :=
  map (fun '(s, k) => map_p (literal (str s)) (Tk k)) symbols.
Definition tail3 : list (tparser token) :=
  [keyword_or_ident X; map_p (number_p X) TkNumber; map_p whitespace (Tk KWhitespace)].

Lemma alts_eq : single_token_alts X = head8 ++ symbol_alts ++ tail3.
Proof. reflexivity. Qed.

Lemma single_pick a p b s o pt' v :
  single_token_alts X = a ++ p :: b -> Forall (fun q => fails q (mkPt s o)) a ->
  res p (mkPt s o) = Success pt' v -> res (single_token X) (mkPt s o) = Success pt' v.
Proof.
  intros E F R. unfold single_token. rewrite E, alternate_pick; auto.
  - rewrite <- E. apply indep_alts.
  - rewrite R; discriminate.
Qed.

Lemma symbols_split k s : symbol_spelling k = Some s -> exists a b, symbols = a ++ (s, k) :: b.
Proof. intros H. apply symbol_in_table in H. apply in_split in H as (a & b & E). eauto. Qed.

Lemma fails_lifetime s o : (forall r, s <> 39%N :: r) -> fails (map_p (lifetime_p X) (Tk KLifetime)) (mkPt s o).
Proof.
  intros N. apply fails_map, prefixed_fails; [apply indep_simple_ident|].
  destruct s as [|c r]; auto. apply sw_neq. intros <-. eapply N. reflexivity.
Qed.

Lemma fails_head8 s o : no_comment s -> no_literal s -> (forall r, s <> 39%N :: r) ->
  Forall (fun q => fails q (mkPt s o)) head8.
Proof.
  intros H1 H2 H3. constructor; [now apply fails_comment|]. apply Forall_app. split.
  - now apply fails_literals.
  - constructor; auto. now apply fails_lifetime.
Qed.

Lemma fails_symbols s o : (forall k s', symbol_spelling k = Some s' -> ~ has_prefix (str s') s) ->
  Forall (fun q => fails q (mkPt s o)) symbol_alts.
Proof.
  intros N. apply Forall_map. apply Forall_forall. intros [s' k] I. apply fails_map, fails_literal, sw_false.
  apply (N k). pose proof symbols_spelling as F. rewrite Forall_forall in F. now apply (F _ I).
Qed.

(** Symbols start with one of these characters. *)
Definition symbol_starts : list char := str "!#$%&*+,-./:;<=>?@\^|~()[]{}".

Lemma symbol_first k s r t : symbol_spelling k = Some s -> has_prefix (str s) t -> t = r -> 
  exists c t', t = c :: t' /\ In c symbol_starts.
Proof.
  intros H [q ->] _.
  assert (F : forallb (fun '(s, _) => match str s with c :: _ => existsb (N.eqb c) symbol_starts | [] => false end) symbols = true)
    by (vm_compute; reflexivity).
  rewrite forallb_forall in F. apply symbol_in_table in H. specialize (F _ H). cbv beta iota in F.
  destruct (str s) as [|c t']; [discriminate|]. exists c, (t' ++ q). split; auto.
  apply existsb_exists in F as (x & Ix & Ex). apply N.eqb_eq in Ex. now subst.
Qed.

Lemma fails_symbols_first c t o : ~ In c symbol_starts -> Forall (fun q => fails q (mkPt (c :: t) o)) symbol_alts.
Proof.
  intros N. apply fails_symbols. intros k s' Hk P.
  destruct (symbol_first _ _ _ _ Hk P eq_refl) as (c' & t' & E & I). inversion E; subst. contradiction.
Qed.

Lemma cons_inj {A} (x y : A) l m : x :: l = y :: m -> x = y /\ l = m.
Proof. intros H; inversion H; auto. Qed.

(** ** Soundness *)

Lemma single_token_sound s o pt' v :
  res (single_token X) (mkPt s o) = Success pt' v ->
  (exists k w rest, v = Tk k (o, o + blen w) /\ s = w ++ rest /\ pt' = mkPt rest (o + blen w) /\
                    lexical X k w rest) \/
  (exists n, v = TkNumber n /\ number_shape X s o n (p_s pt') /\ n_extent n = (o, p_off pt') /\
             exists c r, s = c :: r /\ digit_of 10 c).
Proof.
  intros R. unfold single_token in R. apply alternate_inv in R; [|apply indep_alts].
  destruct R as (a & p & b & E & F & R). rewrite alts_eq in E.
  assert (Sp : forall (u v a b : list (tparser token)) p, u ++ v = a ++ p :: b ->
      (exists b', u = a ++ p :: b') \/ (exists a', a = u ++ a' /\ v = a' ++ p :: b)).
  { clear. induction u as [|x u IH]; intros v a b p E.
    - right. exists a. auto.
    - destruct a as [|y a]; simpl in E; inversion E; subst.
      + left. exists u. auto.
      + destruct (IH _ _ _ _ H1) as [(b' & ->)|(a' & -> & ->)]; [left; exists b'; reflexivity|right; exists a'; split; reflexivity]. }
  assert (NC : forall a', a = head8 ++ a' -> no_comment s).
  { intros a' ->. apply Forall_app in F as [F _]. inversion F as [|? ? FC _]; subst.
    split; intros P.
    - destruct (comment_ok X s o (or_introl P)) as (k & w & rest & _ & _ & _ & Rc).
      eapply fails_not_success; eauto.
    - destruct (comment_ok X s o (or_intror P)) as (k & w & rest & _ & _ & _ & Rc).
      eapply fails_not_success; eauto. }
  assert (NL : forall a', a = comment_or_doc_comment :: literal_alts ++ a' -> no_literal s).
  { intros a' ->. apply Forall_cons_iff in F as [_ F']. apply Forall_app in F' as [F' _].
    intros k w rest -> L.
    assert (exists p0, In (k, p0) literal_parsers) as [p0 I].
    { destruct k; try contradiction; eexists; simpl; tauto. }
    rewrite Forall_forall in F'. eapply fails_not_success.
    - apply (F' (map_p p0 (Tk k))). unfold literal_alts. apply in_map_iff. exists (k, p0). auto.
    - rewrite res_map. erewrite literal_parser_ok; eauto. }
  apply Sp in E as [(b' & E)|(a' & Ea & E)].
  - (* comment, literals, lifetime *)
    left. unfold head8 in E. destruct a as [|y a]; cbn [app] in E; apply cons_inj in E as [<- H1].
    + assert (P : has_prefix (str "//") s \/ has_prefix (str "/*") s).
      { destruct (starts_with s (str "//")) eqn:S1; [left; now apply sw_true|].
        destruct (starts_with s (str "/*")) eqn:S2; [right; now apply sw_true|].
        exfalso. eapply fails_not_success; [|exact R]. apply fails_comment.
        split; now apply sw_false. }
      destruct (comment_ok X s o P) as (k & w & rest & Es & L & _ & Rc). rewrite Rc in R.
      apply Success_inj in R as [<- <-]. exists k, w, rest. auto.
    + apply Sp in H1 as [(b'' & H1)|(a'' & -> & H1)].
      * assert (I : In p literal_alts) by (rewrite H1; apply in_elt).
        unfold literal_alts in I. apply in_map_iff in I as ([k p0] & <- & I).
        rewrite res_map in R. destruct (res p0 (mkPt s o)) as [x e|x e|w0] eqn:Rp; inversion R; subst.
        destruct (literal_parser_inv _ _ _ _ _ _ I Rp) as (w & rest & L & -> & -> & ->).
        exists k, w, rest. split; auto. split; auto. split; auto.
        unfold lexical. destruct k; try contradiction; exact L.
      * destruct a'' as [|z a'']; simpl in H1; inversion H1; subst; [|destruct a''; discriminate].
        rewrite res_map in R. destruct (res (lifetime_p X) (mkPt s o)) as [x e|x e|w0] eqn:Rp; inversion R; subst.
        apply (prefixed_inv _ _ (fun w rest => is_ident X w /\ ident_stops X rest)) in Rp.
        -- destruct Rp as (w & rest & (c & -> & I & St) & -> & -> & ->).
           exists KLifetime, (str "'" ++ c), rest. split; auto. split; auto. split; auto.
           cbn. split; [|exists c; auto]. eapply NL. reflexivity.
        -- apply indep_simple_ident.
        -- apply simple_ident_inv.
  - subst a. specialize (NC _ eq_refl).
    assert (NL' : no_literal s) by exact (NL (map_p (lifetime_p X) (Tk KLifetime) :: a') eq_refl).
    apply Forall_app in F as [_ F]. clear NL.
    apply Sp in E as [(b' & E)|(a'' & -> & E)].
    + (* symbols *)
      left. unfold symbol_alts in E.
      assert (exists ta s0 k tb, symbols = ta ++ (s0, k) :: tb /\ p = map_p (literal (str s0)) (Tk k) /\
                a' = map (fun '(s, k) => map_p (literal (str s)) (Tk k)) ta) as (ta & s0 & k & tb & Es & -> & Ea).
      { clear - E. revert a' E. generalize symbols. induction l as [|[s0 k] l IH]; intros a' E.
        - destruct a'; discriminate.
        - destruct a' as [|y a']; cbn [map app] in E; inversion E; subst.
          + exists [], s0, k, l. auto.
          + destruct (IH _ H1) as (ta & s1 & k1 & tb & -> & -> & ->).
            exists ((s0, k) :: ta), s1, k1, tb. auto. }
      rewrite res_map in R. destruct (res (literal (str s0)) (mkPt s o)) as [x e|x e|w0] eqn:Rp; inversion R; subst.
      apply res_literal_inv in Rp as (Es' & Ex & ->).
      exists k, (str s0), (p_s pt'). split; auto. split; auto. split; auto.
      assert (Hk : symbol_spelling k = Some s0 /\ keyword_spelling k = None).
      { pose proof symbols_spelling as FS. rewrite Es in FS. apply Forall_app in FS as [_ FS].
        inversion FS; subst; auto. }
      destruct Hk as [Hk1 Hk2]. unfold lexical. rewrite Hk1, Hk2. split; auto. rewrite <- Es'. split; auto.
      eapply symbol_first_longest; eauto.
      * rewrite Es'. apply starts_with_app.
      * rewrite Forall_map in F. eapply Forall_impl; [|exact F]. intros [s1 k1] (x & e & Ex' & _).
        destruct (starts_with s (str s1)) eqn:S1; auto. exfalso.
        apply starts_with_spec in S1 as [r1 ->]. rewrite res_map, res_literal_ok in Ex'. discriminate.
    + apply Forall_app in F as [_ F]. destruct a'' as [|y a'']; cbn [app] in E; inversion E; subst.
      * (* words *)
        left. apply kw_inv in R as (k & w & rest & W & -> & -> & ->).
        exists k, w, rest. split; auto. split; auto. split; auto. unfold lexical.
        destruct W as [(I & St & NR & ->)|(-> & W)]; [|right; auto].
        destruct (lookup_keyword_spec w) as [(s0 & Es0 & ->)|(El & Nk)].
        -- rewrite Es0. auto.
        -- rewrite El. cbn [keyword_spelling symbol_spelling]. left. auto.
      * inversion F as [|? ? FK F']; subst.
        assert (NI : no_ident X s /\ starts_with s (str "r#") = false).
        { destruct FK as (x & e & FK & Re). destruct (starts_with s (str "r#")) eqn:SR.
          - exfalso. unfold res, keyword_or_ident in FK. cbn [p_s p_off] in FK. rewrite SR in FK.
            apply starts_with_spec in SR as [r ->].
            change 2 with (blen (str "r#")) in FK at 1. rewrite split_at_app in FK.
            destruct (ident_len X r =? 0).
            + inversion FK; subst. discriminate.
            + unfold map_p, split_point_at_non_zero_offset in FK. cbn [p_s p_off Nat.add Nat.eqb] in FK.
              destruct (split_at _ _) as [[]|]; discriminate.
          - split; auto. apply ident_len_zero.
            unfold res, keyword_or_ident in FK. cbn [p_s p_off] in FK. rewrite SR in FK.
            unfold map_p, split_point_at_non_zero_offset in FK. cbn [p_s p_off] in FK.
            destruct (Nat.eqb_spec (ident_len X s) 0); auto.
            destruct (split_at _ _) as [[]|]; discriminate. }
        destruct NI as [NI _].
        destruct a'' as [|z a'']; cbn [app] in H1; inversion H1; subst.
        -- (* numbers *)
           right. rewrite res_map in R. pose proof (good_number_p X pm0 (mkPt s o)) as G. unfold res in R.
           destruct (number_p X pm0 (mkPt s o)) as [pm1 [x n|x e|w0]]; simpl in R; inversion R; subst.
           destruct G as (_ & (NS & _ & NE) & _). exists n. split; auto. unfold number_ok in NS. cbn [p_s p_off] in NS.
           split; auto. split; auto.
           destruct NS as (prefix & digits & frac & expo & suffix & base & Es & Hr & Hd & Fd & _).
           destruct Hr as [(_ & -> & _)|[(_ & -> & _)|[(_ & -> & _)|(_ & -> & ->)]]];
             try (do 2 eexists; split; [exact Es|]; exists 0%N; split; [reflexivity|lia]).
           destruct digits as [|c ds]; [congruence|]. exists c. eexists. split; [exact Es|].
           inversion Fd as [|? ? [D|D] _]; subst; auto. exfalso. simpl in NI. destruct NI; congruence.
        -- (* whitespace *)
           left. destruct a''; [|destruct a''; discriminate]. simpl in H2. inversion H2; subst.
           rewrite res_map in R. destruct (res whitespace (mkPt s o)) as [x e|x e|w0] eqn:Rp; inversion R; subst.
           apply whitespace_inv in Rp as (w & rest & W & -> & -> & ->).
           exists KWhitespace, w, rest. split; auto.
Qed.

(** ** Completeness *)

Lemma recov_map {A B} (p : tparser A) (f : A -> B) : recov p -> recov (map_p p f).
Proof.
  intros R pt pt' e. rewrite res_map. destruct (res p pt) eqn:E; try discriminate.
  intros H; inversion H; subst. eapply R; eauto.
Qed.
Lemma recov_optional {A} (p : tparser A) : recov p -> recov (t_optional p).
Proof.
  intros R pt pt' e. specialize (R pt). unfold res, optional in *.
  destruct (p pm0 pt) as [pm1 [x v|x e1|w]]; simpl in *; try discriminate.
  rewrite (R x e1) by auto. discriminate.
Qed.
Lemma recov_not {A} (p : tparser A) e : t_recoverable e = true -> recov (not p e).
Proof.
  intros R pt pt' e'. unfold res, not. destruct (p pm0 pt) as [pm1 [x v|x e1|w]]; simpl; try discriminate.
  intros H; inversion H; subst; auto.
Qed.
Lemma recov_number_digits b : recov (number_digits b).
Proof.
  intros pt pt' e. unfold res, number_digits, map_p, split_point_at_non_zero_offset.
  destruct (_ =? 0); [simpl; intros H; inversion H; reflexivity|].
  destruct (split_at _ _) as [[]|]; discriminate.
Qed.
Lemma recov_ret {A} (a : A) : recov (ret a).
Proof. intros pt pt' e H. discriminate. Qed.
Ltac ind2 :=
  repeat (first
    [ match goal with |- forall _, _ => intro end
    | assumption
    | match goal with H : context [indep] |- _ => apply H end
    | match goal with |- indep (match ?x with _ => _ end) => destruct x end
    | apply indep_bind | apply indep_map | apply indep_optional | apply indep_not
    | apply indep_peek | apply indep_alternate; repeat constructor
    | apply indep_zero_or_more | apply indep_ret | apply indep_point | apply indep_ret_ex
    | apply indep_consume_to | apply indep_literal | apply indep_split ]).

Ltac rec2 :=
  repeat (first
    [ match goal with |- forall _, _ => intro end
    | assumption
    | match goal with H : context [recov] |- _ => apply H end
    | match goal with |- recov (match ?x with _ => _ end) => destruct x end
    | apply recov_simple_ident
    | apply recov_bind; [ind2| |] | apply recov_map | apply recov_optional
    | apply recov_not; reflexivity | apply recov_ret | apply recov_point | apply recov_ret_ex
    | apply recov_literal | apply recov_simple_ident
    | apply recov_alternate; [repeat constructor; ind2|repeat constructor|discriminate] ]).

Lemma recov_number_p : recov (number_p X).
Proof.
  pose proof (indep_simple_ident X). pose proof indep_number_digits. pose proof (indep_number_fractional X).
  pose proof (indep_number_base X). pose proof recov_number_digits.
  assert (RF : forall b, recov (number_fractional X b)) by (unfold number_fractional; rec2).
  assert (RB : forall p b v, recov (number_base X p b v)) by (unfold number_base; rec2).
  assert (IL : indep number_exponent_lowercase) by (unfold number_exponent_lowercase; ind2).
  assert (IU : indep number_exponent_uppercase) by (unfold number_exponent_uppercase; ind2).
  assert (RL : recov number_exponent_lowercase) by (unfold number_exponent_lowercase; rec2).
  assert (RU : recov number_exponent_uppercase) by (unfold number_exponent_uppercase; rec2).
  assert (RV : recov (number_value X)) by (unfold number_value; rec2).
  assert (RE : recov number_exponent) by (unfold number_exponent; rec2).
  assert (IV : indep (number_value X)) by (unfold number_value; ind2).
  assert (IE : indep number_exponent) by (unfold number_exponent; ind2).
  unfold number_p; rec2.
Qed.

Lemma fails_number c r o : ~ digit_or_underscore 10 c -> fails (map_p (number_p X) TkNumber) (mkPt (c :: r) o).
Proof.
  intros N. apply fails_map.
  destruct (good_total _ _ (mkPt (c :: r) o) (good_number_p X) recov_number_p) as [(pt' & n & R)|]; auto.
  exfalso. pose proof (good_number_p X pm0 (mkPt (c :: r) o)) as G. unfold res in R.
  destruct (number_p X pm0 _) as [pm1 rr]. simpl in R. subst rr.
  destruct G as (_ & ((prefix & digits & frac & expo & suffix & base & Es & Hr & Hd & Fd & _) & _) & _).
  cbn [p_s] in Es. apply N.
  destruct Hr as [(_ & -> & _)|[(_ & -> & _)|[(_ & -> & _)|(_ & -> & ->)]]];
    try (inversion Es; subst; left; exists 0%N; split; [reflexivity|lia]).
  destruct digits as [|d ds]; [congruence|]. inversion Es; subst. inversion Fd; auto.
Qed.

Hypothesis XS : xid_sane X.

Definition not_ident_ascii (c : char) : bool := (c <? 128)%N && negb (ascii_alpha c) && negb (N.eqb c 95).

Lemma ident_start_char c d : xid_start X c = true \/ c = 95%N -> not_ident_ascii d = true -> c <> d.
Proof.
  intros H N ->. unfold not_ident_ascii in N. apply andb_true_iff in N as [N N3]. apply andb_true_iff in N as [N1 N2].
  apply N.ltb_lt in N1. destruct XS as (XS1 & _). destruct H as [H|H].
  - rewrite XS1 in H by auto. rewrite H in N2. discriminate.
  - subst. discriminate.
Qed.

Lemma ident_not_symbol c : xid_start X c = true \/ c = 95%N -> ~ In c symbol_starts.
Proof.
  intros H I. assert (F : forallb not_ident_ascii symbol_starts = true) by (vm_compute; reflexivity).
  rewrite forallb_forall in F. eapply ident_start_char; eauto.
Qed.

Lemma no_comment_first c r : c <> 47%N -> no_comment (c :: r).
Proof. intros N. split; intros [t E]; inversion E; subst; auto. Qed.

Lemma ident_head w rest o :
  is_ident X w -> no_literal (w ++ rest) ->
  Forall (fun q => fails q (mkPt (w ++ rest) o)) (head8 ++ symbol_alts).
Proof.
  intros I NL. destruct w as [|c w]; [contradiction|]. destruct I as [Ic _].
  apply Forall_app. split.
  - apply fails_head8; auto.
    + apply no_comment_first. apply (ident_start_char _ _ Ic). reflexivity.
    + intros r E. inversion E. revert Ic. subst. intros Ic. now apply (ident_start_char _ 39%N Ic).
  - apply fails_symbols_first. now apply ident_not_symbol.
Qed.

Lemma single_word w rest o :
  is_ident X w -> ident_stops X rest -> no_literal (w ++ rest) -> ~ has_prefix (str "r#") (w ++ rest) ->
  res (single_token X) (mkPt (w ++ rest) o) =
  Success (mkPt rest (o + blen w)) (Tk (lookup_keyword keywords w) (o, o + blen w)).
Proof.
  intros I St NL NR. apply (single_pick (head8 ++ symbol_alts) (keyword_or_ident X)
    [map_p (number_p X) TkNumber; map_p whitespace (Tk KWhitespace)]).
  - rewrite alts_eq, <- app_assoc. reflexivity.
  - now apply ident_head.
  - apply kw_ok; auto. now apply sw_false.
Qed.

(** Second character after an [r] or [b]. *)
Lemma keyword_no_literal k s rest : keyword_spelling k = Some s -> no_literal (str s ++ rest).
Proof.
  intros H. apply no_literal_starts.
  assert (F : forallb (fun p => Nat.ltb 2 (List.length (str s)) && negb (starts_with (str s) p) ||
            match str s with c :: _ => negb (existsb (N.eqb c) [39; 34; 114; 98]%N) | [] => false end) literal_starts = true).
  { destruct k; simpl in H; inversion H; subst; vm_compute; reflexivity. }
  rewrite forallb_forall in F. apply Forall_forall. intros p Ip. specialize (F p Ip).
  apply orb_true_iff in F as [F|F].
  - apply andb_true_iff in F as [L S]. apply Nat.ltb_lt in L. apply negb_true_iff in S.
    apply sw_false. intros [r E]. apply sw_false in S. apply S.
    symmetry in E. apply prefix_comparable in E as [t E]; [exists t; auto|].
    assert (List.length p <= 3) by (unfold literal_starts in Ip; simpl in Ip; repeat destruct Ip as [<-|Ip]; simpl; lia || contradiction).
    lia.
  - destruct (str s) as [|c t]; [discriminate|]. apply negb_true_iff in F.
    unfold literal_starts in Ip. simpl in F.
    repeat (apply orb_false_iff in F as [? F]).
    repeat match goal with H : (c =? _)%N = false |- _ => apply N.eqb_neq in H end.
    simpl in Ip. repeat destruct Ip as [<-|Ip]; try contradiction; swneq.
Qed.

Lemma keyword_ident k s : keyword_spelling k = Some s -> is_ident X (str s) /\ forall rest, starts_with (str s ++ rest) (str "r#") = false.
Proof.
  intros H. destruct XS as (X1 & X2 & _).
  assert (F : match str s with c :: d :: t => (c <? 128)%N && ascii_alpha c && negb (N.eqb 35 d) && (forallb (fun d => (d <? 128)%N && ascii_alpha d) (d :: t)) | _ => false end = true).
  { destruct k; simpl in H; inversion H; subst; vm_compute; reflexivity. }
  destruct (str s) as [|c [|d t]]; try discriminate.
  apply andb_true_iff in F as [F F4]. apply andb_true_iff in F as [F F3]. apply andb_true_iff in F as [F1 F2].
  apply N.ltb_lt in F1. split.
  - split; [left; rewrite X1; auto|]. apply Forall_forall. intros e Ie. rewrite forallb_forall in F4.
    apply F4, andb_true_iff in Ie as [I1 I2]. apply N.ltb_lt in I1. rewrite X2, I2; auto.
  - intros rest. apply sw_false. intros [r E]. inversion E; subst. discriminate.
Qed.

Lemma single_keyword k s rest o :
  keyword_spelling k = Some s -> ident_stops X rest ->
  res (single_token X) (mkPt (str s ++ rest) o) =
  Success (mkPt rest (o + blen (str s))) (Tk k (o, o + blen (str s))).
Proof.
  intros H St. destruct (keyword_ident k s H) as (I & NR).
  rewrite single_word; auto.
  - now rewrite (lookup_keyword_hit k s H).
  - eapply keyword_no_literal; eauto.
  - apply sw_false, NR.
Qed.

Lemma single_raw_ident i rest o :
  is_ident X i -> ident_stops X rest ->
  res (single_token X) (mkPt ((str "r#" ++ i) ++ rest) o) =
  Success (mkPt rest (o + blen (str "r#" ++ i))) (Tk KIdent (o, o + blen (str "r#" ++ i))).
Proof.
  intros I St. apply (single_pick (head8 ++ symbol_alts) (keyword_or_ident X)
    [map_p (number_p X) TkNumber; map_p whitespace (Tk KWhitespace)]).
  - rewrite alts_eq, <- app_assoc. reflexivity.
  - destruct i as [|c i]; [contradiction|]. destruct I as [Ic _]. apply Forall_app. split.
    + apply fails_head8.
      * now apply no_comment_first.
      * intros k w r E L.
        assert (K : k = KStringRaw).
        { apply literal_token_first in L. destruct k; try contradiction; destruct L as [t L]; auto;
            try (destruct L as [L|L]); rewrite L in E; discriminate. }
        subst k. destruct L as (n & b & -> & _). rewrite <- !app_assoc in E. cbn [app str] in E.
        destruct n as [|[|n]]; inversion E; subst.
        -- now apply (ident_start_char _ 34%N Ic).
        -- now apply (ident_start_char _ 35%N Ic).
      * discriminate.
    + apply fails_symbols_first. vm_compute. intuition discriminate.
  - rewrite <- app_assoc. rewrite raw_ident_ok by auto. reflexivity.
Qed.

Lemma single_lifetime i rest o :
  is_ident X i -> ident_stops X rest -> no_literal (([39%N] ++ i) ++ rest) ->
  res (single_token X) (mkPt (([39%N] ++ i) ++ rest) o) =
  Success (mkPt rest (o + blen ([39%N] ++ i))) (Tk KLifetime (o, o + blen ([39%N] ++ i))).
Proof.
  intros I St NL.
  apply (single_pick (comment_or_doc_comment :: literal_alts) (map_p (lifetime_p X) (Tk KLifetime)) (symbol_alts ++ tail3)).
  - reflexivity.
  - constructor; [apply fails_comment; now apply no_comment_first|]. now apply fails_literals.
  - rewrite res_map, lifetime_ok by auto. reflexivity.
Qed.

Lemma single_literal k w rest o :
  literal_token k w rest ->
  res (single_token X) (mkPt (w ++ rest) o) = Success (mkPt rest (o + blen w)) (Tk k (o, o + blen w)).
Proof.
  intros L. pose proof (literal_token_first _ _ _ L) as F.
  assert (NCm : no_comment (w ++ rest)).
  { destruct k; try contradiction; destruct F as [r F]; try (destruct F as [F|F]);
      rewrite F; now apply no_comment_first. }
  assert (exists a p b, literal_parsers = a ++ (k, p) :: b /\
     Forall (fun '(k', _) => forall w' r', w ++ rest = w' ++ r' -> ~ literal_token k' w' r') a) as (a & p & b & E & Fa).
  { assert (D : forall k' w' r', w ++ rest = w' ++ r' -> literal_token k' w' r' ->
       match k', k with KCharacter, KCharacter | KString, KString | KStringRaw, KStringRaw | KByte, KByte | KByteString, KByteString
         | KByteStringRaw, KByteStringRaw => True | _, _ => False end).
    { intros k' w' r' E' L'. apply literal_token_first in L'.
      destruct k; try contradiction; destruct k'; try contradiction; auto; destruct F as [x F]; destruct L' as [x' L'];
        try (destruct F as [F|F]); try (destruct L' as [L'|L']); rewrite F, L' in E'; discriminate. }
    destruct k; try contradiction.
    - exists []; do 2 eexists; split; [reflexivity|]. repeat constructor.
    - exists [(KCharacter, character)]; do 2 eexists; split; [reflexivity|].
      repeat constructor; intros w' r' E' L'; exact (D _ _ _ E' L').
    - exists [(KCharacter, character); (KString, string_p)]; do 2 eexists; split; [reflexivity|].
      repeat constructor; intros w' r' E' L'; exact (D _ _ _ E' L').
    - exists [(KCharacter, character); (KString, string_p); (KStringRaw, string_raw)]; do 2 eexists; split; [reflexivity|].
      repeat constructor; intros w' r' E' L'; exact (D _ _ _ E' L').
    - exists [(KCharacter, character); (KString, string_p); (KStringRaw, string_raw); (KByte, byte_p)]; do 2 eexists; split; [reflexivity|].
      repeat constructor; intros w' r' E' L'; exact (D _ _ _ E' L').
    - exists [(KCharacter, character); (KString, string_p); (KStringRaw, string_raw); (KByte, byte_p); (KByteString, byte_string)]; do 2 eexists; split; [reflexivity|].
      repeat constructor; intros w' r' E' L'; exact (D _ _ _ E' L'). }
  assert (I : forall x, In x (a ++ (k, p) :: b) -> In x literal_parsers) by (rewrite E; auto).
  set (f := fun '(k, p) => map_p p (Tk k) : tparser token).
  apply (single_pick (comment_or_doc_comment :: map f a) (map_p p (Tk k))
           (map f b ++ [map_p (lifetime_p X) (Tk KLifetime)] ++ symbol_alts ++ tail3)).
  - rewrite alts_eq. unfold head8, literal_alts. rewrite E, map_app. cbn [map]. fold f.
    cbn [app]. rewrite <- !app_assoc. reflexivity.
  - constructor; [now apply fails_comment|]. apply Forall_map. apply Forall_forall.
    intros [k' p'] I'. apply fails_map. eapply fails_literal_kind.
    + apply I. apply in_or_app. left. exact I'.
    + rewrite Forall_forall in Fa. exact (Fa _ I').
  - rewrite res_map. erewrite literal_parser_ok; eauto. apply I, in_elt.
Qed.

Lemma single_symbol k s rest o :
  symbol_spelling k = Some s -> no_comment (str s ++ rest) ->
  (forall k' s', symbol_spelling k' = Some s' -> has_prefix (str s') (str s ++ rest) ->
                 String.length s' <= String.length s) ->
  res (single_token X) (mkPt (str s ++ rest) o) =
  Success (mkPt rest (o + blen (str s))) (Tk k (o, o + blen (str s))).
Proof.
  intros Hk NC Mx. destruct (symbols_split k s Hk) as (a & b & E).
  set (f := fun '(s, k) => map_p (literal (str s)) (Tk k) : tparser token).
  apply (single_pick (head8 ++ map f a) (map_p (literal (str s)) (Tk k)) (map f b ++ tail3)).
  - rewrite alts_eq. unfold symbol_alts. fold f. rewrite E, map_app. cbn [map].
    rewrite <- !app_assoc. reflexivity.
  - assert (exists c t, str s = c :: t /\ In c symbol_starts) as (c & t & Es & Ic).
    { destruct (symbol_first k s (str s) (str s) Hk) as (c & t & H); auto.
      - exists []. now rewrite app_nil_r.
      - eauto. }
    apply Forall_app. split.
    + assert (Fc : forallb (fun c => negb (existsb (N.eqb c) [39; 34; 114; 98]%N)) symbol_starts = true) by (vm_compute; reflexivity).
      rewrite forallb_forall in Fc. specialize (Fc _ Ic). apply negb_true_iff in Fc. cbn [existsb] in Fc.
      repeat (apply orb_false_iff in Fc as [? Fc]).
      repeat match goal with H : (c =? _)%N = false |- _ => apply N.eqb_neq in H end.
      apply fails_head8; auto.
      * apply no_literal_starts. rewrite Es. repeat constructor; swneq.
      * intros r Er. rewrite Es in Er. inversion Er; congruence.
    + apply Forall_map. apply Forall_forall. intros [s1 k1] I. apply fails_map, fails_literal.
      destruct (starts_with (str s ++ rest) (str s1)) eqn:S1; auto. exfalso.
      apply sw_true in S1 as P.
      assert (Hk1 : symbol_spelling k1 = Some s1).
      { pose proof symbols_spelling as FS. rewrite Forall_forall in FS. apply (FS (s1, k1)). rewrite E.
        apply in_or_app; auto. }
      specialize (Mx _ _ Hk1 P). destruct P as [r P]. symmetry in P.
      apply prefix_comparable in P as [t' P]; [|rewrite !str_length; exact Mx].
      apply in_split in I as (a1 & a2 & ->).
      pose proof symbols_ordered as O. rewrite E, <- app_assoc in O. cbn [app] in O.
      assert (S2 : starts_with (str s) (str s1) = true) by (rewrite P; apply starts_with_app).
      rewrite (ordered_app _ _ _ _ O s k) in S2; [discriminate|]. apply in_elt.
  - rewrite res_map, res_literal_ok. reflexivity.
Qed.

Lemma single_whitespace w rest o :
  w <> [] -> Forall ws_char w -> (forall c r, rest = c :: r -> ~ ws_char c) ->
  res (single_token X) (mkPt (w ++ rest) o) =
  Success (mkPt rest (o + blen w)) (Tk KWhitespace (o, o + blen w)).
Proof.
  intros NE F St.
  apply (single_pick (head8 ++ symbol_alts ++ [keyword_or_ident X; map_p (number_p X) TkNumber]) (map_p whitespace (Tk KWhitespace)) []).
  - rewrite alts_eq. rewrite <- !app_assoc. reflexivity.
  - destruct w as [|c w]; [congruence|]. inversion F as [|? ? Wc _]; subst.
    assert (Hc : forall d, In d symbol_starts \/ In d [39; 34; 114; 98; 47]%N \/ digit_or_underscore 10 d -> c <> d).
    { intros d Hd ->. destruct Hd as [Hd|[Hd|Hd]].
      - assert (G : forallb (fun d => negb (is_ws d)) symbol_starts = true) by (vm_compute; reflexivity).
        rewrite forallb_forall in G. specialize (G _ Hd). apply is_ws_spec in Wc. rewrite Wc in G. discriminate.
      - simpl in Hd. unfold ws_char in Wc. intuition (subst; discriminate).
      - destruct Hd as [(v & Dv & Lv)| ->]; unfold ws_char in Wc.
        + destruct Wc as [->|[->|[->|[->|[->| ->]]]]]; discriminate.
        + intuition discriminate. }
    apply Forall_app. split; [|apply Forall_app; split].
    + apply fails_head8.
      * apply no_comment_first. apply Hc. simpl; tauto.
      * apply no_literal_starts.
        repeat constructor; apply sw_neq; intros Eq; refine (Hc _ _ (eq_sym Eq)); simpl; tauto.
      * intros r E. inversion E. eapply Hc; [|eassumption]. simpl; tauto.
    + apply fails_symbols_first. intros I. eapply Hc; eauto.
    + constructor; [|constructor; auto].
      * apply fails_kw.
        -- destruct XS as (X1 & _ & X3 & _ & X4 & _). simpl.
           split; [|eapply Hc; right; right; right; reflexivity].
           unfold ws_char in Wc. destruct Wc as [->|[->|[->|[->|[->| ->]]]]]; auto; rewrite X1; reflexivity.
        -- apply sw_neq. intros Eq; refine (Hc _ _ (eq_sym Eq)); simpl; tauto.
      * apply fails_number. intros D. eapply Hc; eauto.
  - rewrite res_map, whitespace_ok by auto. reflexivity.
Qed.

(** Comments. *)
Lemma line_end_eq w rest : line_comment w rest -> line_end (w ++ rest) = blen w.
Proof.
  intros [N R]. unfold line_end. pose proof (find_char_spec (w ++ rest) newline) as F.
  destruct (find_char (w ++ rest) newline) as [n|].
  - destruct F as (a & r & E & -> & NI). f_equal.
    destruct R as [->|[q ->]].
    + rewrite app_nil_r in E. exfalso. apply N. rewrite E. apply in_elt.
    + revert a E NI. clear - N. induction w as [|x w IH]; intros [|y a] E NI; simpl in E; auto; inversion E; subst.
      * exfalso. apply NI. left. reflexivity.
      * exfalso. apply N. left. reflexivity.
      * f_equal. apply IH; auto; intros I; [apply N|apply NI]; right; auto.
  - destruct R as [->|[q ->]]; [now rewrite app_nil_r|]. exfalso. apply F. apply in_elt.
Qed.

Lemma block_end_eq op w rest k : block_comment op w rest -> blen op = k -> block_end k (w ++ rest) = Some (blen w).
Proof.
  intros B <-. unfold block_end. destruct B as [(b & -> & F)|(b & -> & -> & F)].
  - rewrite <- !app_assoc, split_at_app, find_first by auto. f_equal.
    rewrite !blen_app. change (blen (str "*/")) with 2. lia.
  - rewrite app_nil_r, split_at_app. pose proof (find_str_spec b (str "*/")) as H.
    destruct (find_str b (str "*/")); auto. destruct H as (a & r & E & _). exfalso. eapply F; eauto.
Qed.

Lemma prefix_app p w rest : has_prefix p w -> has_prefix p (w ++ rest).
Proof. intros [r ->]. exists (r ++ rest). now rewrite app_assoc. Qed.

Lemma line_prefix p w rest : line_comment w rest -> ~ In 10%N p -> has_prefix p (w ++ rest) -> has_prefix p w.
Proof.
  intros [NI R] NP [r E]. destruct R as [->|[q ->]]; [rewrite app_nil_r in E; exists r; auto|].
  revert w NI E. induction p as [|x p IH]; intros w NI E; [exists w; auto|].
  destruct w as [|y w]; simpl in E; inversion E; subst.
  - exfalso. apply NP. left; auto.
  - destruct (IH ltac:(intros I; apply NP; right; auto) w) as [t ->]; auto.
    + intros I. apply NI. right; auto.
    + exists t. auto.
Qed.

Lemma single_comment s o pt' v :
  res comment_or_doc_comment (mkPt s o) = Success pt' v -> res (single_token X) (mkPt s o) = Success pt' v.
Proof. intros R. eapply (single_pick []); eauto. reflexivity. Qed.

Definition comment_kind (k : tkind) : Prop :=
  match k with
  | KDocCommentOuterLine | KDocCommentInnerLine | KCommentLine
  | KDocCommentOuterBlock | KDocCommentInnerBlock | KCommentBlock => True
  | _ => False
  end.

Lemma comment_complete k w rest o : comment_kind k -> lexical X k w rest ->
  res comment_or_doc_comment (mkPt (w ++ rest) o) = Success (mkPt rest (o + blen w)) (Tk k (o, o + blen w)).
Proof.
  assert (SW : forall p, has_prefix (str p) w -> starts_with (w ++ rest) (str p) = true).
  { intros p P. apply sw_true, prefix_app, P. }
  assert (NW : forall p, line_comment w rest -> forallb (fun c => negb (N.eqb c 10)) (str p) = true ->
             ~ has_prefix (str p) w -> starts_with (w ++ rest) (str p) = false).
  { intros p LC N H. apply sw_false. intros P. apply H. eapply line_prefix; eauto.
    intros I. rewrite forallb_forall in N. specialize (N _ I). discriminate. }
  assert (LL : forall p q, has_prefix (str p ++ q) w -> starts_with (w ++ rest) (str p) = true).
  { intros p q [r E]. apply SW. exists (q ++ r). rewrite E, <- app_assoc. auto. }
  assert (XX : forall p q, List.length p = List.length q -> p <> q -> has_prefix p (w ++ rest) -> has_prefix q (w ++ rest) -> False).
  { intros p q L NE [r1 E1] [r2 E2]. rewrite E1 in E2. apply prefix_same_length in E2 as [E2 _]; auto. }
  assert (BO : forall op, block_comment op w rest -> has_prefix op (w ++ rest)).
  { intros op [(b & -> & _)|(b & -> & -> & _)]; rewrite <- ?app_assoc; eexists; reflexivity. }
  assert (XF : forall p q, List.length (str p) = List.length (str q) -> str p <> str q -> has_prefix (str q) (w ++ rest) ->
             starts_with (w ++ rest) (str p) = false).
  { intros p q L NE H. apply sw_false. intros P. eapply (XX (str p) (str q)); eauto. }
  assert (P3 : forall p q, has_prefix (str p ++ q) (w ++ rest) -> has_prefix (str p) (w ++ rest)).
  { intros p q [r E]. exists (q ++ r). rewrite E, <- app_assoc. auto. }
  assert (XX2 : forall p, has_prefix (str "/*") (w ++ rest) -> starts_with (w ++ rest) (str "//" ++ p) = false).
  { intros p H. apply sw_false. intros [r E]. rewrite <- app_assoc in E.
    eapply (XX (str "//") (str "/*")); eauto; [discriminate|]. eexists; eauto. }
  unfold res, comment_or_doc_comment. cbn [p_s p_off].
  intros C L. destruct k; try contradiction; unfold lexical in L; cbn [keyword_spelling symbol_spelling] in L.
  - destruct L as (L1 & L2 & L3 & LC).
    assert (E1 : starts_with (w ++ rest) (str "///") && negb (starts_with (w ++ rest) (str "////")) = false).
    { destruct (starts_with (w ++ rest) (str "///")) eqn:E; auto. cbn [andb]. apply negb_false_iff.
      apply SW, L3. apply sw_true in E. eapply line_prefix; eauto. intros I. simpl in I. intuition discriminate. }
    rewrite E1, (NW "//!"%string), (SW "//"%string) by auto. rewrite line_end_eq by auto.
    now apply comment_token_res.
  - destruct L as (BC & L2 & L3). pose proof (BO _ BC) as PO.
    pose proof (XX2 (str "/") PO) as F1. pose proof (XX2 (str "!") PO) as F2. pose proof (XX2 [] PO) as F3.
    change (starts_with (w ++ rest) (str "///") = false) in F1. change (starts_with (w ++ rest) (str "//!") = false) in F2.
    change (starts_with (w ++ rest) (str "//") = false) in F3. rewrite F1, F2, F3. cbn [andb].
    assert (F4 : starts_with (w ++ rest) (str "/**") && negb (starts_with (w ++ rest) (str "/***")) &&
       negb (starts_with (w ++ rest) (str "/**/")) = false).
    { destruct (starts_with (w ++ rest) (str "/**")) eqn:E; auto. cbn [andb].
      apply sw_true in E. apply block_prefix with (1 := BC) in E; [|simpl; lia].
      destruct (L3 E) as [H|H]; rewrite (SW _ H); [reflexivity|apply andb_false_r]. }
    rewrite F4.
    assert (F5 : starts_with (w ++ rest) (str "/*!") = false).
    { apply sw_false. intros P. apply L2. apply block_prefix with (1 := BC) in P; [auto|simpl; lia]. }
    rewrite F5, (proj2 (sw_true _ _) PO).
    rewrite (block_end_eq _ _ _ 2 BC eq_refl). now apply comment_token_res.
  - destruct L as (L1 & L2 & LC).
    rewrite (SW "///"%string), (NW "////"%string) by auto. cbn [andb negb].
    rewrite line_end_eq by auto. now apply comment_token_res.
  - destruct L as (L1 & LC).
    rewrite (XF "///"%string "//!"%string), (SW "//!"%string) by
      (auto; try discriminate; apply prefix_app; auto). cbn [andb].
    rewrite line_end_eq by auto. now apply comment_token_res.
  - destruct L as (BC & L2 & L3). pose proof (BO _ BC) as PO.
    assert (PO2 : has_prefix (str "/*") (w ++ rest)) by exact (P3 "/*"%string (str "*") PO).
    pose proof (XX2 (str "/") PO2) as F1. pose proof (XX2 (str "!") PO2) as F2. pose proof (XX2 [] PO2) as F3.
    change (starts_with (w ++ rest) (str "///") = false) in F1. change (starts_with (w ++ rest) (str "//!") = false) in F2.
    change (starts_with (w ++ rest) (str "//") = false) in F3. rewrite F1, F2, F3.
    rewrite (proj2 (sw_true _ _) PO), (proj2 (sw_false _ _) L2), (proj2 (sw_false _ _) L3). cbn [andb negb].
    rewrite (block_end_eq _ _ _ 3 BC eq_refl). now apply comment_token_res.
  - pose proof (BO _ L) as PO.
    assert (PO2 : has_prefix (str "/*") (w ++ rest)) by exact (P3 "/*"%string (str "!") PO).
    pose proof (XX2 (str "/") PO2) as F1. pose proof (XX2 (str "!") PO2) as F2. pose proof (XX2 [] PO2) as F3.
    change (starts_with (w ++ rest) (str "///") = false) in F1. change (starts_with (w ++ rest) (str "//!") = false) in F2.
    change (starts_with (w ++ rest) (str "//") = false) in F3. rewrite F1, F2, F3.
    rewrite (XF "/**"%string "/*!"%string) by (auto; discriminate).
    rewrite (proj2 (sw_true _ _) PO). cbn [andb].
    rewrite (block_end_eq _ _ _ 3 L eq_refl). now apply comment_token_res.
Qed.

(** The specification determines the tokenizer. *)
Lemma single_token_complete k w rest o :
  lexical X k w rest ->
  res (single_token X) (mkPt (w ++ rest) o) = Success (mkPt rest (o + blen w)) (Tk k (o, o + blen w)).
Proof.
  intros L. pose proof L as L'. unfold lexical in L.
  destruct (keyword_spelling k) as [s|] eqn:Hk.
  { destruct L as [-> St]. now apply single_keyword. }
  destruct (symbol_spelling k) as [s|] eqn:Hs.
  { destruct L as (-> & NC & Mx). now apply single_symbol. }
  destruct k; try discriminate; try (now apply single_comment, comment_complete; simpl; auto);
    try (apply single_literal; exact L); try contradiction.
  - (* ident *) destruct L as [(I & St & NL & NR & Nk)|(i & -> & I & St)].
    + rewrite single_word by auto. repeat f_equal.
      destruct (lookup_keyword_spec w) as [(s & E & Ew)|(E & _)]; [exfalso; eapply Nk; eauto|rewrite E; reflexivity].
    + now apply single_raw_ident.
  - (* whitespace *) destruct L as (A & B & C). now apply single_whitespace.
  - (* lifetime *) destruct L as (NL & i & -> & I & St). now apply single_lifetime.
Qed.

End S.
