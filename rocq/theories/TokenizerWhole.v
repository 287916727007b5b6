(** The tokenizer as a whole: it computes exactly the specified token list. *)

From Coq Require Import String List NArith Arith Bool Lia.
From Verif Require Import Base Peresil Token Tokenizer TokenizerSpec TokenizerSafe TokenizerNum
  TokenizerIter TokenizerLex TokenizerTop TokenizerNumber.
Import ListNotations.

Section S.
Variable X : xid.
Hypothesis XS : xid_sane X.

Lemma yields_at s off t rest : yields X s off t rest <-> token_at X s off t rest.
Proof.
  destruct t as [k e|n].
  - rewrite yields_token by auto. split.
    + intros (w & E & -> & L). now constructor.
    + inversion 1; subst. eauto.
  - rewrite yields_number by auto. split; [now constructor|inversion 1; auto].
Qed.

Lemma next_ok_yields pm s off pm' pt' t :
  s <> [] -> tokens_next X (mkTokens pm (mkPt s off) false) = (mkTokens pm' pt' false, NextOk t) ->
  yields X s off t (p_s pt') /\ p_off pt' = snd (token_extent t).
Proof.
  intros NE E. unfold tokens_next in E. cbn [ts_exhausted ts_pt ts_pm p_s p_off] in E.
  destruct s as [|c r]; [congruence|].
  pose proof (res_any (single_token X) pm (mkPt (c :: r) off) (indep_single_token X)) as I.
  pose proof (good_single_token X pm (mkPt (c :: r) off)) as G.
  destruct (single_token X pm (mkPt (c :: r) off)) as [pm1 rr]. simpl in I. subst rr.
  destruct (res (single_token X) (mkPt (c :: r) off)) as [x v|x e|w] eqn:R; simpl in E; try discriminate.
  destruct (off =? p_off x); inversion E; subst. destruct G as (_ & (TE & _) & _).
  destruct (res_yields X _ _ _ _ R NE) as (w & Es & Eo & Y).
  split; [|rewrite TE; reflexivity]. exists w. split; auto. intros pm0. destruct (Y pm0) as [pm2 E2].
  exists pm2. rewrite E2. destruct pt'. simpl in *. subst. reflexivity.
Qed.

Lemma rejects_iff s off :
  rejects X s off <-> s <> [] /\ forall t rest, ~ token_at X s off t rest.
Proof.
  split.
  - intros R. split.
    + intros ->. destruct (R pm0) as (pm' & e & E). discriminate.
    + intros t rest T. apply yields_at in T as (w & Es & Y). destruct (Y pm0) as [pm1 E1].
      destruct (R pm0) as (pm2 & e2 & E2). congruence.
  - intros [NE N] pm. unfold tokens_next. cbn [ts_exhausted ts_pt ts_pm p_s p_off].
    destruct s as [|c r]; [congruence|].
    pose proof (res_any (single_token X) pm (mkPt (c :: r) off) (indep_single_token X)) as I.
    pose proof (good_single_token X pm (mkPt (c :: r) off)) as G.
    destruct (single_token X pm (mkPt (c :: r) off)) as [pm1 rr]. simpl in I. subst rr.
    destruct (res (single_token X) (mkPt (c :: r) off)) as [x v|x e|w] eqn:R; [|simpl; eauto|contradiction].
    exfalso. destruct (res_yields X _ _ _ _ R NE) as (w & Es & Eo & Y).
    apply (N v (p_s x)). apply yields_at. exists w. split; auto. intros pm0'. destruct (Y pm0') as [pm2 E2].
    exists pm2. rewrite E2. destruct x; simpl in *; subst; reflexivity.
Qed.

Lemma lexes_collect s off ts : lexes X s off ts -> forall fuel pm, List.length ts < fuel ->
  collect X fuel (mkTokens pm (mkPt s off) false) = TokOk ts.
Proof.
  induction 1 as [off|s off t rest ts NE T L IH]; intros fuel pm Hf; simpl in Hf.
  - destruct fuel as [|[|fuel]]; try lia. reflexivity.
  - destruct fuel as [|fuel]; [lia|]. cbn [collect]. apply yields_at in T.
    destruct T as (w & Es & Y). destruct (Y pm) as [pm' E].
    destruct (next_ok_yields _ _ _ _ _ _ NE E) as [_ O]. rewrite E. cbn [p_off] in O. rewrite O, IH by lia. reflexivity.
Qed.

Lemma collect_lexes fuel : forall s off pm ts,
  collect X fuel (mkTokens pm (mkPt s off) false) = TokOk ts -> lexes X s off ts.
Proof.
  induction fuel as [|fuel IH]; intros s off pm ts C; [discriminate|]. cbn [collect] in C.
  destruct s as [|c r].
  - unfold tokens_next in C. cbn [ts_exhausted ts_pt ts_pm p_s p_off] in C.
    destruct fuel; [discriminate|]. cbn [collect tokens_next ts_exhausted] in C. inversion C. constructor.
  - destruct (tokens_next X (mkTokens pm (mkPt (c :: r) off) false)) as [st' nr] eqn:E.
    destruct nr as [|t|e|w]; try discriminate.
    + exfalso. revert E. unfold tokens_next. cbn [ts_exhausted ts_pt ts_pm p_s p_off].
      destruct (single_token X pm _) as [pm1 [x v|x e|w]]; simpl; try discriminate. destruct (_ =? _); discriminate.
    + assert (exists pm' pt', st' = mkTokens pm' pt' false) as (pm' & pt' & ->).
      { revert E. unfold tokens_next. cbn [ts_exhausted ts_pt ts_pm p_s p_off].
        destruct (single_token X pm _) as [pm1 [x v|x e|w]]; simpl; try discriminate.
        destruct (_ =? _); [discriminate|]. intros E; inversion E; eauto. }
      assert (NE : c :: r <> []) by discriminate.
      destruct (next_ok_yields _ _ _ _ _ _ NE E) as [Y O].
      destruct (collect X fuel (mkTokens pm' pt' false)) as [ts'|e'|w'] eqn:C'; inversion C; subst.
      destruct pt' as [s' o']. cbn [p_s p_off] in *. apply IH in C'.
      econstructor; [auto|apply yields_at; exact Y|]. rewrite <- O. exact C'.
Qed.

Lemma lexes_length s off ts : lexes X s off ts -> List.length ts <= S (List.length s).
Proof.
  induction 1 as [off|s off t rest ts NE T L IH]; simpl; [lia|].
  apply yields_at in T. destruct s as [|c r]; [congruence|].
  destruct (yields_res X _ _ _ _ NE T) as (w & Es & R).
  unfold res in R. pose proof (good_single_token X pm0 (mkPt (c :: r) off)) as G.
  destruct (single_token X pm0 (mkPt (c :: r) off)) as [pm1 rr]. simpl in R. subst rr.
  destruct G as (_ & (_ & L' & _) & _). cbn [p_off] in L'.
  rewrite Es, app_length. destruct w; [simpl in L'; lia|simpl; lia].
Qed.

Theorem tokenize_iff code ts : tokenize X code = TokOk ts <-> lexes X code 0 ts.
Proof.
  unfold tokenize, tokens_new. split.
  - apply collect_lexes.
  - intros L. apply lexes_collect; auto. apply lexes_length in L. lia.
Qed.

(** ** First characters *)

Definition first_of (k : tkind) (c : char) : Prop :=
  match keyword_spelling k, symbol_spelling k with
  | Some _, _ => ascii_alpha c = true
  | _, Some _ => In c symbol_starts
  | None, None =>
      match k with
      | KWhitespace => ws_char c
      | KIdent => xid_start X c = true \/ c = 95%N
      | KLifetime | KCharacter => c = 39%N
      | KString => c = 34%N
      | KStringRaw => c = 114%N
      | KByte | KByteString | KByteStringRaw => c = 98%N
      | KDocCommentOuterLine | KDocCommentInnerLine | KCommentLine
      | KDocCommentOuterBlock | KDocCommentInnerBlock | KCommentBlock => c = 47%N
      | _ => False
      end
  end.

Lemma keyword_first k s : keyword_spelling k = Some s -> exists c r, str s = c :: r /\ ascii_alpha c = true.
Proof.
  destruct k; simpl; try discriminate; inversion 1; subst; do 2 eexists; (split; [reflexivity|reflexivity]).
Qed.

Lemma lexical_first k w rest : lexical X k w rest -> exists c r, w = c :: r /\ first_of k c.
Proof.
  unfold lexical, first_of. intros L.
  destruct (keyword_spelling k) as [s|] eqn:Ek.
  { destruct L as [-> _]. eapply keyword_first; eauto. }
  destruct (symbol_spelling k) as [s|] eqn:Es.
  { destruct L as [-> _]. destruct (symbol_first k s (str s) (str s) Es) as (c & t & E & I); eauto.
    exists []. now rewrite app_nil_r. }
  assert (HP : forall c p q, has_prefix (c :: p) q -> exists d r, q = d :: r /\ d = c).
  { intros c p q [r ->]. exists c, (p ++ r). auto. }
  destruct k; try discriminate;
    try (apply literal_token_first in L; first [contradiction | destruct L as [r L]]; try destruct L as [L|L]; subst; eauto; fail).
  all: try (destruct L as (L & _); apply HP in L as (d & r & -> & ->); eauto; fail).
  all: try (first [destruct L as (L & _ & _) | idtac]; unfold block_comment in L;
            destruct L as [(b & -> & _)|(b & -> & _)]; do 2 eexists; (split; reflexivity); fail).
  - destruct L as [[I _]|(i & -> & _)].
    + destruct w as [|c w]; [contradiction|]. destruct I as [I _]. eauto.
    + exists 114%N, (35%N :: i). split; auto. left. destruct XS as (X1 & _). rewrite X1; reflexivity.
  - destruct L as (NE & F & _). destruct w as [|c w]; [congruence|].
    apply Forall_cons_iff in F as [F _]. eauto.
  - destruct L as (_ & i & -> & _). exists 39%N, i. split; reflexivity.
Qed.

Lemma token_at_unique s off t t' rest rest' :
  token_at X s off t rest -> token_at X s off t' rest' -> t = t' /\ rest = rest'.
Proof.
  intros H1 H2. apply yields_at in H1 as (w1 & _ & Y1). apply yields_at in H2 as (w2 & _ & Y2).
  destruct (Y1 pm0) as [p1 E1]. destruct (Y2 pm0) as [p2 E2]. rewrite E1 in E2. inversion E2. auto.
Qed.

Lemma number_first s off n rest : number_token X s off n rest -> exists c r, s = c :: r /\ digit_of 10 c.
Proof. intros N. apply number_ok_res in N as (w & _ & _ & _ & D & _). exact D. Qed.

Lemma digit10 c : digit_of 10 c <-> (48 <= c <= 57)%N.
Proof.
  unfold digit_of, digit_value. split.
  - intros (v & D & L).
    destruct ((48 <=? c) && (c <=? 57))%N eqn:B1; [apply andb_true_iff in B1 as [A B]; apply N.leb_le in A; apply N.leb_le in B; lia|].
    destruct ((97 <=? c) && (c <=? 102))%N eqn:B2; [apply andb_true_iff in B2 as [A B]; apply N.leb_le in A; apply N.leb_le in B; inversion D; lia|].
    destruct ((65 <=? c) && (c <=? 70))%N eqn:B3; [apply andb_true_iff in B3 as [A B]; apply N.leb_le in A; apply N.leb_le in B; inversion D; lia|discriminate].
  - intros [A B]. apply N.leb_le in A. apply N.leb_le in B. rewrite A, B. simpl. eexists. split; [reflexivity|].
    apply N.leb_le in A. apply N.leb_le in B. lia.
Qed.

Lemma alpha_range c : ascii_alpha c = true -> (65 <= c <= 90 \/ 97 <= c <= 122)%N.
Proof.
  unfold ascii_alpha. rewrite orb_true_iff, !andb_true_iff, !N.leb_le. lia.
Qed.

(** A token at a text whose first character is [c]. *)
Lemma token_at_first c r off t rest : token_at X (c :: r) off t rest ->
  (exists n, t = TkNumber n /\ (48 <= c <= 57)%N) \/
  (exists k w, t = Tk k (off, off + blen w) /\ c :: r = w ++ rest /\ lexical X k w rest /\ first_of k c).
Proof.
  inversion 1; subst.
  - right. destruct (lexical_first _ _ _ H1) as (d & q & -> & F). inversion H0; subst. eauto 8.
  - left. destruct (number_first _ _ _ _ H0) as (d & q & E & D). inversion E; subst. apply digit10 in D. eauto.
Qed.

(** ** C06 *)
Lemma word_class w rest off :
  is_ident X w -> ident_stops X rest -> no_literal (w ++ rest) -> ~ has_prefix (str "r#") (w ++ rest) ->
  exists k, yields X (w ++ rest) off (Tk k (off, off + blen w)) rest /\
    (k = KIdent \/ exists s, keyword_spelling k = Some s) /\
    (forall k' s', keyword_spelling k' = Some s' -> (k = k' <-> w = str s')) /\
    (k = KIdent <-> forall k' s', keyword_spelling k' = Some s' -> w <> str s').
Proof.
  intros I St NL NR. destruct (lookup_keyword_spec w) as [(s & Hs & Hw)|[Hk Hn]].
  - exists (lookup_keyword keywords w). split; [|split; [|split]].
    + apply yields_at. constructor; auto. unfold lexical. rewrite Hs. auto.
    + eauto.
    + intros k' s' Hk'. split.
      * intros <-. congruence.
      * intros E. rewrite E. now apply lookup_keyword_hit.
    + split.
      * intros E. rewrite E in Hs. discriminate.
      * intros N. exfalso. eapply N; eauto.
  - exists KIdent. split; [|split; [|split]].
    + apply yields_at. constructor; auto. unfold lexical. cbn [keyword_spelling symbol_spelling]. left. auto.
    + auto.
    + intros k' s' Hk'. split.
      * intros <-. discriminate.
      * intros E. exfalso. eapply Hn; eauto.
    + split; auto.
Qed.


(** ** C07 *)
Lemma raw_ident_token i rest off :
  is_ident X i -> ident_stops X rest ->
  yields X (str "r#" ++ i ++ rest) off (Tk KIdent (off, off + blen (str "r#" ++ i))) rest.
Proof.
  intros I St. apply yields_at. constructor; [now rewrite <- app_assoc|].
  unfold lexical. cbn [keyword_spelling symbol_spelling]. right. exists i. auto.
Qed.

Lemma keyword_second k s c : keyword_spelling k = Some s -> forall q, str s = c :: 35%N :: q -> False.
Proof. destruct k; simpl; try discriminate; inversion 1; subst; intros q E; inversion E. Qed.

Lemma raw_ident_error rest off :
  no_ident X rest -> (forall w r, str "r#" ++ rest = w ++ r -> ~ raw_string_literal w r) ->
  rejects X (str "r#" ++ rest) off.
Proof.
  intros NI NL. apply rejects_iff. split; [discriminate|]. intros t rest' T.
  change (str "r#" ++ rest) with (114%N :: 35%N :: rest) in *.
  apply token_at_first in T as [(n & _ & B)|(k & w & -> & Ew & L & F)]; [lia|].
  unfold first_of in F. unfold lexical in L.
  destruct (keyword_spelling k) as [s|] eqn:Ek.
  { destruct L as [-> St]. destruct (str s) as [|c1 [|c2 q]] eqn:Es.
    - destruct k; simpl in Ek; try discriminate; inversion Ek; subst; discriminate.
    - destruct k; simpl in Ek; try discriminate; inversion Ek; subst; discriminate.
    - inversion Ew; subst. eapply keyword_second; eauto. }
  destruct (symbol_spelling k) as [s|] eqn:Es.
  { assert (C : existsb (N.eqb 114) symbol_starts = true).
    { apply existsb_exists. exists 114%N. split; auto. }
    vm_compute in C. discriminate. }
  destruct k; try discriminate; try contradiction; try lia; try (destruct F as [F|[F|[F|[F|[F|F]]]]]; discriminate).
  2: destruct L as [(_ & _ & _ & NR & _)|(i & -> & I & _)].
  - eapply NL; eauto.
  - apply NR. rewrite <- Ew. exists rest. reflexivity.
  - inversion Ew; subst. destruct i as [|c i]; [contradiction|]. simpl in I, NI. destruct NI, I as [[?|?] _]; congruence.
Qed.

(** ** C08 *)
Lemma symbol_longest s off :
  no_comment s -> (exists k sp, symbol_spelling k = Some sp /\ has_prefix (str sp) s) ->
  exists k sp rest, symbol_spelling k = Some sp /\ s = str sp ++ rest /\
    yields X s off (Tk k (off, off + String.length sp)) rest /\
    forall k' sp', symbol_spelling k' = Some sp' -> has_prefix (str sp') s -> String.length sp' <= String.length sp.
Proof.
  intros NC (k0 & sp0 & H0 & P0).
  assert (M : exists k sp, symbol_spelling k = Some sp /\ has_prefix (str sp) s /\
     forall k' sp', symbol_spelling k' = Some sp' -> has_prefix (str sp') s -> String.length sp' <= String.length sp).
  { assert (G : forall tbl : list (string * tkind), (forall k sp, In (sp, k) tbl -> symbol_spelling k = Some sp) ->
       (exists sp k, In (sp, k) tbl /\ starts_with s (str sp) = true) ->
       exists k sp, symbol_spelling k = Some sp /\ has_prefix (str sp) s /\
       forall k' sp', In (sp', k') tbl -> has_prefix (str sp') s -> String.length sp' <= String.length sp).
    { induction tbl as [|[sp k] tbl IH]; intros HT (sp1 & k1 & I1 & S1); [contradiction|].
      assert (HT' : forall k sp, In (sp, k) tbl -> symbol_spelling k = Some sp) by (intros; apply HT; now right).
      destruct (existsb (fun '(sp, _) => starts_with s (str sp)) tbl) eqn:Ex.
      - apply existsb_exists in Ex as ([sp2 k2] & I2 & S2).
        destruct (IH HT') as (k3 & sp3 & H3 & P3 & M3); [eauto|].
        destruct (starts_with s (str sp)) eqn:S.
        + destruct (Nat.le_gt_cases (String.length sp) (String.length sp3)).
          * exists k3, sp3. split; auto. split; auto. intros k' sp' [E|I'] P'; [inversion E; subst; auto|eauto].
          * exists k, sp. split; [apply HT; now left|]. split; [now apply sw_true|].
            intros k' sp' [E|I'] P'; [inversion E; subst; auto|]. specialize (M3 _ _ I' P'). lia.
        + exists k3, sp3. split; auto. split; auto. intros k' sp' [E|I'] P'; [|eauto].
          inversion E; subst. apply sw_true in P'. congruence.
      - destruct I1 as [E|I1].
        + inversion E; subst. exists k1, sp1. split; [apply HT; now left|]. split; [now apply sw_true|].
          intros k' sp' [E'|I'] P'; [inversion E'; subst; auto|]. exfalso.
          assert (F : existsb (fun '(sp, _) => starts_with s (str sp)) tbl = true).
          { apply existsb_exists. exists (sp', k'). split; auto. now apply sw_true. }
          congruence.
        + exfalso. assert (F : existsb (fun '(sp, _) => starts_with s (str sp)) tbl = true).
          { apply existsb_exists. exists (sp1, k1). split; auto. }
          congruence. }
    destruct (G symbols) as (k & sp & H & P & M).
    - intros k sp I. pose proof symbols_spelling as F. rewrite Forall_forall in F. now apply (F _ I).
    - exists sp0, k0. split; [now apply symbol_in_table|now apply sw_true].
    - exists k, sp. split; auto. split; auto. intros k' sp' H' P'. refine (M k' sp' _ P'). now apply symbol_in_table. }
  destruct M as (k & sp & H & [rest ->] & M). exists k, sp, rest. split; auto. split; auto. split; auto.
  apply yields_at.
  replace (off + String.length sp) with (off + blen (str sp)).
  - constructor; auto. unfold lexical.
    assert (Ek : keyword_spelling k = None).
    { destruct k; simpl in H; inversion H; reflexivity. }
    rewrite Ek, H. auto.
  - f_equal. clear - H. destruct k; simpl in H; inversion H; subst; reflexivity.
Qed.

(** ** C09 *)
Lemma whitespace_run w rest off :
  w <> [] -> Forall ws_char w -> (forall c r, rest = c :: r -> ~ ws_char c) ->
  yields X (w ++ rest) off (Tk KWhitespace (off, off + blen w)) rest.
Proof. intros A B C. apply yields_at. constructor; auto. unfold lexical. cbn [keyword_spelling symbol_spelling]. auto. Qed.

Lemma lexes_step_inv s off t ts : lexes X s off (t :: ts) ->
  (s = [] /\ ts = [] /\ t = Tk KEndOfFile (off, off)) \/ (s <> [] /\ exists rest, token_at X s off t rest /\ lexes X rest (snd (token_extent t)) ts).
Proof. inversion 1; subst; [left; auto|right; eauto]. Qed.

Lemma whitespace_not_adjacent code ts a b e1 e2 :
  tokenize X code = TokOk ts -> ts = a ++ Tk KWhitespace e1 :: Tk KWhitespace e2 :: b -> False.
Proof.
  rewrite tokenize_iff. generalize 0 as off. revert code ts.
  induction a as [|t a IH]; intros code ts off L ->.
  - cbn [app] in L. apply lexes_step_inv in L as [(_ & _ & E)|(NE & rest & T & L)]; [discriminate|].
    assert (St : forall c r, rest = c :: r -> ~ ws_char c).
    { inversion T as [k w r Es Lx|]; subst. unfold lexical in Lx. cbn [keyword_spelling symbol_spelling] in Lx. tauto. }
    clear T.
    apply lexes_step_inv in L as [(_ & _ & E)|(NE' & rest' & T & L)].
    + discriminate.
    + destruct rest as [|c r]; [congruence|]. apply token_at_first in T as [(n & E & _)|(k & w' & E & Ew & _ & F)]; [discriminate|].
      inversion E; subst. exact (St _ _ eq_refl F).
  - cbn [app] in L. apply lexes_step_inv in L as [(_ & E & _)|(NE & rest & T & L)]; [destruct a; discriminate|].
    eapply IH; eauto.
Qed.

(** ** C10 *)
Definition comment_kind (k : tkind) : Prop :=
  In k [KCommentLine; KDocCommentOuterLine; KDocCommentInnerLine; KCommentBlock; KDocCommentOuterBlock; KDocCommentInnerBlock].

Lemma comment_token s off :
  has_prefix (str "//") s \/ has_prefix (str "/*") s ->
  exists k w rest, s = w ++ rest /\ comment_kind k /\ lexical X k w rest /\
    yields X s off (Tk k (off, off + blen w)) rest.
Proof.
  intros H. destruct (comment_ok X s off H) as (k & w & rest & A & B & C & _).
  exists k, w, rest. split; auto. split; [unfold comment_kind; simpl in *; tauto|]. split; auto.
  apply yields_at. now constructor.
Qed.

(** ** C12 *)
Lemma string_token b rest off : str_body b ->
  yields X (34%N :: b ++ 34%N :: rest) off (Tk KString (off, off + S (S (blen b)))) rest.
Proof.
  intros B. apply yields_at.
  replace (off + S (S (blen b))) with (off + blen ([34%N] ++ b ++ [34%N])).
  - constructor; [cbn [app]; now rewrite <- app_assoc|]. unfold lexical. cbn [keyword_spelling symbol_spelling literal_token].
    exists b. auto.
  - rewrite !blen_app. change (blen [34%N]) with 1. lia.
Qed.

Lemma quote_only c r off t rest : c = 34%N -> token_at X (c :: r) off t rest ->
  exists w, t = Tk KString (off, off + blen w) /\ c :: r = w ++ rest /\ string_literal w.
Proof.
  intros -> T. apply token_at_first in T as [(n & _ & B)|(k & w & -> & Ew & L & F)]; [lia|].
  unfold first_of in F. unfold lexical in L. exists w.
  destruct (keyword_spelling k) as [s|] eqn:Ek; [discriminate|].
  destruct (symbol_spelling k) as [s|] eqn:Es.
  { exfalso. assert (C : existsb (N.eqb 34) symbol_starts = true).
    { apply existsb_exists. exists 34%N. split; auto. }
    vm_compute in C. discriminate. }
  destruct XS as (X1 & _).
  destruct k; try discriminate; try contradiction; try lia; try (destruct F as [F|[F|[F|[F|[F|F]]]]]; discriminate);
   try (destruct F as [F|F]; [rewrite X1 in F by lia; discriminate|discriminate]).
  auto.
Qed.

Lemma string_unterminated r off :
  (forall b rest, str_body b -> r <> b ++ 34%N :: rest) -> rejects X (34%N :: r) off.
Proof.
  intros N. apply rejects_iff. split; [discriminate|]. intros t rest T.
  apply quote_only in T as (w & -> & Ew & b & B & ->); auto.
  cbn [app] in Ew. inversion Ew as [E]. rewrite <- app_assoc in E. eapply N; eauto.
Qed.

(** ** C13 *)
Lemma raw_string_token n body rest off :
  first_at (34%N :: repeat 35%N n) body rest ->
  yields X (str "r" ++ repeat 35%N n ++ [34%N] ++ body ++ (34%N :: repeat 35%N n) ++ rest) off
    (Tk KStringRaw (off, off + (3 + 2 * n + blen body))) rest.
Proof.
  intros Fa. apply yields_at.
  replace (off + (3 + 2 * n + blen body))
    with (off + blen (str "r" ++ repeat 35%N n ++ [34%N] ++ body ++ 34%N :: repeat 35%N n)).
  - constructor; [now rewrite <- !app_assoc|]. unfold lexical. cbn [keyword_spelling symbol_spelling literal_token].
    exists n, body. auto.
  - change (34%N :: repeat 35%N n) with ([34%N] ++ repeat 35%N n). rewrite !blen_app, !blen_hashes. change (blen [34%N]) with 1.
    change (blen (str "r")) with 1. lia.
Qed.

(** ** C14 *)
Lemma char_token w rest off : char_literal w -> yields X (w ++ rest) off (Tk KCharacter (off, off + blen w)) rest.
Proof. intros C. apply yields_at. constructor; auto. Qed.

Lemma byte_token w rest off : char_literal w ->
  yields X (str "b" ++ w ++ rest) off (Tk KByte (off, off + blen (str "b" ++ w))) rest.
Proof. intros C. apply yields_at. constructor; [now rewrite <- app_assoc|]. exists w. auto. Qed.

Lemma lifetime_token i rest off :
  is_ident X i -> ident_stops X rest ->
  (forall w r, 39%N :: i ++ rest = w ++ r -> ~ char_literal w) ->
  yields X (39%N :: i ++ rest) off (Tk KLifetime (off, off + S (blen i))) rest.
Proof.
  intros I St N. apply yields_at.
  replace (off + S (blen i)) with (off + blen ([39%N] ++ i)).
  2: { rewrite !blen_app. change (blen [39%N]) with 1. lia. }
  constructor; [reflexivity|]. unfold lexical. cbn [keyword_spelling symbol_spelling]. split; [|eauto].
  intros k w r Ew L. change (([39%N] ++ i) ++ rest) with (39%N :: i ++ rest) in Ew.
  apply literal_token_first in L as F. destruct k; try contradiction.
  - eapply N; eauto.
  - destruct F as [q ->]. discriminate.
  - destruct F as [q [-> | ->]]; discriminate.
  - destruct F as [q ->]. discriminate.
  - destruct F as [q ->]. discriminate.
  - destruct F as [q [-> | ->]]; discriminate.
Qed.

(** ** C16 *)
Lemma forall_app4 {A} (P : A -> Prop) a b c d : Forall P (a ++ b ++ c ++ d) -> Forall P a /\ Forall P b /\ Forall P c /\ Forall P d.
Proof. rewrite !Forall_app. tauto. Qed.

Lemma count_zero w : count_char w 95%N = 0 <-> ~ In 95%N w.
Proof.
  unfold count_char. induction w as [|c w IH]; simpl; [tauto|].
  destruct (N.eqb_spec c 95); simpl; [split; [discriminate|intros H; exfalso; auto]|].
  rewrite IH. split; intros H; [intros [E|I]; auto|auto].
Qed.

Lemma into_simple_spec s off n rest w :
  number_token X s off n rest -> s = w ++ rest ->
  into_simple n = (if forallb (fun c => (48 <=? c) && (c <=? 57))%N w then Some (n_extent n) else None).
Proof.
  intros (rx & prefix & base & digits & frac & expo & suffix & Es & HR & NE & F & S & FP & EP & SP & ->) Ew.
  assert (w = prefix ++ digits ++ frac ++ expo ++ suffix) as ->.
  { apply app_inv_tail with (l := rest). rewrite <- Ew, Es, <- !app_assoc. reflexivity. }
  destruct (forallb (fun c => (48 <=? c) && (c <=? 57))%N (prefix ++ digits ++ frac ++ expo ++ suffix)) eqn:FB.
  - assert (FD : forall c, In c (prefix ++ digits ++ frac ++ expo ++ suffix) -> (48 <= c <= 57)%N).
    { intros c I. rewrite forallb_forall in FB. specialize (FB _ I). apply andb_true_iff in FB as [A B].
      apply N.leb_le in A. apply N.leb_le in B. lia. }
    assert (HRD : rx = RDecimal).
    { destruct HR as [I|(-> & _)]; auto. exfalso. unfold radix_prefixes in I. simpl in I.
      destruct I as [I|[I|[I|[]]]]; inversion I; subst prefix.
      - specialize (FD 98%N ltac:(simpl; tauto)). lia.
      - specialize (FD 120%N ltac:(simpl; tauto)). lia.
      - specialize (FD 111%N ltac:(simpl; tauto)). lia. }
    subst rx.
    assert (frac = []) as ->.
    { destruct FP as [[-> _]|(_ & ds & -> & _)]; auto. exfalso.
      specialize (FD 46%N ltac:(rewrite !in_app_iff; simpl; tauto)). lia. }
    assert (expo = []) as ->.
    { destruct EP as [[-> _]|(c & ds & -> & C & _)]; auto. exfalso.
      specialize (FD c ltac:(rewrite !in_app_iff; simpl; tauto)). lia. }
    assert (suffix = []) as ->.
    { destruct SP as [[-> _]|[I _]]; auto. exfalso. destruct suffix as [|c suffix]; [contradiction|].
      specialize (FD c ltac:(rewrite !in_app_iff; simpl; tauto)). destruct I as [[I|I] _]; [|lia].
      destruct XS as (X1 & _). rewrite X1 in I by lia. apply alpha_range in I. lia. }
    assert (count_char digits 95%N = 0) as Hc.
    { apply count_zero. intros I. specialize (FD 95%N ltac:(rewrite !in_app_iff; simpl; tauto)). lia. }
    unfold into_simple. cbn [n_radix n_fractional n_exponent n_type_suffix n_underscores n_extent part_extent]. rewrite Hc. reflexivity.
  - unfold into_simple. cbn [n_radix n_fractional n_exponent n_type_suffix n_underscores n_extent].
    destruct rx; auto. destruct frac; [|reflexivity]. destruct expo; [|reflexivity]. destruct suffix; [|reflexivity].
    cbn [part_extent]. destruct (count_char digits 95%N) eqn:Hc; auto. exfalso. apply count_zero in Hc.
    rewrite !app_nil_r in FB.
    assert (prefix = [] /\ base = 10%N) as [-> ->].
    { destruct HR as [I|(_ & A & B & _)]; auto. unfold radix_prefixes in I. simpl in I.
      destruct I as [I|[I|[I|[]]]]; inversion I. }
    cbn [app] in FB. assert (FT : forallb (fun c => (48 <=? c) && (c <=? 57))%N digits = true); [|congruence].
    apply forallb_forall. intros c I. rewrite Forall_forall in F. destruct (F c I) as [D|D].
    + apply digit10 in D. apply andb_true_iff. split; apply N.leb_le; lia.
    + subst. contradiction.
Qed.

(** ** C17 *)
Lemma ws_stops_ident c r : ws_char c -> ident_stops X (c :: r) /\ no_ident X (c :: r).
Proof.
  destruct XS as (X1 & X2 & X3 & X4 & X5 & X6). intros H. simpl.
  unfold ws_char in H. decompose [or] H; subst; repeat split; auto; try (rewrite X1 by lia; reflexivity);
   try (rewrite X2 by lia; reflexivity); discriminate.
Qed.

Lemma spaced_symbol_max k s c r :
  symbol_spelling k = Some s -> ws_char c ->
  no_comment (str s ++ c :: r) /\
  forall k' s', symbol_spelling k' = Some s' -> has_prefix (str s') (str s ++ c :: r) ->
                String.length s' <= String.length s.
Proof.
  intros Hk W.
  assert (HW : forall q x, str x = q ++ c :: [] ++ skipn (S (List.length q)) (str x) -> forallb (fun d => (33 <=? d)%N && (d <=? 127)%N) (str x) = true -> False).
  { intros q x E F. rewrite forallb_forall in F. specialize (F c ltac:(rewrite E; apply in_or_app; right; now left)).
    apply andb_true_iff in F as [F1 F2]. apply N.leb_le in F1. apply N.leb_le in F2.
    unfold ws_char in W. lia. }
  assert (FS : forallb (fun '(x, _) => forallb (fun d => (33 <=? d)%N && (d <=? 127)%N) (str x)) symbols = true) by (vm_compute; reflexivity).
  rewrite forallb_forall in FS.
  (* a prefix longer than s would contain the whitespace *)
  assert (P : forall p, has_prefix p (str s ++ c :: r) -> forallb (fun d => (33 <=? d)%N && (d <=? 127)%N) p = true -> List.length p <= List.length (str s)).
  { intros p [q E] F. destruct (Nat.le_gt_cases (List.length p) (List.length (str s))) as [|G]; auto. exfalso.
    assert (exists t, p = str s ++ t) as [t ->].
    { apply (prefix_comparable (str s) p (c :: r) q E). apply Nat.lt_le_incl. exact G. }
    rewrite <- app_assoc in E. apply app_inv_head in E. destruct t as [|d t].
    - rewrite app_nil_r in G. exact (Nat.lt_irrefl _ G).
    - inversion E; subst d. rewrite forallb_app in F. apply andb_true_iff in F as [_ F]. simpl in F.
      apply andb_true_iff in F as [F _]. apply andb_true_iff in F as [F1 F2]. apply N.leb_le in F1. apply N.leb_le in F2.
      unfold ws_char in W. lia. }
  split.
  - assert (NC : forallb (fun '(x, _) => negb (starts_with (str x) (str "//")) && negb (starts_with (str x) (str "/*"))) symbols = true)
      by (vm_compute; reflexivity).
    rewrite forallb_forall in NC. specialize (NC _ (symbol_in_table _ _ Hk)). cbv beta iota in NC.
    apply andb_true_iff in NC as [N1 N2]. apply negb_true_iff in N1. apply negb_true_iff in N2.
    assert (Q : forall p, starts_with (str s) p = false -> forallb (fun d => (33 <=? d)%N && (d <=? 127)%N) p = true -> ~ has_prefix p (str s ++ c :: r)).
    { intros p Hp F Pp. pose proof (P _ Pp F) as Lp. destruct Pp as [q E]. symmetry in E.
      destruct (prefix_comparable p (str s) q (c :: r) E Lp) as [t Et]. rewrite Et, starts_with_app in Hp. discriminate. }
    split; apply Q; auto.
  - intros k' s' Hk' Pp. rewrite <- !str_length. apply P; auto.
    exact (FS _ (symbol_in_table _ _ Hk')).
Qed.

(** No literal continues over a whitespace that follows an identifier. *)
Lemma ident_ws_no_literal w c r : is_ident X w -> ws_char c -> no_literal (w ++ c :: r).
Proof.
  intros I W. destruct XS as (X1 & X2 & _).
  assert (Q : forall d, (d = 34 \/ d = 35 \/ d = 39)%N -> xid_continue X d = false /\ xid_start X d = false /\ d <> c /\ d <> 95%N).
  { intros d D. unfold ws_char in W. destruct D as [-> | [-> | ->]]; rewrite X1, X2 by lia; repeat split; auto; lia. }
  destruct w as [|x w]; [contradiction|]. destruct I as [I F].
  apply no_literal_starts. unfold literal_starts.
  assert (W1 : c <> 98%N /\ c <> 114%N) by (unfold ws_char in W; lia).
  assert (S1 : forall d, (d = 34 \/ d = 35 \/ d = 39)%N -> starts_with ((x :: w) ++ c :: r) [d] = false).
  { intros d D. apply sw_neq. intros ->. destruct (Q _ D) as (A & B & _ & E). destruct I; congruence. }
  assert (S2 : forall a d, (d = 34 \/ d = 35 \/ d = 39)%N -> starts_with ((x :: w) ++ c :: r) [a; d] = false).
  { intros a d D. destruct (Q _ D) as (A & B & C & E). destruct (starts_with _ _) eqn:S; auto. exfalso.
    apply starts_with_spec in S as [t Et]. destruct w as [|y w]; cbn [app] in Et; inversion Et; subst; [congruence|].
    apply Forall_cons_iff in F as [F _]. congruence. }
  assert (S3 : forall a b d, b <> c -> (d = 34 \/ d = 35 \/ d = 39)%N -> starts_with ((x :: w) ++ c :: r) [a; b; d] = false).
  { intros a b d NB D. destruct (Q _ D) as (A & B & C & E). destruct (starts_with _ _) eqn:S; auto. exfalso.
    apply starts_with_spec in S as [t Et]. destruct w as [|y [|z w]]; cbn [app] in Et; inversion Et; subst; try congruence.
    apply Forall_cons_iff in F as [_ F]. apply Forall_cons_iff in F as [F _]. congruence. }
  repeat constructor.
  - apply S1; auto.
  - apply S1; auto.
  - apply (S2 114%N 34%N); auto.
  - apply (S2 114%N 35%N); auto.
  - apply (S2 98%N 39%N); auto.
  - apply (S2 98%N 34%N); auto.
  - apply (S3 98%N 114%N 34%N); [intros E; apply W1; auto|auto].
  - apply (S3 98%N 114%N 35%N); [intros E; apply W1; auto|auto].
Qed.

Lemma ident_ws_no_raw w c r : is_ident X w -> ws_char c -> ~ has_prefix (str "r#") (w ++ c :: r).
Proof.
  intros I W [t E]. destruct XS as (_ & X2 & _). destruct w as [|x [|y w]]; [contradiction| |]; cbn in E; inversion E; subst.
  - unfold ws_char in W. lia.
  - destruct I as [_ F]. apply Forall_cons_iff in F as [F _]. rewrite X2 in F; [discriminate|reflexivity].
Qed.

Lemma piece_step p sp rest off : piece_ok X p -> (exists c q, sp = c :: q /\ ws_char c) ->
  token_at X (piece_text p ++ sp ++ rest) off (piece_token p off) (sp ++ rest).
Proof.
  intros OK (c & q & -> & W). destruct (ws_stops_ident c (q ++ rest) W) as [St NI].
  destruct p as [k s|k s|w|w|w]; cbn [piece_ok piece_text piece_token] in *.
  - constructor; auto. unfold lexical. rewrite OK. auto.
  - constructor; auto. unfold lexical.
    assert (Ek : keyword_spelling k = None) by (destruct k; simpl in OK; inversion OK; reflexivity).
    rewrite Ek, OK. destruct (spaced_symbol_max k s c (q ++ rest) OK W). auto.
  - destruct OK as [I NK]. constructor; auto. unfold lexical. cbn [keyword_spelling symbol_spelling]. left.
    split; auto. split; auto. split; [now apply ident_ws_no_literal|]. split; auto. now apply ident_ws_no_raw.
  - change (39%N :: w) with ([39%N] ++ w). constructor; auto.
    unfold lexical. cbn [keyword_spelling symbol_spelling]. split; [|exists w; auto].
    intros k v t Ev L. apply literal_token_first in L as F.
    assert (HK : k = KCharacter).
    { destruct k; try contradiction; auto; exfalso.
      - destruct F as [z ->]. discriminate.
      - destruct F as [z [-> | ->]]; discriminate.
      - destruct F as [z ->]. discriminate.
      - destruct F as [z ->]. discriminate.
      - destruct F as [z [-> | ->]]; discriminate. }
    subst k. cbn [literal_token] in L. clear F.
    assert (NQ : forall z, w ++ c :: z <> [] /\ forall a b z', w ++ c :: z = a :: b :: z' -> b <> 39%N).
    { intros z. split; [destruct w; discriminate|]. intros a b z' E ->.
      destruct w as [|x [|y w]]; [contradiction| |]; cbn [app] in E; inversion E; subst.
      - unfold ws_char in W. lia.
      - destruct OK as [_ F]. apply Forall_cons_iff in F as [F _]. destruct XS as (_ & X2 & _).
        rewrite X2 in F; [discriminate|reflexivity]. }
    destruct L as [(a & Ha & ->)|(e & He & ->)].
    + cbn in Ev. inversion Ev as [Ev']. destruct (NQ (q ++ rest)) as [_ N]. eapply N; eauto.
    + cbn in Ev. inversion Ev as [Ev']. destruct w as [|x w]; [contradiction|]. cbn [app] in Ev'. inversion Ev'; subst.
      destruct OK as [[I|I] _]; [|discriminate]. destruct XS as (X1 & _). rewrite X1 in I; [discriminate|reflexivity].
  - destruct OK as [NE F]. apply at_number.
    exists RDecimal, [], 10%N, w, [], [], []. cbn [app part_extent]. rewrite !app_nil_r.
    assert (WN : ~ digit_or_underscore 10 c /\ c <> 46%N /\ c <> 101%N /\ c <> 69%N).
    { unfold digit_or_underscore. rewrite digit10. unfold ws_char in W. lia. }
    destruct WN as (W1 & W2 & W3 & W4).
    split; auto. split.
    { right. split; auto. split; auto. split; auto. split.
      - destruct w as [|d w]; [congruence|]. apply Forall_cons_iff in F as [F _]. exists d, (w ++ c :: q ++ rest). auto.
      - intros rx p b I (d & r & E & D).
        assert (HB : forall x, In x [98; 120; 111]%N -> w ++ c :: q ++ rest = 48%N :: x :: d :: r -> False).
        { intros x Hx E'. destruct w as [|a [|y w]]; [congruence| |]; cbn [app] in E'; inversion E'; subst.
          - unfold ws_char in W. simpl in Hx. lia.
          - apply Forall_cons_iff in F as [_ F]. apply Forall_cons_iff in F as [F _]. apply digit10 in F. simpl in Hx. lia. }
        unfold radix_prefixes in I. simpl in I. destruct I as [I|[I|[I|[]]]]; inversion I; subst; cbn in E.
        + apply (HB 98%N); simpl; auto.
        + apply (HB 120%N); simpl; auto.
        + apply (HB 111%N); simpl; auto. }
    split; auto. split.
    { eapply Forall_impl; [|exact F]. intros a Ha. now left. }
    split. { intros a r E. inversion E; subst. auto. }
    split. { left. split; auto. intros (r & E & _). inversion E; congruence. }
    split. { left. split; auto. intros (a & d & r & E & [A|A] & _); inversion E; congruence. }
    split. { left. auto. }
    cbn [blen]. rewrite Nat.add_0_r.
    assert (count_char w 95%N = 0) as ->; [|reflexivity].
    apply count_zero. intros I. rewrite Forall_forall in F. specialize (F _ I). apply digit10 in F. lia.
Qed.

Lemma piece_nonempty p : piece_ok X p -> piece_text p <> [].
Proof.
  destruct p as [k s|k s|w|w|w]; cbn [piece_ok piece_text]; try discriminate.
  - intros H. destruct (keyword_first _ _ H) as (c & r & -> & _). discriminate.
  - intros H E. destruct (symbol_first k s (str s) (str s) H) as (c & t & E' & _); auto.
    + exists []. now rewrite app_nil_r.
    + congruence.
  - intros [I _] ->. contradiction.
  - tauto.
Qed.

Lemma piece_first_not_ws p : piece_ok X p -> forall c r, piece_text p = c :: r -> ~ ws_char c.
Proof.
  intros OK c r E W.
  assert (T := piece_step p [c] [] 0 OK (ex_intro _ c (ex_intro _ [] (conj eq_refl W)))).
  rewrite E in T. cbn [app] in T.
  apply token_at_first in T as [(n & Et & B)|(k & w & Et & Ew & L & F)].
  - unfold ws_char in W. lia.
  - destruct p as [k' s|k' s|w'|w'|w']; cbn [piece_token piece_ok piece_text] in *; inversion Et; subst.
    + unfold first_of in F. rewrite OK in F. apply alpha_range in F. unfold ws_char in W. lia.
    + assert (Ek : keyword_spelling k = None) by (destruct k; simpl in OK; inversion OK; reflexivity).
      unfold first_of in F. rewrite Ek, OK in F.
      assert (FS : forallb (fun d => (33 <=? d)%N && (d <=? 127)%N) symbol_starts = true) by (vm_compute; reflexivity).
      rewrite forallb_forall in FS. specialize (FS _ F). apply andb_true_iff in FS as [F1 F2].
      apply N.leb_le in F1. apply N.leb_le in F2. unfold ws_char in W. lia.
    + destruct (ws_stops_ident c [] W) as [_ [A B]]. destruct F; congruence.
    + unfold first_of in F. cbn in F. unfold ws_char in W. lia.
Qed.

Lemma spaced_lexes ps : forall off,
  Forall (fun '(p, sp) => piece_ok X p /\ sp <> [] /\ Forall ws_char sp) ps ->
  lexes X (spaced ps) off (spaced_tokens ps off).
Proof.
  induction ps as [|[p sp] ps IH]; intros off F; cbn [spaced spaced_tokens]; [constructor|].
  apply Forall_cons_iff in F as [(OK & NE & W) F].
  assert (EX : snd (token_extent (piece_token p off)) = off + blen (piece_text p)).
  { destruct p; reflexivity. }
  econstructor.
  - pose proof (piece_nonempty p OK). destruct (piece_text p); [congruence|discriminate].
  - apply piece_step; auto. destruct sp as [|c q]; [congruence|]. apply Forall_cons_iff in W as [W _]. eauto.
  - rewrite EX. econstructor.
    + destruct sp; [congruence|discriminate].
    + constructor; [reflexivity|]. unfold lexical. cbn [keyword_spelling symbol_spelling]. split; auto. split; auto.
      intros c r E. destruct ps as [|[p' sp'] ps]; [discriminate|]. apply Forall_cons_iff in F as [(OK' & _) _].
      cbn [spaced] in E. pose proof (piece_nonempty p' OK'). destruct (piece_text p') as [|d t] eqn:Et; [congruence|].
      inversion E; subst. eapply piece_first_not_ws; eauto.
    + cbn [token_extent snd]. apply IH; auto.
Qed.

Lemma spaced_tokenize ps :
  Forall (fun '(p, sp) => piece_ok X p /\ sp <> [] /\ Forall ws_char sp) ps ->
  tokenize X (spaced ps) = TokOk (spaced_tokens ps 0).
Proof. intros F. apply tokenize_iff. now apply spaced_lexes. Qed.


(** ** C01 - C05, read off [tokenize_spec] *)
Lemma tokens_tile code ts : tokenize X code = TokOk ts ->
  exists init, ts = init ++ [Tk KEndOfFile (blen code, blen code)] /\
    contiguous 0 (map token_extent ts) (blen code) /\
    Forall (fun t => fst (token_extent t) < snd (token_extent t)) init /\
    exists contents, texts_of code ts contents /\ concat contents = code.
Proof.
  intros E. pose proof (tokenize_spec X code) as H. rewrite E in H.
  destruct H as (init & -> & C & NE & V & _). exists init. split; auto.
  assert (C2 : contiguous 0 (map token_extent (init ++ [Tk KEndOfFile (blen code, blen code)])) (blen code)).
  { rewrite map_app. revert C. generalize 0 as o. clear. induction init as [|t init IH]; intros o C; simpl in *.
    - subst. auto.
    - destruct C. auto. }
  split; auto. split; auto.
  destruct (contiguous_texts code _ 0 (blen code) [] C2 eq_refl (ex_intro _ code eq_refl) V) as (contents & rest & T & Ec & L).
  exists contents. split; auto. cbn [app] in Ec, L. rewrite Ec in L. rewrite blen_app in L.
  assert (rest = []) as ->; [|rewrite app_nil_r in Ec; auto].
  destruct rest as [|c r]; auto. simpl in L. pose proof (len_utf8_pos c). lia.
Qed.

Lemma eof_once code :
  (exists e, tokenize X code = TokErr e) \/
  (exists ts init, tokenize X code = TokOk ts /\ ts = init ++ [Tk KEndOfFile (blen code, blen code)] /\
     (forall e, ~ In (Tk KEndOfFile e) init) /\
     List.length ts <= List.length code + 1 /\
     (forall i t, nth_error ts i = Some t -> nth_call X i (tokens_new code) = NextOk t) /\
     (forall i, List.length ts <= i -> nth_call X i (tokens_new code) = NextNone)).
Proof.
  pose proof (tokenize_spec X code) as H. destruct (tokenize X code) as [ts|e|w] eqn:E; [right|left; eauto|contradiction].
  destruct H as (init & -> & _ & _ & _ & L & N1 & N2). do 2 eexists. split; [reflexivity|]. split; [reflexivity|].
  split; [|split; [exact L|split; [exact N1|exact N2]]]. intros e I. apply tokenize_iff in E.
  clear - I E XS. revert E. generalize 0 as off. generalize (blen code, blen code) as eo. revert I. revert code.
  induction init as [|t init IH]; intros code I eo off E; [contradiction|]. cbn [app] in E.
  apply lexes_step_inv in E as [(_ & E & _)|(NE & rest & T & L)]; [destruct init; discriminate|].
  destruct I as [-> |I]; [|eauto].
  inversion T as [k w r Es Lx|]; subst. unfold lexical in Lx. cbn in Lx. contradiction.
Qed.

Lemma extents_valid code ts : tokenize X code = TokOk ts ->
  forall t e, In t ts -> In e (token_extents t) -> valid_extent code e /\ exists w, slice code e = Some w.
Proof.
  intros E t e I Ie. pose proof (tokenize_spec X code) as H. rewrite E in H.
  destruct H as (init & -> & C & NE & V & _). rewrite Forall_forall in V. specialize (V t I).
  unfold tok_valid in V. rewrite Forall_forall in V. specialize (V e Ie). split; auto.
  destruct V as (Le & (a & b & E1 & L1) & (c & d & E2 & L2)). unfold slice. rewrite L2, E2, split_at_app.
  assert (exists t', c = a ++ t') as [t' ->].
  { assert (Hl : blen a <= blen c) by lia. clear - E1 E2 Hl. subst code. revert c E2 Hl.
    induction a as [|x a IH]; intros c E Hl; [eexists; reflexivity|].
    destruct c as [|y c]; [simpl in Hl; pose proof (len_utf8_pos x); lia|].
    cbn [app] in E. inversion E; subst. simpl in Hl. destruct (IH c H1 ltac:(lia)) as [t' ->]. exists t'; auto. }
  rewrite L1, split_at_app. eauto.
Qed.

Lemma no_panic code :
  (exists ts, tokenize X code = TokOk ts) \/
  (exists e, tokenize X code = TokErr e /\ boundary code (te_location e) /\ te_location e <= blen code /\ te_errors e <> []).
Proof.
  pose proof (tokenize_spec X code) as H. destruct (tokenize X code) as [ts|e|w] eqn:E; [left; eauto|right|contradiction].
  exists e. destruct H as (B & NE & _). split; auto. split; auto. split; auto.
  destruct B as (a & b & -> & ->). rewrite blen_app. lia.
Qed.

Lemma calls_never_panic code i : forall w, nth_call X i (tokens_new code) <> NextAbort w.
Proof.
  pose proof (tokenize_spec X code) as H. intros w.
  destruct (tokenize X code) as [ts|e|w'] eqn:E; [| |contradiction].
  - destruct H as (init & _ & _ & _ & _ & _ & N1 & N2). destruct (nth_error ts i) as [t|] eqn:Ei.
    + rewrite (N1 _ _ Ei). discriminate.
    + apply nth_error_None in Ei. rewrite (N2 _ Ei). discriminate.
  - destruct H as (_ & _ & n & _ & N1 & _ & N2). destruct (Nat.lt_ge_cases i n) as [L|L].
    + destruct (N1 _ L) as [t ->]. discriminate.
    + destruct (N2 _ L) as [t ->]. discriminate.
Qed.

Lemma error_permanent code i j e : nth_call X i (tokens_new code) = NextErr e -> i <= j ->
  exists e', nth_call X j (tokens_new code) = NextErr e'.
Proof.
  pose proof (tokenize_spec X code) as H. intros Ei L.
  destruct (tokenize X code) as [ts|e0|w'] eqn:E; [| |contradiction].
  - exfalso. destruct H as (init & _ & _ & _ & _ & _ & N1 & N2). destruct (nth_error ts i) as [t|] eqn:En.
    + rewrite (N1 _ _ En) in Ei. discriminate.
    + apply nth_error_None in En. rewrite (N2 _ En) in Ei. discriminate.
  - destruct H as (_ & _ & n & _ & N1 & _ & N2). apply N2.
    destruct (Nat.lt_ge_cases i n) as [L'|L']; [|lia]. destruct (N1 _ L') as [t Et]. congruence.
Qed.

(** ** C11 refuted *)
Lemma nested_comment_example :
  let w := str "/* /* */ */" in
  nested_block w /\ ~ exists k e, yields X w 0 (Tk k e) [].
Proof.
  cbv zeta. split.
  - change (str "/* /* */ */") with (str "/*" ++ (32%N :: ((str "/*" ++ [32%N] ++ str "*/") ++ [32%N])) ++ str "*/").
    constructor. apply nb_char; [discriminate|discriminate|]. apply nb_block.
    + constructor. apply nb_char; [discriminate|discriminate|constructor].
    + apply nb_char; [discriminate|discriminate|constructor].
  - intros (k & e & Y). apply yields_res in Y as (w & Ew & R); [|discriminate].
    assert (R' : res (single_token X) (mkPt (str "/* /* */ */") 0) =
       Success (mkPt (str " */") 8) (Tk KCommentBlock (0, 8))) by (vm_compute; reflexivity).
    rewrite R' in R. discriminate.
Qed.

Lemma unterminated_comment :
  let w := str "/* x" in
  free_of (str "*/") w /\ tokenize X w = TokOk [Tk KCommentBlock (0, 4); Tk KEndOfFile (4, 4)].
Proof.
  cbv zeta. split.
  - intros a b E. change (str "/* x") with [47; 42; 32; 120]%N in E. change (str "*/") with [42; 47]%N in E.
    repeat (destruct a as [|? a]; cbn [app] in E; [discriminate|apply cons_inj in E as [_ E]]).
    destruct a; discriminate.
  - vm_compute. reflexivity.
Qed.


Lemma into_simple_yields s off n rest w :
  yields X s off (TkNumber n) rest -> s = w ++ rest ->
  into_simple n = (if forallb (fun c => (48 <=? c) && (c <=? 57))%N w then Some (n_extent n) else None).
Proof. intros Y. apply into_simple_spec with (off := off). now apply yields_number. Qed.

Lemma keyword_sound s off k sp e rest :
  keyword_spelling k = Some sp -> yields X s off (Tk k e) rest ->
  s = str sp ++ rest /\ e = (off, off + blen (str sp)) /\ ident_stops X rest.
Proof.
  intros Hk Y. apply yields_token in Y as (w & -> & -> & L); auto. unfold lexical in L. rewrite Hk in L.
  destruct L as [-> St]. auto.
Qed.

Lemma comment_classes s off k e rest :
  comment_kind k ->
  (yields X s off (Tk k e) rest <-> exists w, s = w ++ rest /\ e = (off, off + blen w) /\
   match k with
   | KDocCommentOuterLine => has_prefix (str "///") w /\ ~ has_prefix (str "////") w /\ line_comment w rest
   | KDocCommentInnerLine => has_prefix (str "//!") w /\ line_comment w rest
   | KCommentLine => has_prefix (str "//") w /\ ~ has_prefix (str "//!") w /\
        (has_prefix (str "///") w -> has_prefix (str "////") w) /\ line_comment w rest
   | KDocCommentOuterBlock => block_comment (str "/**") w rest /\
        ~ has_prefix (str "/***") (w ++ rest) /\ ~ has_prefix (str "/**/") (w ++ rest)
   | KDocCommentInnerBlock => block_comment (str "/*!") w rest
   | _ => block_comment (str "/*") w rest /\ ~ has_prefix (str "/*!") w /\
        (has_prefix (str "/**") w -> has_prefix (str "/***") w \/ has_prefix (str "/**/") w)
   end).
Proof.
  intros C. rewrite yields_token by auto. unfold comment_kind in C. simpl in C.
  destruct C as [<-|[<-|[<-|[<-|[<-|[<-|[]]]]]]]; reflexivity.
Qed.

End S.

Lemma nested_comment_refuted : exists w, nested_block w /\
  forall X, ~ exists k e, yields X w 0 (Tk k e) [].
Proof.
  eexists. split; [apply (nested_comment_example ascii_xid)|]. intros X. apply (nested_comment_example X).
Qed.

Lemma unterminated_comment_accepted : exists w,
  has_prefix (str "/*") w /\ free_of (str "*/") w /\
  forall X, tokenize X w = TokOk [Tk KCommentBlock (0, blen w); Tk KEndOfFile (blen w, blen w)].
Proof.
  exists (str "/* x"). split; [exists (str " x"); reflexivity|].
  split; [apply (unterminated_comment ascii_xid)|]. intros X. apply (unterminated_comment X).
Qed.

(** To show [yields] on a literal, compute one step from the initial state. *)
Lemma yields_by_res X s off rest o t :
  res (single_token X) (mkPt s off) = Success (mkPt rest o) t -> s <> [] -> yields X s off t rest.
Proof.
  intros R NE. destruct (res_yields X _ _ _ _ R NE) as (w & Es & Eo & Y). cbn [p_s p_off] in *. subst o.
  exists w. auto.
Qed.
