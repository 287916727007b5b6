(** The tokens of two texts with a line end between them. *)

From Coq Require Import String List Arith NArith Bool Lia Sorted.
From Verif Require Import Base Peresil Token Tokenizer TokenizerSpec TokenizerLex TokenizerTop TokenizerWhole.
From Verif Require Import Schema Value Nt Grammar Points Table Typing Safety RunOk Apportion Lib FileToks Items Whitespace WhitespaceOk LibOk FileSpec Account.
From Verif Require Import Rel Layout Shift Cut.
Import ListNotations.
Local Open Scope string_scope.
Local Open Scope list_scope.
Local Open Scope nat_scope.

(** Kinds of block comments. *)
Definition block_kinds : list tkind := [KDocCommentOuterBlock; KDocCommentInnerBlock; KCommentBlock].

(** The token [t] of the text [A] (which starts at offset [o]) is not affected by a line that
    follows the text: it is not whitespace at its end, nor a block comment that the text leaves
    open, nor an identifier br with a hash behind it. *)
Definition settled (o : nat) (A : text) (t : token) : Prop :=
  forall before behind, A = before ++ behind -> fst (token_extent t) = o + blen before ->
  match t with
  | Tk k e =>
      (k = KWhitespace -> snd e < o + blen A) /\
      (In k block_kinds -> snd e = o + blen A -> exists b, behind = str "/*" ++ b ++ str "*/") /\
      (k = KIdent -> ~ has_prefix (str "br#") behind)
  | TkNumber _ => True
  end.

Section S.
Variable X : xid.
Hypothesis XS : xid_sane X.
Variable M : text.
Local Notation NL := (10%N :: M).

Lemma nl_ws : ws_char 10%N.
Proof. unfold ws_char. auto. Qed.

Lemma nl_stops : ident_stops X NL /\ no_ident X NL.
Proof. apply ws_stops_ident; [exact XS|exact nl_ws]. Qed.

Lemma nl_digit b : ~ digit_or_underscore b 10%N.
Proof. intros [(v & D & _)|D]; discriminate. Qed.

Lemma ident_stops_nl r : ident_stops X r -> ident_stops X (r ++ NL).
Proof. destruct r; [intros _; apply nl_stops|auto]. Qed.

Lemma no_ident_nl r : no_ident X r -> no_ident X (r ++ NL).
Proof. destruct r; [intros _; apply nl_stops|auto]. Qed.

Lemma app_split (a b c d : text) : a ++ b = c ++ d ->
  (exists t, c = a ++ t /\ b = t ++ d) \/ (exists x t, a = c ++ x :: t /\ d = x :: t ++ b).
Proof.
  intros E. destruct (Nat.le_gt_cases (List.length a) (List.length c)) as [L|G].
  - destruct (prefix_comparable _ _ _ _ E L) as [t ->]. left. exists t. split; auto.
    rewrite <- app_assoc in E. now apply app_inv_head in E.
  - symmetry in E. destruct (prefix_comparable _ _ _ _ E (Nat.lt_le_incl _ _ G)) as [t ->]. right.
    rewrite <- app_assoc in E. apply app_inv_head in E. destruct t as [|x t]; [rewrite app_nil_r in G; lia|]. eauto.
Qed.

Lemma prefix_stays m p s : ~ In 10%N p -> has_prefix p (s ++ 10%N :: m) -> has_prefix p s.
Proof.
  intros N [r E]. apply app_split in E as [(t & -> & E)|(x & t & -> & _)]; [|eexists; reflexivity].
  destruct t as [|x t]; [exists []; now rewrite !app_nil_r|]. injection E as <- _. exfalso. apply N. apply in_or_app. right. now left.
Qed.

Lemma prefix_goes p s : has_prefix p s -> has_prefix p (s ++ NL).
Proof. intros [r ->]. exists (r ++ NL). now rewrite app_assoc. Qed.

Lemma not_prefix p s : ~ In 10%N p -> ~ has_prefix p s -> ~ has_prefix p (s ++ NL).
Proof. intros N H P. apply H. eapply prefix_stays; eauto. Qed.

Lemma symbol_no_nl k s : symbol_spelling k = Some s -> ~ In 10%N (str s).
Proof. destruct k; cbn; try discriminate; intros [= <-]; cbn; intuition discriminate. Qed.

(** ** First occurrences *)

Lemma first_at_more p b r : first_at p b r -> forall r', first_at p b r'.
Proof.
  intros F r' a c E.
  destruct (Nat.le_gt_cases (List.length b) (List.length a)) as [|G]; [auto|]. exfalso.
  assert (exists t, b ++ p = (a ++ p) ++ t) as [t Et].
  { rewrite !app_assoc in E. destruct (app_split _ _ _ _ E) as [(t & Et & _)|(x & t & Et & _)]; [|eauto].
    apply (f_equal (@List.length _)) in Et. rewrite !app_length in Et. lia. }
  specialize (F a (t ++ r)). enough (b ++ p ++ r = a ++ p ++ t ++ r) as H by (apply F in H; lia).
  rewrite !app_assoc. rewrite Et. now rewrite <- !app_assoc.
Qed.

(** ** Literals *)

Lemma literal_shorter k w r : literal_token k w (r ++ NL) -> literal_token k w r.
Proof.
  destruct k; cbn [literal_token]; auto.
  - intros (n & b & -> & F). exists n, b. split; auto. eapply first_at_more; exact F.
  - intros (c & -> & n & b & -> & F). exists (str "r" ++ repeat 35%N n ++ [34%N] ++ b ++ [34%N] ++ repeat 35%N n).
    split; auto. exists n, b. split; auto. eapply first_at_more; exact F.
Qed.

Lemma literal_longer k w r : literal_token k w r -> literal_token k w (r ++ NL).
Proof.
  destruct k; cbn [literal_token]; auto.
  - intros (n & b & -> & F). exists n, b. split; auto. eapply first_at_more; exact F.
  - intros (c & -> & n & b & -> & F). exists (str "r" ++ repeat 35%N n ++ [34%N] ++ b ++ [34%N] ++ repeat 35%N n).
    split; auto. exists n, b. split; auto. eapply first_at_more; exact F.
Qed.

(** The first quote of a text. *)
Lemma first_quote b r : exists b1 r1, b ++ 34%N :: r = b1 ++ 34%N :: r1 /\ first_at [34%N] b1 r1.
Proof.
  induction b as [|c b (b1 & r1 & E & F)].
  - exists [], r. split; auto. intros a c E. cbn [List.length]. lia.
  - destruct (N.eq_dec c 34%N) as [->|NE].
    + exists [], (b ++ 34%N :: r). split; auto. intros a d E'. cbn [List.length]. lia.
    + exists (c :: b1), r1. split; [cbn [app]; now rewrite E|]. intros a d E'. destruct a as [|x a].
      * cbn [app] in E'. congruence.
      * cbn [app] in E'. injection E' as -> E'. apply F in E'. cbn [List.length]. lia.
Qed.

Lemma quote_text s off ts r : lexes X s off ts -> s = 34%N :: r ->
  exists w q, s = w ++ q /\ string_literal w.
Proof.
  intros L ->. inversion L as [|? ? t rest ts' _ T _]; subst.
  destruct (quote_only X XS _ _ _ _ _ eq_refl T) as (w & _ & E & S). eauto.
Qed.

Lemma apostrophe_text s off ts r : lexes X s off ts -> s = 39%N :: r ->
  (exists w q, s = w ++ q /\ char_literal w) \/ (exists c q, r = c :: q /\ (xid_start X c = true \/ c = 95%N)).
Proof.
  intros L ->. inversion L as [|? ? t rest ts' _ T _]; subst.
  apply token_at_first in T as [(n & _ & B)|(k & w & -> & Ew & Lx & F)]; [lia| |exact XS].
  unfold first_of in F. unfold lexical in Lx.
  destruct (keyword_spelling k) as [s|] eqn:Ek; [discriminate|].
  destruct (symbol_spelling k) as [s|] eqn:Es.
  { exfalso. assert (C : existsb (N.eqb 39) symbol_starts = true).
    { apply existsb_exists. exists 39%N. split; auto. }
    vm_compute in C. discriminate. }
  destruct XS as (X1 & _).
  destruct k; try discriminate; try contradiction; try lia; try (destruct F as [F|[F|[F|[F|[F|F]]]]]; discriminate);
   try (destruct F as [F|F]; [rewrite X1 in F by lia; discriminate|discriminate]).
  - left. eauto.
  - right. destruct Lx as (_ & i & -> & I & _). cbn [app] in Ew. injection Ew as ->.
    destruct i as [|c i]; [contradiction|]. destruct I as [I _]. cbn [app]. eauto.
Qed.

(** A character literal that continues over the end of a line does not start with an identifier. *)
Lemma char_over r t c q : char_literal ((39%N :: r) ++ 10%N :: t) -> r = c :: q -> (xid_start X c = true \/ c = 95%N) -> False.
Proof.
  intros [(d & ND & E)|(e & Es & E)] -> I.
  - cbn [app] in E. injection E as -> E. destruct q as [|? q]; [discriminate|]. injection E as _ E. destruct q; discriminate.
  - cbn [app] in E. injection E as -> E. destruct XS as (X1 & _). destruct I as [I|I]; [|discriminate]. rewrite X1 in I by lia. discriminate.
Qed.


Lemma word_end w rest c p d r : is_ident X w -> ident_stops X rest -> w ++ rest = (c :: p) ++ d :: r ->
  Forall (fun x => xid_continue X x = true) p -> xid_continue X d = false -> w = c :: p /\ rest = d :: r.
Proof.
  intros I S E F D. destruct (app_split _ _ _ _ E) as [([|x t] & Et & Er)|(x & t & -> & Er)].
  - rewrite app_nil_r in Et. auto.
  - rewrite Er in S. cbn [app ident_stops] in S. destruct w as [|y w]; [contradiction|]. cbn [app] in Et. injection Et as -> ->.
    apply Forall_app in F as [_ F]. inversion F; congruence.
  - injection Er as -> _. cbn [app is_ident] in I. destruct I as [_ I]. apply Forall_app in I as [_ I]. inversion I; congruence.
Qed.

Lemma not_continue d : (d = 34 \/ d = 35 \/ d = 39)%N -> xid_continue X d = false.
Proof. destruct XS as (_ & X2 & _). intros [->|[->| ->]]; rewrite X2 by lia; reflexivity. Qed.

Lemma ident_not d r rest : (d = 34 \/ d = 35 \/ d = 39)%N -> forall w, is_ident X w -> w ++ rest = d :: r -> False.
Proof.
  destruct XS as (X1 & _). intros D [|c w]; [contradiction|]. intros [I _] E. cbn [app] in E. injection E as -> _.
  destruct D as [->|[->| ->]]; destruct I as [I|I]; try discriminate; rewrite X1 in I by lia; discriminate.
Qed.

(** A literal in the longer text, where there is none in the shorter one, continues over the line end. *)
Lemma literal_over s k v r : no_literal s -> s ++ NL = v ++ r -> literal_token k v r -> exists t, v = s ++ 10%N :: t.
Proof.
  intros N E L. destruct (app_split _ _ _ _ E) as [([|x t] & -> & Er)|(x & t & -> & ->)].
  - exfalso. cbn [app] in Er. subst r. rewrite app_nil_r in L. apply (N k s []); [now rewrite app_nil_r|]. now apply literal_shorter.
  - injection Er as <- _. eauto.
  - exfalso. apply (N k v (x :: t)); [reflexivity|]. now apply literal_shorter.
Qed.

Lemma string_raw b q : exists w r, 34%N :: b ++ 34%N :: q = w ++ r /\ raw_string_literal (114%N :: w) r.
Proof.
  destruct (first_quote b q) as (b1 & r1 & E & F). exists (34%N :: b1 ++ [34%N]), r1. split.
  - cbn [app]. now rewrite <- app_assoc, E.
  - exists 0, b1. split; [reflexivity|exact F].
Qed.

Lemma ident_no_literal w rest off ts : is_ident X w -> ident_stops X rest -> lexes X rest off ts ->
  no_literal (w ++ rest) -> ~ has_prefix (str "r#") (w ++ rest) -> ~ has_prefix (str "br#") (w ++ rest) ->
  no_literal ((w ++ rest) ++ NL).
Proof.
  intros I S L N R BR k v r E T. destruct (literal_over _ _ _ _ N E T) as [t Ev].
  assert (P : forall p q, ~ In 10%N p -> v = p ++ q -> has_prefix p (w ++ rest)).
  { intros p q NI ->. eapply prefix_stays; [exact NI|]. exists q. symmetry. exact Ev. }
  assert (B1 : xid_continue X 114%N = true) by (destruct XS as (_ & X2 & _); rewrite X2 by lia; reflexivity).
  pose proof (literal_token_first _ _ _ T) as F. destruct k; try contradiction.
  - destruct F as [q F]. destruct (P [39%N] q) as [z Z]; [cbn; intuition discriminate|exact F|].
    eapply ident_not in Z; eauto.
  - destruct F as [q F]. destruct (P [34%N] q) as [z Z]; [cbn; intuition discriminate|exact F|].
    eapply ident_not in Z; eauto.
  - destruct F as [q [F|F]].
    + destruct (P [114%N; 34%N] q) as [z Z]; [cbn; intuition discriminate|exact F|].
      destruct (word_end _ _ 114%N [] 34%N z I S Z (Forall_nil _) (not_continue _ (or_introl eq_refl))) as [-> ->].
      destruct (quote_text _ _ _ _ L eq_refl) as (w1 & q1 & E1 & b & Sb & ->). cbn [app] in E1. rewrite <- app_assoc in E1. cbn [app] in E1.
      destruct (string_raw b q1) as (w2 & r2 & E2 & L2). apply (N KStringRaw (114%N :: w2) r2); [|exact L2].
      exact (f_equal (cons 114%N) (eq_trans E1 E2)).
    + apply R. eapply (P (str "r#")); [cbn; intuition discriminate|exact F].
  - destruct F as [q F]. destruct (P [98%N; 39%N] q) as [z Z]; [cbn; intuition discriminate|exact F|].
    destruct (word_end _ _ 98%N [] 39%N z I S Z (Forall_nil _) (not_continue _ (or_intror (or_intror eq_refl)))) as [-> ->].
    destruct T as (c & Ec & Tc). rewrite Ev in Ec. cbn in Ec. injection Ec as Ec. subst c.
    destruct (apostrophe_text _ _ _ _ L eq_refl) as [(w1 & q1 & E1 & L1)|(c & q1 & Ez & Ic)].
    + apply (N KByte (98%N :: w1) q1); [exact (f_equal (cons 98%N) E1)|]. exists w1. auto.
    + eapply (char_over z t); eauto.
  - destruct F as [q F]. destruct (P [98%N; 34%N] q) as [z Z]; [cbn; intuition discriminate|exact F|].
    destruct (word_end _ _ 98%N [] 34%N z I S Z (Forall_nil _) (not_continue _ (or_introl eq_refl))) as [-> ->].
    destruct (quote_text _ _ _ _ L eq_refl) as (w1 & q1 & E1 & L1).
    apply (N KByteString (98%N :: w1) q1); [exact (f_equal (cons 98%N) E1)|]. exists w1. auto.
  - destruct F as [q [F|F]].
    + destruct (P [98%N; 114%N; 34%N] q) as [z Z]; [cbn; intuition discriminate|exact F|].
      destruct (word_end _ _ 98%N [114%N] 34%N z I S Z (Forall_cons _ B1 (Forall_nil _)) (not_continue _ (or_introl eq_refl))) as [-> ->].
      destruct (quote_text _ _ _ _ L eq_refl) as (w1 & q1 & E1 & b & Sb & ->). cbn [app] in E1. rewrite <- app_assoc in E1. cbn [app] in E1.
      destruct (string_raw b q1) as (w2 & r2 & E2 & L2). apply (N KByteStringRaw (98%N :: 114%N :: w2) r2).
      { exact (f_equal (fun x => 98%N :: 114%N :: x) (eq_trans E1 E2)). }
      exists (114%N :: w2). auto.
    + apply BR. eapply (P (str "br#")); [cbn; intuition discriminate|exact F].
Qed.

Lemma lifetime_no_literal i rest : is_ident X i -> no_literal ((39%N :: i) ++ rest) -> no_literal (((39%N :: i) ++ rest) ++ NL).
Proof.
  intros I N k v r E T. destruct (literal_over _ _ _ _ N E T) as [t Ev]. pose proof (literal_token_first _ _ _ T) as F.
  destruct k; try contradiction; cbn [app] in Ev;
    try (destruct F as [q F]; first [destruct F as [F|F]; rewrite F in Ev; discriminate|rewrite F in Ev; discriminate]).
  rewrite Ev in T. destruct i as [|c i]; [contradiction|]. destruct I as [I _].
  eapply (char_over ((c :: i) ++ rest) t); [exact T|reflexivity|exact I].
Qed.

(** ** Tokens *)

Lemma block_nl opener w rest : block_comment opener w rest ->
  (rest = [] -> forall b, w = opener ++ b -> ~ free_of (str "*/") b) -> block_comment opener w (rest ++ NL).
Proof.
  intros [(b & -> & F)|(b & -> & -> & F)] C.
  - left. exists b. split; auto. eapply first_at_more; eauto.
  - exfalso. eapply C; eauto.
Qed.

Lemma line_nl w rest : line_comment w rest -> line_comment w (rest ++ NL).
Proof.
  intros [N [->|[r ->]]]; split; auto; right; [exists M|exists (r ++ NL)]; reflexivity.
Qed.

Lemma closed_not_free b : ~ free_of (str "*/") (b ++ str "*/").
Proof. intros F. apply (F b []). now rewrite app_nil_r. Qed.

Lemma lexical_nl k w rest off ts : lexical X k w rest -> lexes X rest off ts ->
  (k = KWhitespace -> rest <> []) ->
  (In k block_kinds -> rest = [] -> exists b, w = str "/*" ++ b ++ str "*/") ->
  (k = KIdent -> ~ has_prefix (str "br#") (w ++ rest)) ->
  lexical X k w (rest ++ NL).
Proof.
  unfold lexical. intros L LX WS BL BR.
  destruct (keyword_spelling k) as [s|] eqn:Ek.
  { destruct L as [-> S]. split; auto. now apply ident_stops_nl. }
  destruct (symbol_spelling k) as [s|] eqn:Es.
  { destruct L as (-> & [N1 N2] & Mx). rewrite app_assoc. split; auto. split.
    - split; apply not_prefix; auto; cbn; intuition discriminate.
    - intros k' s' E' P. eapply Mx; [exact E'|]. eapply prefix_stays; [eapply symbol_no_nl; exact E'|exact P]. }
  destruct k; try discriminate; try (now apply literal_longer).
  all: try (destruct L as (? & ? & L); split; [assumption|]; split; [assumption|]; apply line_nl; exact L).
  all: try (destruct L as (? & L); split; [assumption|]; apply line_nl; exact L).
  - destruct L as [(I & S & N & R & K)|(i & -> & I & S)].
    + left. rewrite app_assoc. split; [auto|]. split; [now apply ident_stops_nl|].
      split; [eapply ident_no_literal; eauto|]. split; [|exact K]. apply not_prefix; auto. cbn; intuition discriminate.
    + right. exists i. split; auto. split; auto. now apply ident_stops_nl.
  - destruct L as (N & F & S). split; [auto|]. split; [auto|]. intros c r E. destruct rest as [|d rest]; [now destruct WS|].
    cbn [app] in E. injection E as <- _. eapply S. reflexivity.
  - destruct L as (? & ? & ? & L). repeat (split; [assumption|]). apply line_nl; exact L.
  - destruct L as (L & P). split; [|exact P].
    apply block_nl; [exact L|]. intros -> b Ew. destruct (BL (or_intror (or_intror (or_introl eq_refl))) eq_refl) as [b2 E2].
    rewrite Ew in E2. apply app_inv_head in E2. subst. apply closed_not_free.
  - destruct L as (L & P1 & P2). rewrite !app_assoc. split; [|split; apply not_prefix; auto; cbn; intuition discriminate].
    apply block_nl; [exact L|]. intros -> b Ew. destruct (BL (or_introl eq_refl) eq_refl) as [b2 E2].
    rewrite app_nil_r in P2. rewrite Ew in E2. destruct b2 as [|x b2]; cbn in E2.
    + injection E2 as E2. exfalso. apply P2. exists []. rewrite Ew, E2. reflexivity.
    + injection E2 as _ ->. apply closed_not_free.
  - apply block_nl; [exact L|]. intros -> b Ew. destruct (BL (or_intror (or_introl eq_refl)) eq_refl) as [b2 E2].
    rewrite Ew in E2. destruct b2 as [|x b2]; cbn in E2; [discriminate|]. injection E2 as _ ->. apply closed_not_free.
  - destruct L as (N & i & -> & I & S). rewrite app_assoc. split.
    + apply (lifetime_no_literal i rest); auto.
    + exists i. split; auto. split; auto. now apply ident_stops_nl.
Qed.

Lemma digits_stop_nl base t : digits_stop base t -> digits_stop base (t ++ NL).
Proof.
  intros D c r E. destruct t as [|x t]; cbn [app] in E; injection E as <- _; [apply nl_digit|]. eapply D. reflexivity.
Qed.

Lemma fraction_nl t : fraction_starts X (t ++ NL) <-> fraction_starts X t.
Proof.
  split.
  - intros (r & E & NI & N). destruct t as [|x t]; [discriminate|]. cbn [app] in E. injection E as -> <-. exists t. split; auto.
    split; [destruct t; [exact I|exact NI]|]. intros P. apply N. now apply prefix_goes.
  - intros (r & -> & NI & N). exists (r ++ NL). split; auto. split; [now apply no_ident_nl|]. apply not_prefix; auto. cbn; intuition discriminate.
Qed.

Lemma exponent_nl t : exponent_starts (t ++ NL) -> exponent_starts t.
Proof.
  intros (c & d & r & E & C & D). destruct t as [|x [|y t]]; cbn [app] in E.
  - injection E as <- _. destruct C; discriminate.
  - injection E as _ <- _. exfalso. eapply nl_digit; eauto.
  - injection E as -> -> <-. exists c, d, t. auto.
Qed.

Lemma radix_nl p base s : ~ In 10%N p -> has_radix_prefix p base (s ++ NL) -> has_radix_prefix p base s.
Proof.
  intros N (d & r & E & D).
  destruct (prefix_stays M (p ++ [d]) s) as [q ->].
  - intros I. apply in_app_or in I as [I|[I|[]]]; [auto|]. subst d. eapply nl_digit; eauto.
  - exists r. rewrite <- app_assoc. exact E.
  - exists d, q. rewrite <- app_assoc. auto.
Qed.

Lemma number_nl s off n rest : number_token X s off n rest -> number_token X (s ++ NL) off n (rest ++ NL).
Proof.
  intros (rx & prefix & base & digits & frac & expo & suffix & E & R & D1 & D2 & D3 & F & P & S & ->).
  exists rx, prefix, base, digits, frac, expo, suffix.
  replace (frac ++ expo ++ suffix ++ rest ++ NL) with ((frac ++ expo ++ suffix ++ rest) ++ NL) by now rewrite !app_assoc.
  replace (expo ++ suffix ++ rest ++ NL) with ((expo ++ suffix ++ rest) ++ NL) by now rewrite !app_assoc.
  replace (suffix ++ rest ++ NL) with ((suffix ++ rest) ++ NL) by now rewrite !app_assoc.
  split; [rewrite E; now rewrite !app_assoc|]. split.
  { destruct R as [R|(-> & -> & -> & (c & r & Es & Dc) & N)]; [now left|]. right. repeat (split; [reflexivity|]). split.
    - exists c, (r ++ NL). rewrite Es. auto.
    - intros rx' p b I H. apply (N _ _ _ I). apply radix_nl; [|exact H].
      destruct I as [I|[I|[I|[]]]]; injection I as <- <- <-; cbn; intuition discriminate. }
  split; [exact D1|]. split; [exact D2|]. split; [now apply digits_stop_nl|]. split.
  { destruct F as [[-> F]|(F & ds & -> & Fd & Sd)].
    - left. split; auto. intros H. apply F. now apply fraction_nl.
    - right. split.
      + rewrite app_assoc. now apply fraction_nl.
      + exists ds. split; auto. split; auto. now apply digits_stop_nl. }
  split.
  { destruct P as [[-> P]|(c & ds & -> & C & Nd & Fd & Sd)].
    - left. split; auto. intros H. apply P. now apply exponent_nl.
    - right. exists c, ds. repeat (split; [assumption||reflexivity|]). now apply digits_stop_nl. }
  split; [|reflexivity].
  destruct S as [[-> S]|[I S]]; [left|right]; (split; [auto|]); [now apply no_ident_nl|now apply ident_stops_nl].
Qed.

(** ** Texts *)

Lemma settled_rest off w rest t : settled off (w ++ rest) t -> settled (off + blen w) rest t.
Proof.
  intros H before behind -> F. specialize (H (w ++ before) behind). rewrite blen_app in H. rewrite <- app_assoc in H.
  specialize (H eq_refl). rewrite Nat.add_assoc in H. specialize (H F). destruct t as [k e|n]; [|exact I].
  rewrite !blen_app in *. destruct H as (H1 & H2 & H3). repeat split; auto.
  - intros K. specialize (H1 K). lia.
  - intros K E. apply H2; auto. lia.
Qed.

Lemma token_nl A off t rest ts : token_at X A off t rest -> lexes X rest (snd (token_extent t)) ts -> settled off A t ->
  token_at X (A ++ NL) off t (rest ++ NL).
Proof.
  intros T L S. inversion T as [k w r E Lx|n r N]; subst.
  - constructor; [now rewrite app_assoc|]. specialize (S [] (w ++ rest) eq_refl). cbn [token_extent fst snd blen] in S.
    specialize (S (eq_sym (Nat.add_0_r off))). destruct S as (S1 & S2 & S3). rewrite blen_app in *.
    eapply lexical_nl; [exact Lx|exact L| | |].
    + intros K ->. specialize (S1 K). cbn [blen] in S1. lia.
    + intros K ->. cbn [blen] in S2. rewrite app_nil_r in S2. apply S2; auto; lia.
    + exact S3.
  - apply at_number. now apply number_nl.
Qed.

Lemma lexes_nl A off L : lexes X A off L -> forall ts e, L = ts ++ [Tk KEndOfFile e] -> Forall (settled off A) ts ->
  (forall tsM, lexes X NL (off + blen A) tsM -> lexes X (A ++ NL) off (ts ++ tsM)) /\
  (forall L2, lexes X (A ++ NL) off L2 -> exists tsM, L2 = ts ++ tsM /\ lexes X NL (off + blen A) tsM).
Proof.
  intros H. induction H as [off|A off t rest ts0 NE T L IH]; intros ts e E S.
  - destruct ts as [|t ts]; [|destruct ts; discriminate]. cbn [blen app]. rewrite Nat.add_0_r. split; eauto.
  - destruct (token_at_fine _ _ _ _ _ T) as (w & Ew & Et & _ & NK).
    destruct ts as [|t' ts]; [injection E as -> _; discriminate NK|]. cbn [app] in E. injection E as <- ->.
    inversion S as [|? ? St Sr]; subst.
    pose proof (token_nl _ _ _ _ _ T L St) as TN.
    destruct (IH ts e eq_refl) as [IH1 IH2].
    { rewrite Et. cbn [snd]. eapply Forall_impl; [|exact Sr]. intros u. apply settled_rest. }
    rewrite Et in IH1, IH2. cbn [snd] in IH1, IH2. rewrite blen_app, Nat.add_assoc. split.
    + intros tsM LM. cbn [app]. econstructor; [destruct w, rest; discriminate|exact TN|]. rewrite Et. apply IH1. exact LM.
    + intros L2 H2. inversion H2 as [|? ? t2 r2 l2 N2 T2 R2]; subst; [destruct w, rest; discriminate|].
      destruct (token_at_unique X XS _ _ _ _ _ _ TN T2) as [<- <-]. rewrite Et in R2. cbn [snd] in R2.
      destruct (IH2 _ R2) as (tsM & -> & LM). exists tsM. auto.
Qed.
End S.

(** Tokens at a later position. *)
Lemma token_later X d s off t rest : token_at X s off t rest -> token_at X s (d + off) (tmap (later d) id_nat t) rest.
Proof.
  intros H. inversion H as [k w r E L|n r N]; subst.
  - cbn [tmap]. unfold later. cbn [fst snd]. rewrite Nat.add_assoc. now constructor.
  - destruct N as (rx & prefix & base & digits & frac & expo & suffix & E & R & D1 & D2 & D3 & F & P & S & ->).
    apply at_number. exists rx, prefix, base, digits, frac, expo, suffix. repeat (split; [eassumption|]).
    unfold nmap. cbn [n_radix n_extent n_integral n_fractional n_exponent n_type_suffix n_underscores].
    rewrite <- !part_later. unfold later. cbn [fst snd]. unfold id_nat. rewrite <- ?Nat.add_assoc. reflexivity.
Qed.

Lemma lexes_later X d s off ts : lexes X s off ts -> lexes X s (d + off) (map (tmap (later d) id_nat) ts).
Proof.
  induction 1 as [off|s off t rest ts NE T L IH]; [constructor|]. cbn [map]. econstructor; [exact NE|exact (token_later _ d _ _ _ _ T)|].
  destruct t; exact IH.
Qed.

(** Whitespace that starts with a line end, in front of a text that does not start with whitespace. *)
Definition line_end (sp : text) : Prop := Forall ws_char sp /\ exists q, sp = 10%N :: q.
Definition flush (s : text) : Prop := forall c r, s = c :: r -> ~ ws_char c.

Lemma ws_step X sp B o ts : xid_sane X -> line_end sp -> flush B ->
  lexes X (sp ++ B) o ts <-> exists tsB, ts = Tk KWhitespace (o, o + blen sp) :: tsB /\ lexes X B (o + blen sp) tsB.
Proof.
  intros XS (F & q & E) FL.
  assert (T : token_at X (sp ++ B) o (Tk KWhitespace (o, o + blen sp)) B).
  { constructor; auto. split; [rewrite E; discriminate|]. split; [exact F|exact FL]. }
  split.
  - intros L. inversion L as [? E0|? ? t2 r2 l2 N2 T2 R2]; subst; [discriminate E0|].
    destruct (token_at_unique X XS _ _ _ _ _ _ T T2) as [<- <-]. eauto.
  - intros (tsB & -> & L). econstructor; [rewrite E; discriminate|exact T|exact L].
Qed.

Theorem join_lexes X A B sp ts e : xid_sane X ->
  tokenize X A = TokOk (ts ++ [Tk KEndOfFile e]) -> Forall (settled 0 A) ts -> line_end sp -> flush B ->
  forall L, tokenize X (A ++ sp ++ B) = TokOk L <->
    exists tsB, tokenize X B = TokOk tsB /\
      L = ts ++ Tk KWhitespace (blen A, blen (A ++ sp)) :: map (tmap (later (blen (A ++ sp))) id_nat) tsB.
Proof.
  intros XS TA S LE FL L. apply (tokenize_iff X XS) in TA. rewrite (tokenize_iff X XS). destruct LE as [F [q E]].
  assert (LE : line_end sp) by (split; eauto).
  destruct (lexes_nl X XS (q ++ B) A 0 _ TA ts e eq_refl S) as [H1 H2].
  replace (10%N :: q ++ B) with (sp ++ B) in H1, H2 by now rewrite E. rewrite blen_app. split.
  - intros H. destruct (H2 _ H) as (tsM & -> & LM). apply (ws_step X sp B) in LM as (tsB & -> & LB); auto.
    destruct (lexes_earlier X (blen A + blen sp) B _ _ LB 0) as (ts0 & L0 & ->); [cbn; lia|]. exists ts0.
    split; [now apply tokenize_iff|]. reflexivity.
  - intros (tsB & TB & ->). apply (tokenize_iff X XS) in TB. apply H1. apply ws_step; auto. eexists. split; [reflexivity|].
    apply (lexes_later X (blen A + blen sp)) in TB. rewrite Nat.add_0_r in TB. exact TB.
Qed.

(** ** Files behind layout *)

Lemma solid_app a b : solid (a ++ b) = solid a ++ solid b.
Proof. apply filter_app. Qed.

Lemma form_later n t : form_of (tmap (later n) id_nat t) = form_of t.
Proof. destruct t as [k e|[r e i f x s u]]; [reflexivity|]. destruct f, x, s; reflexivity. Qed.

Lemma joined_solid X A B sp ts e tsB : xid_sane X ->
  tokenize X A = TokOk (ts ++ [Tk KEndOfFile e]) -> Forall (settled 0 A) ts -> line_end sp -> flush B ->
  tokenize X B = TokOk tsB ->
  exists L, tokenize X (A ++ sp ++ B) = TokOk L /\
    L = (ts ++ [Tk KWhitespace (blen A, blen (A ++ sp))]) ++ map (tmap (later (blen (A ++ sp))) id_nat) tsB /\
    solid L = solid ts ++ map (tmap (later (blen (A ++ sp))) id_nat) (solid tsB).
Proof.
  intros XS TA S LE FL TB. eexists. split; [apply (join_lexes X A B sp ts e XS TA S LE FL); exists tsB; split; [exact TB|reflexivity]|].
  split; [now rewrite <- app_assoc|]. rewrite solid_app. f_equal. cbn [solid filter is_layout negb]. apply solid_later.
Qed.

Theorem behind_layout X A B sp ts e items ws : xid_sane X ->
  tokenize X A = TokOk (ts ++ [Tk KEndOfFile e]) -> Forall (settled 0 A) ts -> line_end sp -> flush B -> solid ts = [] ->
  parse_rust_file X B = FileOk (VNode "File" [VList items; VList ws]) ->
  exists ws', parse_rust_file X (A ++ sp ++ B) = FileOk (VNode "File" [VList (map (moved (blen (A ++ sp))) items); VList ws']) /\
    filter (fun w => blen (A ++ sp) <=? start_of w) ws' = map (moved (blen (A ++ sp))) ws.
Proof.
  intros XS TA ST LE FL SO PB. destruct (file_accepted X XS _ _ PB) as (ts0 & l & T0 & P0 & F0).
  destruct (file_shape X _ ts0 _ T0 PB) as (l' & items' & left & P0' & AP0 & EF). rewrite P0 in P0'. injection P0' as <-. injection EF as <- ->.
  destruct (joined_solid X A B sp ts e ts0 XS TA ST LE FL T0) as (L & T & EL & SL). rewrite SO in SL. cbn [app] in SL.
  remember (blen (A ++ sp)) as a eqn:Ea.
  assert (HT : map (tmap (er a) eu) (solid ts0) = skipn 0 (solid L)) by (cbn [skipn]; rewrite SL; reflexivity).
  assert (LN : S (List.length (solid ts0)) <= S (List.length (solid L))) by (rewrite SL, map_length; lia).
  pose proof (items_shift 0 a _ _ HT _ _ LN (new_master pt_zero Unambiguous) (new_master pt_zero Unambiguous) pt_zero eq_refl) as SH.
  unfold parse_items in P0. rewrite P0 in SH. change (sh 0 pt_zero) with pt_zero in SH.
  assert (SM : map (smap 0 a) l = map (moved a) l).
  { apply map_ext_in. intros x Ix. apply (smap_moved _ _ _ (TN "Attributed<Item>")); [reflexivity|].
    pose proof (fo_parsed _ _ _ _ _ F0) as FP. rewrite Forall_forall in FP. auto. }
  rewrite SM in SH.
  destruct (parsed_items X _ L _ XS T SH) as (f & PF).
  destruct (file_shape X _ L _ T PF) as (l' & items' & left' & P1 & AP1 & ->). unfold parse_items in P1. rewrite SH in P1. injection P1 as <-.
  rewrite (whitespace_map X _ ts0 XS T0) in AP0. rewrite (whitespace_map X _ L XS T) in AP1.
  assert (WS : from a (map entry (ws_entries L)) = moved_map a (map entry (ws_entries ts0))).
  { rewrite EL. unfold ws_entries. rewrite flat_map_app, map_app. unfold from. rewrite filter_app.
    change (flat_map (fun t => match whitespace_node t with Some w => [w] | None => [] end)) with ws_entries.
    change (filter (fun x => a <=? fst x)) with (from a).
    rewrite (from_none a (map entry (ws_entries (ts ++ _)))).
    - cbn [app]. rewrite ws_entries_later. apply from_all. apply Forall_forall. intros x Hx. unfold moved_map in Hx.
      apply in_map_iff in Hx as (y & <- & _). cbn [fst]. lia.
    - apply Forall_forall. intros x Hx. destruct (entries_keys _ _ Hx) as (u & Iu & _ & ->).
      destruct (tokens_tile _ _ _ T) as (init & TI & _ & NEi & _).
      pose proof T as T'. apply tokenize_iff in T'; [|exact XS]. destruct (lexes_fine _ _ _ _ T') as (_ & SS & _ & _).
      assert (HN : exists t0 r, ts0 = t0 :: r /\ fst (token_extent t0) = 0).
      { pose proof T0 as L0. apply tokenize_iff in L0; [|exact XS]. inversion L0 as [|? ? t0 rest r _ K _]; subst; [do 2 eexists; split; reflexivity|].
        destruct (token_at_fine _ _ _ _ _ K) as (w & _ & E & _). exists t0, r. rewrite E. auto. }
      destruct HN as (t0 & r & -> & Z).
      assert (fst (token_extent u) < snd (token_extent u)) as NE.
      { rewrite Forall_forall in NEi. apply NEi. rewrite EL in TI.
        assert (I2 : In u (removelast ((ts ++ [Tk KWhitespace (blen A, a)]) ++ map (tmap (later a) id_nat) (t0 :: r))))
          by (rewrite removelast_app by discriminate; apply in_app_iff; now left).
        rewrite TI, removelast_last in I2. exact I2. }
      assert (tok_le u (tmap (later a) id_nat t0)) as LE'.
      { rewrite EL in SS. cbn [map] in SS. clear - SS Iu. revert SS Iu. generalize (ts ++ [Tk KWhitespace (blen A, a)]). intros l SS Iu.
        induction l as [|y l IH]; [destruct Iu|]. cbn [app] in SS. inversion SS as [|? ? S1 S2]; subst.
        destruct Iu as [->|Iu]; [|auto]. rewrite Forall_forall in S2. apply S2, in_app_iff. right. now left. }
      unfold tok_le in LE'. assert (fst (token_extent (tmap (later a) id_nat t0)) = a + fst (token_extent t0)) as Q by (destruct t0; reflexivity). lia. }
  pose proof (fo_parsed _ _ _ _ _ F0) as TL.
  destruct (moved_list a _ _ _ _ _ TL WS AP0) as (m2' & AP3 & HM2). rewrite AP1 in AP3. injection AP3 as -> ->.
  exists (map snd m2'). split; [exact PF|].
  rewrite <- (map_filter_entries a left m2') by (now symmetry).
  unfold from. rewrite <- filter_map_entries; [reflexivity|]. intros x Ix. apply (ap_list_incl _ _ _ _ AP1) in Ix.
  apply in_map_iff in Ix as (w & <- & _). reflexivity.
Qed.

(** Rejected files. *)
Definition moved_outcome (n : nat) (r r' : file_result) : Prop :=
  match r, r' with
  | FileOk (VNode "File" [VList items; VList ws]), FileOk (VNode "File" [VList items'; VList ws']) =>
      items' = map (moved n) items /\ filter (fun w => n <=? start_of w) ws' = map (moved n) ws
  | FileErr l es, FileErr l' es' => l' = n + l /\ es' = es
  | FileTokErr _, FileTokErr _ => True
  | _, _ => False
  end.

Theorem front_layout X A B sp ts e : xid_sane X ->
  tokenize X A = TokOk (ts ++ [Tk KEndOfFile e]) -> Forall (settled 0 A) ts -> line_end sp -> flush B -> solid ts = [] ->
  moved_outcome (blen (A ++ sp)) (parse_rust_file X B) (parse_rust_file X (A ++ sp ++ B)).
Proof.
  intros XS TA ST LE FL SO. destruct (parse_rust_file X B) as [f|te|l es|w] eqn:PB.
  - destruct (file_accepted X XS _ _ PB) as (ts0 & l & T0 & _ & _).
    destruct (file_shape X _ ts0 _ T0 PB) as (l' & items & left & _ & _ & ->).
    destruct (behind_layout X A B sp ts e _ _ XS TA ST LE FL SO PB) as (ws' & -> & H). cbn. auto.
  - destruct (tokenize X (A ++ sp ++ B)) as [L|te'|w] eqn:T.
    + exfalso. apply (join_lexes X A B sp ts e XS TA ST LE FL) in T as (tsB & TB & _). unfold parse_rust_file in PB. rewrite TB in PB.
      destruct (partition_tokens tsB []). destruct (parse_items _); try discriminate. destruct (apportion _ _) as [[? [|]]|]; discriminate.
    + unfold parse_rust_file. rewrite T. exact I.
    + exfalso. apply (file_total X XS (A ++ sp ++ B) w). unfold parse_rust_file. now rewrite T.
  - destruct (tokenize X B) as [ts0|te|w] eqn:T0; [|unfold parse_rust_file in PB; rewrite T0 in PB; discriminate ..].
    destruct (joined_solid X A B sp ts e ts0 XS TA ST LE FL T0) as (L & T & _ & SL). rewrite SO in SL. cbn [app] in SL.
    assert (FE : map form_of (solid L) = map form_of (solid ts0)).
    { rewrite SL, map_map. apply map_ext. intros t. apply form_later. }
    pose proof (layout_outcome X _ _ _ _ XS T T0 FE) as O. rewrite PB in O. unfold same_outcome in O.
    destruct (parse_rust_file X (A ++ sp ++ B)) as [f|te|l1 es1|w]; try contradiction.
    destruct O as (-> & i & t1 & t2 & N1 & N2 & -> & ->). cbn [moved_outcome]. split; [|reflexivity].
    rewrite SL, nth_error_map, N2 in N1. cbn [option_map] in N1. injection N1 as <-. destruct t2; reflexivity.
  - exfalso. eapply file_total; eauto.
Qed.

(** Layout behind a file. *)
Theorem back_layout X A B sp ts e tsB : xid_sane X ->
  tokenize X A = TokOk (ts ++ [Tk KEndOfFile e]) -> Forall (settled 0 A) ts -> line_end sp -> flush B ->
  tokenize X B = TokOk (tsB ++ [Tk KEndOfFile (blen B, blen B)]) -> solid tsB = [] ->
  exists L, tokenize X (A ++ sp ++ B) = TokOk L /\ same_outcome (solid (ts ++ [Tk KEndOfFile e])) (solid L) (parse_rust_file X A) (parse_rust_file X (A ++ sp ++ B)).
Proof.
  intros XS TA ST LE FL TB SO. destruct (joined_solid X A B sp ts e _ XS TA ST LE FL TB) as (L & T & _ & SL).
  exists L. split; [exact T|]. apply layout_outcome; auto. rewrite SL, !solid_app, SO. cbn [app solid filter is_layout negb map]. rewrite !map_app. reflexivity.
Qed.
