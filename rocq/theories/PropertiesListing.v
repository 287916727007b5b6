(** C65: what the tokenizer program writes tells the tokens and the text.

    Read with: Listing.v ([tokenizer_output]: the standard output), Tools.v ([tokenizer_program]). *)

From Coq Require Import String Ascii List Bool Arith NArith Lia HexadecimalString HexadecimalN.
From Verif Require Import Base Token Tokenizer TokenizerSpec Schema Value Grammar Lib Accessors TokenMethods Tools Report Listing.
From Verif Require PropertiesReport PropertiesTokenMethods PropertiesTokenizer PropertiesDump.
Import ListNotations.
Local Open Scope string_scope.
Local Open Scope list_scope.
Local Open Scope nat_scope.

(** ** Words up to a given character *)
Lemma upto_inj (c : char) (w : text) : forall w' r r' : text, ~ In c w -> ~ In c w' -> w ++ c :: r = w' ++ c :: r' -> w = w' /\ r = r'.
Proof.
  induction w as [|a w IH]; intros [|a' w'] r r' N N' E; cbn [List.app] in E.
  - injection E as E. auto.
  - injection E as E1 E2. destruct N'. now left.
  - injection E as E1 E2. destruct N. now left.
  - injection E as <- E. destruct (IH w' r r') as [-> ->]; auto; intros I; [apply N|apply N']; now right.
Qed.

Definition all_digits : list char := [48; 49; 50; 51; 52; 53; 54; 55; 56; 57]%N.
Lemma digits_digits n c : In c (digits n) -> In c all_digits.
Proof.
  unfold digits. generalize (Nat.to_uint n). intros u. induction u; cbn; [easy| | | | | | | | | |]; intros [<-|I]; auto; cbn; tauto.
Qed.
Lemma no_digit n c : ~ In c all_digits -> ~ In c (digits n).
Proof. intros N I. apply N. eapply digits_digits; eauto. Qed.
Ltac nodigit := apply no_digit; cbn; intuition discriminate.
Lemma hex_no n c : ~ In c (all_digits ++ [97; 98; 99; 100; 101; 102])%N -> ~ In c (hex n).
Proof.
  intros N I. apply N. revert I. unfold hex. generalize (N.to_hex_uint n). intros u. clear N. induction u; cbn; [easy| | | | | | | | | | | | | | | |]; intros [<-|I]; auto 20; cbn; tauto.
Qed.
Lemma hex_inj n m : hex n = hex m -> n = m.
Proof.
  unfold hex. intros E. apply PropertiesDump.str_inj in E. apply (f_equal NilEmpty.uint_of_string) in E. rewrite !NilEmpty.usu in E. injection E as E.
  now apply Unsigned.to_uint_inj.
Qed.

(** ** Tokens *)
Lemma extent_debug_inj e e' r r' : extent_debug e ++ r = extent_debug e' ++ r' -> e = e' /\ r = r'.
Proof.
  unfold extent_debug. rewrite <- !app_assoc. intros E. apply app_inv_head in E. apply (upto_inj 44%N) in E as [E1 E]; [|nodigit|nodigit].
  injection E as E. apply (upto_inj 41%N) in E as [E2 E]; [|nodigit|nodigit]. apply PropertiesDump.digits_inj in E1, E2. destruct e, e'. cbn in *. subst. auto.
Qed.
Lemma option_debug_inj o o' r r' : option_debug o ++ r = option_debug o' ++ r' -> o = o' /\ r = r'.
Proof.
  destruct o as [e|], o' as [e'|]; cbn [option_debug]; rewrite <- ?app_assoc; intros E; try discriminate E.
  - apply app_inv_head in E. apply extent_debug_inj in E as [-> E]. apply app_inv_head in E. auto.
  - apply app_inv_head in E. auto.
Qed.
Lemma radix_word x : ~ In 40%N (str (radix_name x)).
Proof. destruct x; cbn; intuition discriminate. Qed.
Lemma radix_inj x y : radix_name x = radix_name y -> x = y.
Proof. destruct x, y; cbn; congruence. Qed.
Lemma number_debug_inj n n' r r' : number_debug n ++ r = number_debug n' ++ r' -> n = n' /\ r = r'.
Proof.
  destruct n as [x e i f p s u], n' as [x' e' i' f' p' s' u']. unfold number_debug. cbn [n_radix n_extent n_integral n_fractional n_exponent n_type_suffix n_underscores].
  rewrite <- !app_assoc. intros E. apply (upto_inj 40%N) in E as [E1 E]; auto using radix_word. apply PropertiesDump.str_inj, radix_inj in E1 as <-. do 3 apply app_inv_head in E.
  apply extent_debug_inj in E as [-> E]. apply app_inv_head in E. apply extent_debug_inj in E as [-> E]. apply app_inv_head in E.
  apply option_debug_inj in E as [-> E]. apply app_inv_head in E. apply option_debug_inj in E as [-> E]. apply app_inv_head in E. apply option_debug_inj in E as [-> E]. apply app_inv_head in E.
  apply (upto_inj 32%N) in E as [E1 E]; [|nodigit|nodigit]. apply PropertiesDump.digits_inj in E1 as <-. injection E as ->. auto.
Qed.

Lemma kind_words : forallb (fun k => negb (existsb (N.eqb 40) (str (kind_name k))) && match str (kind_name k) with [] => false | c :: _ => negb (N.eqb c 32) end && negb (String.eqb (kind_name k) "Number")) all_tkinds = true.
Proof. vm_compute. reflexivity. Qed.
Lemma kind_word k : ~ In 40%N (str (kind_name k)) /\ (exists c r, str (kind_name k) = c :: r /\ c <> 32%N) /\ kind_name k <> "Number".
Proof.
  pose proof kind_words as B. rewrite forallb_forall in B. specialize (B k ltac:(destruct k; cbn; tauto)).
  apply andb_true_iff in B as [B B3]. apply andb_true_iff in B as [B1 B2]. split; [|split].
  - intros I. apply negb_true_iff in B1. rewrite <- not_true_iff_false in B1. apply B1, existsb_exists. eauto using N.eqb_refl.
  - destruct (str (kind_name k)) as [|c r]; [discriminate|]. exists c, r. split; [reflexivity|]. intros ->. discriminate.
  - intros E. rewrite E in B3. discriminate.
Qed.

Lemma token_debug_inj t t' r r' : token_debug t ++ r = token_debug t' ++ r' -> t = t' /\ r = r'.
Proof.
  assert (NW : ~ In 40%N (str "Number")) by (cbn; intuition discriminate).
  assert (Q : forall n r, token_debug (TkNumber n) ++ r = str "Number" ++ 40%N :: number_debug n ++ str ")" ++ r) by (intros; cbn [token_debug]; now rewrite <- !app_assoc).
  assert (K : forall k e r, token_debug (Tk k e) ++ r = str (kind_name k) ++ 40%N :: extent_debug e ++ str ")" ++ r) by (intros; cbn [token_debug]; now rewrite <- !app_assoc).
  destruct t as [k e|n], t' as [k' e'|n']; rewrite ?K, ?Q; intros E.
  - apply upto_inj in E as [E1 E]; try apply kind_word. apply PropertiesDump.str_inj, PropertiesTokenMethods.kind_name_inj in E1 as <-.
    apply extent_debug_inj in E as [-> E]. apply app_inv_head in E. auto.
  - apply upto_inj in E as [E1 E]; [|apply kind_word|auto]. apply PropertiesDump.str_inj in E1. now apply kind_word in E1.
  - apply upto_inj in E as [E1 E]; [|auto|apply kind_word]. apply PropertiesDump.str_inj in E1. symmetry in E1. now apply kind_word in E1.
  - apply upto_inj in E as [_ E]; auto. apply number_debug_inj in E as [-> E]. apply app_inv_head in E. auto.
Qed.

Lemma token_debug_head t : exists c r, token_debug t = c :: r /\ c <> 32%N.
Proof.
  destruct t as [k e|n]; cbn [token_debug].
  - destruct (kind_word k) as (_ & (c & r & -> & N) & _). exists c. eexists. split; [reflexivity|auto].
  - eexists _, _. split; [reflexivity|discriminate].
Qed.
Lemma spaces_strip n : forall m (c c' : char) a b, c <> 32%N -> c' <> 32%N -> repeat 32%N n ++ c :: a = repeat 32%N m ++ c' :: b -> c :: a = c' :: b.
Proof.
  induction n as [|n IH]; intros [|m] c c' a b N N' E; cbn [repeat List.app] in E; auto.
  - injection E. congruence.
  - injection E. congruence.
  - injection E as E. eauto.
Qed.
Lemma pad_inj t t' r r' : pad30 (token_debug t) ++ r = pad30 (token_debug t') ++ r' -> t = t' /\ r = r'.
Proof.
  unfold pad30. rewrite <- !app_assoc. destruct (token_debug_head t) as (c & a & A & N), (token_debug_head t') as (c' & b & B & N'). intros E.
  apply token_debug_inj. rewrite A, B in *. cbn [List.app] in E |- *. eapply spaces_strip; eauto.
Qed.

(** ** Texts *)
Section Texts.
  Variable printable : char -> bool.
  Notation escaped := (escaped printable).

  Lemma escaped_cases c :
    (exists d, escaped c = [92%N; d] /\ (d = 34 /\ c = 34 \/ d = 92 /\ c = 92 \/ d = 110 /\ c = 10 \/ d = 114 /\ c = 13 \/ d = 116 /\ c = 9 \/ d = 48 /\ c = 0)%N) \/
    (escaped c = [c] /\ c <> 92%N /\ c <> 34%N /\ c <> 10%N) \/
    (escaped c = [92; 117; 123]%N ++ hex c ++ [125%N]).
  Proof.
    unfold Listing.escaped. repeat match goal with |- context [N.eqb c ?n] => destruct (N.eqb_spec c n) as [->|] end;
      try (left; eexists; split; [reflexivity|tauto]).
    right. destruct (printable c); [left|right]; auto.
  Qed.

  Lemma escaped_inj c c' r r' : escaped c ++ r = escaped c' ++ r' -> c = c' /\ r = r'.
  Proof.
    destruct (escaped_cases c) as [(d & -> & K)|[(-> & N & _)| ->]], (escaped_cases c') as [(d' & -> & K')|[(-> & N' & _)| ->]]; intros E; cbn [List.app] in E.
    - injection E as -> E. split; [|auto]. intuition congruence.
    - injection E as E1 E2. congruence.
    - injection E as E1 E2. exfalso. intuition congruence.
    - injection E as E1 E2. congruence.
    - injection E. auto.
    - injection E as E1 E2. congruence.
    - injection E as E1 E2. exfalso. intuition congruence.
    - injection E as E1 E2. congruence.
    - injection E as E. rewrite <- !app_assoc in E. apply (upto_inj 125%N) in E as [E1 E]; [|apply hex_no; cbn; intuition discriminate|apply hex_no; cbn; intuition discriminate].
      apply hex_inj in E1. auto.
  Qed.

  Lemma escaped_head c r : exists d b, escaped c ++ r = d :: b /\ d <> 34%N.
  Proof.
    destruct (escaped_cases c) as [(d & -> & K)|[(-> & _ & N & _)| ->]]; cbn [List.app]; eexists _, _; (split; [reflexivity|auto]); discriminate.
  Qed.

  Lemma escaped_texts_inj w : forall w' r r', flat_map escaped w ++ 34%N :: r = flat_map escaped w' ++ 34%N :: r' -> w = w' /\ r = r'.
  Proof.
    induction w as [|c w IH]; intros [|c' w'] r r' E; cbn [flat_map] in E; rewrite <- ?app_assoc in E.
    - cbn [List.app] in E. injection E. auto.
    - destruct (escaped_head c' (flat_map escaped w' ++ 34%N :: r')) as (d & b & H & N). rewrite H in E. cbn in E. congruence.
    - destruct (escaped_head c (flat_map escaped w ++ 34%N :: r)) as (d & b & H & N). rewrite H in E. cbn in E. congruence.
    - apply escaped_inj in E as [-> E]. apply IH in E as [-> ->]. auto.
  Qed.

  Lemma escaped_line c : ~ In 10%N (escaped c).
  Proof.
    destruct (escaped_cases c) as [(d & -> & K)|[(-> & _ & _ & N)| ->]].
    - intros [H|[H|[]]]; [discriminate|]. subst d. intuition discriminate.
    - intros [H|[]]. auto.
    - intros I. rewrite !in_app_iff in I. destruct I as [I|[I|I]]; [cbn in I; intuition discriminate| |cbn in I; intuition discriminate].
      revert I. apply hex_no. cbn. intuition discriminate.
  Qed.
  Lemma quoted_line w : ~ In 10%N (str_debug printable w).
  Proof.
    unfold str_debug. rewrite !in_app_iff, in_flat_map. intros [I|[(c & _ & I)|I]]; [cbn in I; intuition discriminate| |cbn in I; intuition discriminate].
    now apply escaped_line in I.
  Qed.

  Lemma escaped_longer c : len_utf8 c <= blen (escaped c).
  Proof.
    destruct (escaped_cases c) as [(d & -> & K)|[(-> & _)| ->]].
    - intuition (subst; cbn; lia).
    - cbn [blen]. lia.
    - rewrite !blen_app. cbn [blen]. assert (len_utf8 c <= 4) by (unfold len_utf8; repeat destruct (_ <? _)%N; lia).
      change (len_utf8 92%N) with 1. change (len_utf8 117%N) with 1. change (len_utf8 123%N) with 1. change (len_utf8 125%N) with 1. lia.
  Qed.
  Lemma quoted_longer w : blen w < blen (str_debug printable w).
  Proof.
    unfold str_debug. rewrite !blen_app. change (blen [34%N]) with 1. enough (blen w <= blen (flat_map escaped w)) by lia.
    induction w as [|c w IH]; cbn [flat_map]; [lia|]. rewrite blen_app. cbn [blen]. pose proof (escaped_longer c). lia.
  Qed.

  (** ** Lines *)
  Definition row_text (w : text) : text := if existsb (N.eqb newline) w then str_debug printable w else w.
  Lemma row_line w : ~ In 10%N (row_text w).
  Proof.
    unfold row_text. destruct (existsb (N.eqb newline) w) eqn:E; [apply quoted_line|]. intros I. rewrite <- not_true_iff_false in E. apply E, existsb_exists. exists 10%N. auto.
  Qed.
  Lemma row_inj w w' : blen w = blen w' -> row_text w = row_text w' -> w = w'.
  Proof.
    unfold row_text. intros L. destruct (existsb (N.eqb newline) w), (existsb (N.eqb newline) w'); intros E.
    - unfold str_debug in E. apply app_inv_head in E. now apply escaped_texts_inj in E as [-> _].
    - pose proof (quoted_longer w). rewrite E in H. lia.
    - pose proof (quoted_longer w'). rewrite <- E in H. lia.
    - auto.
  Qed.

  Fixpoint rows (i : nat) (l : list (token * text)) : text :=
    match l with [] => [] | (t, w) :: l' => token_line printable i t w (existsb (N.eqb newline) w) ++ rows (S i) l' end.
  Definition measured (x : token * text) : Prop := fst (token_extent (fst x)) + blen (snd x) = snd (token_extent (fst x)).

  Lemma line_head i t w q r : exists c b, token_line printable i t w q ++ r = c :: b /\ In c (32%N :: all_digits).
  Proof.
    unfold token_line. rewrite <- !app_assoc. destruct (digits i) as [|c d] eqn:E.
    - exists 32%N. eexists. split; [reflexivity|now left].
    - exists c. eexists. split; [reflexivity|]. right. apply (digits_digits i). rewrite E. now left.
  Qed.

  Lemma rows_inj l : forall i l', Forall measured l -> Forall measured l' -> rows i l = rows i l' -> l = l'.
  Proof.
    induction l as [|[t w] l IH]; intros i [|[t' w'] l'] F F' E; cbn [rows] in E.
    - reflexivity.
    - destruct (line_head i t' w' (existsb (N.eqb newline) w') (rows (S i) l')) as (c & b & H & _). rewrite H in E. discriminate.
    - destruct (line_head i t w (existsb (N.eqb newline) w) (rows (S i) l)) as (c & b & H & _). rewrite H in E. discriminate.
    - inversion F as [|? ? M Fl]; inversion F' as [|? ? M' Fl']; subst. unfold measured in M, M'. cbn [fst snd] in M, M'.
      unfold token_line in E. fold (row_text w) in E. fold (row_text w') in E. rewrite <- !app_assoc in E. do 2 apply app_inv_head in E. apply pad_inj in E as [-> E]. apply app_inv_head in E.
      apply (upto_inj 10%N) in E as [E1 E]; try exact (row_line w); try exact (row_line w'). apply row_inj in E1; [|lia]. subst w'. rewrite (IH (S i) l' Fl Fl' E). reflexivity.
  Qed.
End Texts.

Lemma listed_rows printable X code ts : tokenize X code = TokOk ts ->
  exists texts, List.length texts = List.length ts /\ concat texts = code /\ Forall measured (combine ts texts) /\
    tokenizer_output printable X code = rows printable 0 (combine ts texts).
Proof.
  intros T. destruct (PropertiesTokenizer.C01_tokens_tile X code ts T) as (init & _ & _ & _ & texts & F & C). exists texts.
  split; [symmetry; clear -F; induction F; cbn [List.length]; congruence|]. split; [auto|]. unfold tokenizer_output. cbn [tokenizer_program]. rewrite T. clear T C. unfold texts_of in F. split.
  - induction F as [|t w ts texts H F IH]; constructor; auto. unfold measured. cbn [fst snd]. unfold token_text, slice in H.
    destruct (split_at code (snd (token_extent t))) as [[h r]|] eqn:E1; [|discriminate]. destruct (split_at h (fst (token_extent t))) as [[a m]|] eqn:E2; [|discriminate].
    injection H as <-. apply split_at_inv in E1 as [_ ->]. apply split_at_inv in E2 as [-> ->]. now rewrite blen_app.
  - generalize 0 as i. induction F as [|t w ts texts H F IH]; intros i; [reflexivity|]. cbn [token_lines combine rows]. unfold token_text in H. rewrite H.
    specialize (IH (S i)). destruct (token_lines code (S i) ts) as [o e]. cbn [and_then fst] in *. rewrite <- IH. reflexivity.
Qed.

Lemma combine_inj {A B} (l : list A) : forall l' (m m' : list B), List.length m = List.length l -> List.length m' = List.length l' -> combine l m = combine l' m' -> l = l' /\ m = m'.
Proof.
  induction l as [|a l IH]; intros [|a' l'] [|b m] [|b' m'] L L' E; try discriminate; auto.
  cbn in E. injection E as -> -> E. cbn in L, L'. destruct (IH l' m m') as [-> ->]; auto.
Qed.

(** If a text is tokenized, no other text gives the same output, whether it is tokenized or
    not: from the output one can tell the text, and with it the tokens. *)
Theorem C65_listing : forall X, xid_sane X -> forall printable code ts code', tokenize X code = TokOk ts ->
  tokenizer_output printable X code = tokenizer_output printable X code' -> code = code'.
Proof.
  intros X XS printable code ts code' T E. destruct (listed_rows printable X code ts T) as (texts & L & C & M & R). rewrite R in E. clear R.
  destruct (PropertiesTokenizer.C02_eof_once X XS code') as [(e & T')|(ts' & _ & T' & _)].
  - exfalso. unfold tokenizer_output in E. rewrite T' in E. destruct (combine ts texts) as [|[t w] l]; [discriminate E|]. cbn [rows] in E.
    destruct (line_head printable 0 t w (existsb (N.eqb newline) w) (rows printable 1 l)) as (c & b & H & I). rewrite H in E. cbn in E. injection E as E _. subst c. cbn in I. intuition discriminate.
  - destruct (listed_rows printable X code' _ T') as (texts' & L' & C' & M' & R'). rewrite R' in E. apply rows_inj in E; auto. apply combine_inj in E as [_ <-]; auto. congruence.
Qed.

(** The tokens can be told even for two alphabets of identifiers. *)
Theorem C65_tokens : forall X X' printable code ts code' ts', tokenize X code = TokOk ts -> tokenize X' code' = TokOk ts' ->
  tokenizer_output printable X code = tokenizer_output printable X' code' -> ts = ts' /\ code = code'.
Proof.
  intros X X' printable code ts code' ts' T T' E. destruct (listed_rows printable X code ts T) as (texts & L & C & M & R), (listed_rows printable X' code' ts' T') as (texts' & L' & C' & M' & R').
  rewrite R, R' in E. apply rows_inj in E; auto. apply combine_inj in E as [-> <-]; auto. split; congruence.
Qed.

(** One line for each token: there are as many line ends as tokens, although the texts may
    have line ends. *)
Theorem C65_lines : forall X printable code ts, tokenize X code = TokOk ts ->
  count_char (tokenizer_output printable X code) 10%N = List.length ts.
Proof.
  intros X printable code ts T. destruct (listed_rows printable X code ts T) as (texts & L & _ & _ & ->).
  assert (CA : forall a b, count_char (a ++ b) 10%N = count_char a 10%N + count_char b 10%N) by (intros a b; induction a as [|x a IH]; [reflexivity|]; cbn [List.app count_char]; rewrite IH; lia).
  assert (C0 : forall a, ~ In 10%N a -> count_char a 10%N = 0).
  { intros a N. induction a as [|x a IH]; [reflexivity|]. cbn [count_char]. destruct (N.eqb_spec x 10) as [->|_]; [destruct N; now left|]. apply IH. intros I. apply N. now right. }
  assert (D : forall n, count_char (digits n) 10%N = 0) by (intros n; apply C0; nodigit).
  assert (Ex : forall e, count_char (extent_debug e) 10%N = 0) by (intros e; unfold extent_debug; rewrite !CA, !D; reflexivity).
  assert (Op : forall o, count_char (option_debug o) 10%N = 0) by (intros [e|]; [|reflexivity]; cbn [option_debug]; rewrite !CA, Ex; reflexivity).
  assert (Tk0 : forall t, count_char (token_debug t) 10%N = 0).
  { intros [k e|n]; cbn [token_debug].
    - rewrite !CA, Ex. destruct k; reflexivity.
    - unfold number_debug. rewrite !CA, !Ex, !Op, !D. destruct (n_radix n); reflexivity. }
  assert (Rp : forall n, count_char (repeat 32%N n) 10%N = 0) by (induction n; auto).
  clear T. revert texts L. generalize 0 as i. induction ts as [|t ts IH]; intros i [|w texts] L; try discriminate; [reflexivity|]. cbn [combine rows List.length].
  unfold token_line, pad30. pose proof (C0 _ (row_line printable w)) as RW. unfold row_text in RW.
  injection L as L. rewrite !CA, D, Rp, Tk0, IH by exact L. match goal with |- context [count_char ?a 10%N + count_char [10%N] 10%N] => change (count_char a 10%N) with (count_char (row_text printable w) 10%N) end.
  rewrite (C0 _ (row_line printable w)). reflexivity.
Qed.

(** ** Errors *)
Definition ends_name (c : char) : Prop := c = 40%N \/ c = 44%N \/ c = 125%N.
Lemma name_inj (w : text) : forall (w' r r' : text) c c', Forall (fun x => ~ ends_name x) w -> Forall (fun x => ~ ends_name x) w' -> ends_name c -> ends_name c' ->
  w ++ c :: r = w' ++ c' :: r' -> w = w' /\ c = c' /\ r = r'.
Proof.
  induction w as [|a w IH]; intros [|a' w'] r r' c c' F F' S S' E; cbn [List.app] in E.
  - injection E as -> ->. auto.
  - injection E as -> E. inversion F'; subst. contradiction.
  - injection E as -> E. inversion F; subst. contradiction.
  - injection E as -> E. inversion F; inversion F'; subst. destruct (IH w' r r' c c') as (-> & -> & ->); auto.
Qed.
Lemma escapes s : flat_map escape_debug s = flat_map (escaped (fun _ => true)) s.
Proof.
  induction s as [|c s IH]; [reflexivity|]. cbn [flat_map]. rewrite IH. reflexivity.
Qed.
Definition terror_word (e : terror) : text := match e with TLiteral _ => str "Literal" | _ => terror_debug e end.
Lemma terror_word_ok e : Forall (fun x => ~ ends_name x) (terror_word e).
Proof. unfold ends_name. destruct e; cbn; repeat (apply Forall_cons; [intuition discriminate|]); apply Forall_nil. Qed.

Lemma terror_debug_prefix e e' c c' r r' : c = 44%N \/ c = 125%N -> c' = 44%N \/ c' = 125%N -> terror_debug e ++ c :: r = terror_debug e' ++ c' :: r' -> e = e' /\ c :: r = c' :: r'.
Proof.
  intros C C' E.
  assert (K : forall e c r, c = 44%N \/ c = 125%N -> exists d b, ends_name d /\ terror_debug e ++ c :: r = terror_word e ++ d :: b /\
    match e with TLiteral s => d = 40%N /\ b = 34%N :: flat_map (escaped (fun _ => true)) s ++ 34%N :: 41%N :: c :: r | _ => d = c /\ b = r end).
  { clear. intros e c r C. assert (S : ends_name c) by (destruct C; subst; [right; now left|right; now right]). destruct e; try (exists c, r; repeat split; auto; fail).
    exists 40%N. eexists. split; [now left|]. split; [|split; reflexivity]. cbn [terror_debug terror_word]. rewrite <- !app_assoc, escapes. reflexivity. }
  destruct (K e c r C) as (d & b & S & Q & M), (K e' c' r' C') as (d' & b' & S' & Q' & M'). rewrite Q, Q' in E.
  apply name_inj in E as (W & <- & <-); auto using terror_word_ok. clear K Q Q'.
  destruct e, e'; try discriminate W; destruct M as [-> ->], M' as [M1 M2]; try (subst; split; reflexivity).
  injection M2 as M2. apply escaped_texts_inj in M2 as [-> M2]. injection M2 as -> ->. auto.
Qed.

Lemma commas_tail_inj l : forall l' (r r' : text), flat_map (fun y => str ", " ++ y) (map terror_debug l) ++ 125%N :: r = flat_map (fun y => str ", " ++ y) (map terror_debug l') ++ 125%N :: r' -> l = l' /\ r = r'.
Proof.
  assert (H : forall l (r : text), exists c b, (c = 44%N \/ c = 125%N) /\ flat_map (fun y => str ", " ++ y) (map terror_debug l) ++ 125%N :: r = c :: b).
  { clear. intros [|a l] r; [exists 125%N, r|eexists 44%N, _]; (split; [auto|reflexivity]). }
  induction l as [|a l IH]; intros [|a' l'] r r' E; cbn [map flat_map] in E; rewrite <- ?app_assoc in E.
  - injection E. auto.
  - discriminate E.
  - discriminate E.
  - apply app_inv_head in E. destruct (H l r) as (c & b & C & Q), (H l' r') as (c' & b' & C' & Q'). rewrite Q, Q' in E.
    apply terror_debug_prefix in E as [<- E]; auto. rewrite <- Q, <- Q' in E. apply IH in E as [-> ->]. auto.
Qed.
Lemma commas_inj l l' (r r' : text) : commas (map terror_debug l) ++ 125%N :: r = commas (map terror_debug l') ++ 125%N :: r' -> l = l' /\ r = r'.
Proof.
  destruct l as [|a l], l' as [|a' l']; cbn [map commas]; rewrite <- ?app_assoc; intros E.
  - injection E. auto.
  - destruct a'; discriminate E.
  - destruct a; discriminate E.
  - assert (E2 : flat_map (fun y => str ", " ++ y) (map terror_debug (a :: l)) ++ 125%N :: r = flat_map (fun y => str ", " ++ y) (map terror_debug (a' :: l')) ++ 125%N :: r')
      by (cbn [map flat_map]; rewrite <- !app_assoc; now rewrite E).
    now apply commas_tail_inj in E2.
Qed.

(** Two texts that are not tokenized and give the same output fail at the same place, where
    the same was expected. *)
Theorem C65_failure : forall X X' printable code code' e e', tokenize X code = TokErr e -> tokenize X' code' = TokErr e' ->
  (tokenizer_output printable X code = tokenizer_output printable X' code' <->
   te_location e = te_location e' /\ forall x, In x (te_errors e) <-> In x (te_errors e')).
Proof.
  intros X X' printable code code' e e' T T'. unfold tokenizer_output. rewrite T, T'. clear T T'. split.
  - intros E. apply app_inv_head, app_inv_tail in E. unfold detail_debug in E. apply app_inv_head in E. apply (upto_inj 44%N) in E as [E1 E]; [|nodigit|nodigit].
    apply PropertiesDump.digits_inj in E1. split; [exact E1|]. change (str ", errors: {") with (44%N :: str " errors: {") in E.
    injection E as E. apply commas_inj in E as [E _]. intros x.
    pose proof (PropertiesReport.set_in _ _ PropertiesReport.terror_spec PropertiesReport.terror_trans (te_errors e) x) as I.
    pose proof (PropertiesReport.set_in _ _ PropertiesReport.terror_spec PropertiesReport.terror_trans (te_errors e') x) as I'.
    rewrite E in I. etransitivity; [symmetry; exact I|exact I'].
  - intros [L S]. unfold detail_debug. rewrite L. rewrite (PropertiesReport.set_same _ _ PropertiesReport.terror_spec PropertiesReport.terror_irr PropertiesReport.terror_trans _ _ S). reflexivity.
Qed.

(** ** Examples *)
Definition out (code : text) : text := tokenizer_output (fun c => (32 <=? c) && (c <? 127))%N ascii_xid code.
Definition rows_of (l : list string) : text := flat_map (fun s => str s ++ [10%N]) l.
Example C65_ex : out (str "a" ++ [10]%N ++ str "/*" ++ [10; 7; 34]%N ++ str "*/1_0.5u8") = rows_of
  ["0            Ident(Extent(0, 1)) | a";
   "1       Whitespace(Extent(1, 2)) | ""\n""";
   "2     CommentBlock(Extent(2, 9)) | ""/*\n\u{7}\""*/""";
   "3 Number(Decimal(NumberDecimal { extent: Extent(9, 16), integral: Extent(9, 12), fractional: Some(Extent(12, 14)), exponent: None, type_suffix: Some(Extent(14, 16)), underscores: 1 })) | 1_0.5u8";
   "4      EndOfFile(Extent(16, 16)) | "].
Proof. vm_compute. reflexivity. Qed.

Example C65_ex_failure : out (str "a '") = rows_of ["failed to tokenize: ErrorDetail { location: 3, errors: {Literal(""\\""), ExpectedIdent, ExpectedCharacter} }"].
Proof. vm_compute. reflexivity. Qed.

(** The quotes do not matter: a text with a line end in it and the text that spells out the
    same escapes are told apart. *)
Example C65_ex_quotes : out ([34; 10; 34]%N) <> out ([34; 92; 110; 34]%N).
Proof. vm_compute. discriminate. Qed.

Print Assumptions C65_listing.
Print Assumptions C65_tokens.
Print Assumptions C65_lines.
Print Assumptions C65_failure.
