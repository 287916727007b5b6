(** Properties C01 - C17: the tokenizer.

    The vocabulary ([boundary], [valid_extent], [contiguous], [lexical],
    [number_token], [yields], [rejects], ...) is defined in TokenizerSpec.v and
    does not mention the tokenizer's own functions, except that [yields] and
    [rejects] describe one call of [Tokens::next] ([tokens_next]) and
    [nth_call] a sequence of calls.

    [X] stands for the Unicode XID tables of the unicode-xid crate; [xid_sane X]
    says what they say about ASCII and U+200E/U+200F. *)

From Coq Require Import String List NArith Arith Bool Lia.
From Verif Require Import Base Peresil Token Tokenizer TokenizerSpec TokenizerSafe TokenizerNum
  TokenizerIter TokenizerLex TokenizerTop TokenizerNumber TokenizerWhole.
Import ListNotations.

(** ** The tokenizer computes exactly the specified token list (used by all) *)
Theorem tokenize_exact : forall X, xid_sane X -> forall code ts,
  tokenize X code = TokOk ts <-> lexes X code 0 ts.
Proof. exact tokenize_iff. Qed.

Example tokenize_exact_ex : exists ts, tokenize ascii_xid (str "fn f<'a>(){1.0e3u8 // x") = TokOk ts /\
  lexes ascii_xid (str "fn f<'a>(){1.0e3u8 // x") 0 ts /\ List.length ts = 13.
Proof.
  eexists. split; [vm_compute; reflexivity|]. split; [|reflexivity].
  apply tokenize_exact; [apply ascii_xid_sane|vm_compute; reflexivity].
Qed.

(** ** C01 *)
Theorem C01_tokens_tile : forall X code ts, tokenize X code = TokOk ts ->
  exists init, ts = init ++ [Tk KEndOfFile (blen code, blen code)] /\
    contiguous 0 (map token_extent ts) (blen code) /\
    Forall (fun t => fst (token_extent t) < snd (token_extent t)) init /\
    exists contents, texts_of code ts contents /\ concat contents = code.
Proof. exact tokens_tile. Qed.

Example C01_ex : exists ts, tokenize ascii_xid (str "let x = 1;") = TokOk ts /\ List.length ts = 9.
Proof. eexists. split; vm_compute; reflexivity. Qed.

(** ** C02 *)
Theorem C02_eof_once : forall X, xid_sane X -> forall code,
  (exists e, tokenize X code = TokErr e) \/
  (exists ts init, tokenize X code = TokOk ts /\ ts = init ++ [Tk KEndOfFile (blen code, blen code)] /\
     (forall e, ~ In (Tk KEndOfFile e) init) /\
     List.length ts <= List.length code + 1 /\
     (forall i t, nth_error ts i = Some t -> nth_call X i (tokens_new code) = NextOk t) /\
     (forall i, List.length ts <= i -> nth_call X i (tokens_new code) = NextNone)).
Proof. exact eof_once. Qed.

Example C02_ex : nth_call ascii_xid 2 (tokens_new (str "a ")) = NextOk (Tk KEndOfFile (2, 2)) /\
                 nth_call ascii_xid 3 (tokens_new (str "a ")) = NextNone.
Proof. split; vm_compute; reflexivity. Qed.

(** ** C03 *)
Theorem C03_extents_valid : forall X code ts, tokenize X code = TokOk ts ->
  forall t e, In t ts -> In e (token_extents t) -> valid_extent code e /\ exists w, slice code e = Some w.
Proof. exact extents_valid. Qed.

Example C03_ex : exists ts n, tokenize ascii_xid (233%N :: nil) = TokErr n /\
  tokenize ascii_xid ([34; 233; 34]%N ++ str " 1.5e3f") = TokOk ts /\ List.length (flat_map token_extents ts) = 8.
Proof. do 2 eexists. split; [vm_compute; reflexivity|]. split; vm_compute; reflexivity. Qed.

(** ** C04 *)
Theorem C04_no_panic : forall X code,
  (exists ts, tokenize X code = TokOk ts) \/
  (exists e, tokenize X code = TokErr e /\ boundary code (te_location e) /\ te_location e <= blen code /\ te_errors e <> []).
Proof. exact no_panic. Qed.

Theorem C04_calls_never_panic : forall X code i w, nth_call X i (tokens_new code) <> NextAbort w.
Proof. exact calls_never_panic. Qed.

Example C04_ex : exists e, tokenize ascii_xid (str "a `") = TokErr e /\ te_location e = 2.
Proof. eexists. split; vm_compute; reflexivity. Qed.

(** ** C05 *)
Theorem C05_error_permanent : forall X code i j e,
  nth_call X i (tokens_new code) = NextErr e -> i <= j ->
  exists e', nth_call X j (tokens_new code) = NextErr e'.
Proof. exact error_permanent. Qed.

Example C05_ex : exists e, nth_call ascii_xid 2 (tokens_new (str "a `")) = NextErr e.
Proof. eexists. vm_compute. reflexivity. Qed.

(** ** C06 *)
Theorem C06_words_by_spelling : forall X, xid_sane X -> forall w rest off,
  is_ident X w -> ident_stops X rest -> no_literal (w ++ rest) -> ~ has_prefix (str "r#") (w ++ rest) ->
  exists k, yields X (w ++ rest) off (Tk k (off, off + blen w)) rest /\
    (k = KIdent \/ exists s, keyword_spelling k = Some s) /\
    (forall k' s', keyword_spelling k' = Some s' -> (k = k' <-> w = str s')) /\
    (k = KIdent <-> forall k' s', keyword_spelling k' = Some s' -> w <> str s').
Proof. exact word_class. Qed.

(** Conversely, a keyword token covers a whole word with that spelling. *)
Theorem C06_keyword_sound : forall X, xid_sane X -> forall s off k sp e rest,
  keyword_spelling k = Some sp -> yields X s off (Tk k e) rest ->
  s = str sp ++ rest /\ e = (off, off + blen (str sp)) /\ ident_stops X rest.
Proof. exact keyword_sound. Qed.

Example C06_ex :
  tokenize ascii_xid (str "fn fnx self") = TokOk
    [Tk KFn (0, 2); Tk KWhitespace (2, 3); Tk KIdent (3, 6); Tk KWhitespace (6, 7); Tk KSelfIdent (7, 11); Tk KEndOfFile (11, 11)] /\
  is_ident ascii_xid (str "fnx") /\ ident_stops ascii_xid (str " self") /\ no_literal (str "fnx" ++ str " self").
Proof.
  split; [vm_compute; reflexivity|]. split; [|split; [reflexivity|]].
  - simpl. split; [left; reflexivity|]. repeat constructor.
  - apply no_literal_starts. repeat constructor.
Qed.

(** ** C07 *)
Theorem C07_raw_identifier : forall X, xid_sane X -> forall i rest off,
  is_ident X i -> ident_stops X rest ->
  yields X (str "r#" ++ i ++ rest) off (Tk KIdent (off, off + blen (str "r#" ++ i))) rest.
Proof. exact raw_ident_token. Qed.

Theorem C07_raw_identifier_error : forall X, xid_sane X -> forall rest off,
  no_ident X rest -> (forall w r, str "r#" ++ rest = w ++ r -> ~ raw_string_literal w r) ->
  rejects X (str "r#" ++ rest) off.
Proof. exact raw_ident_error. Qed.

Example C07_ex : tokenize ascii_xid (str "r#fn") = TokOk [Tk KIdent (0, 4); Tk KEndOfFile (4, 4)] /\
  exists e, tokenize ascii_xid (str "r#+") = TokErr e.
Proof. split; [vm_compute; reflexivity|]. eexists. vm_compute. reflexivity. Qed.

(** ** C08 *)
Theorem C08_symbols_longest : forall X, xid_sane X -> forall s off,
  no_comment s -> (exists k sp, symbol_spelling k = Some sp /\ has_prefix (str sp) s) ->
  exists k sp rest, symbol_spelling k = Some sp /\ s = str sp ++ rest /\
    yields X s off (Tk k (off, off + String.length sp)) rest /\
    forall k' sp', symbol_spelling k' = Some sp' -> has_prefix (str sp') s -> String.length sp' <= String.length sp.
Proof. exact symbol_longest. Qed.

Example C08_ex : tokenize ascii_xid (str ">>==") = TokOk [Tk KShiftRightEquals (0, 3); Tk KEquals (3, 4); Tk KEndOfFile (4, 4)] /\
  no_comment (str ">>==").
Proof. split; [vm_compute; reflexivity|]. split; intros [r E]; discriminate. Qed.

(** ** C09 *)
Theorem C09_whitespace_maximal : forall X, xid_sane X -> forall s off e rest,
  yields X s off (Tk KWhitespace e) rest <->
  exists w, s = w ++ rest /\ e = (off, off + blen w) /\
    w <> [] /\ Forall ws_char w /\ (forall c r, rest = c :: r -> ~ ws_char c).
Proof. intros X XS s off e rest. exact (yields_token X XS s off KWhitespace e rest). Qed.

Theorem C09_whitespace_not_adjacent : forall X, xid_sane X -> forall code ts a b e1 e2,
  tokenize X code = TokOk ts -> ts = a ++ Tk KWhitespace e1 :: Tk KWhitespace e2 :: b -> False.
Proof. exact whitespace_not_adjacent. Qed.

Example C09_ex : tokenize ascii_xid (str "a" ++ [32; 8206; 10]%N ++ str "b") = TokOk
  [Tk KIdent (0, 1); Tk KWhitespace (1, 6); Tk KIdent (6, 7); Tk KEndOfFile (7, 7)].
Proof. vm_compute. reflexivity. Qed.

(** ** C10 *)
Theorem C10_comments : forall X, xid_sane X -> forall s off,
  has_prefix (str "//") s \/ has_prefix (str "/*") s ->
  exists k w rest, s = w ++ rest /\ comment_kind k /\ lexical X k w rest /\
    yields X s off (Tk k (off, off + blen w)) rest.
Proof. exact comment_token. Qed.

(** What [lexical] says about the six kinds: opener, and where it ends. *)
Theorem C10_comment_classes : forall X, xid_sane X -> forall s off k e rest,
  comment_kind k ->
  (yields X s off (Tk k e) rest <-> exists w, s = w ++ rest /\ e = (off, off + blen w) /\
   match k with
   | KDocCommentOuterLine => has_prefix (str "///") w /\ ~ has_prefix (str "////") w /\ line_comment w rest
   | KDocCommentInnerLine => has_prefix (str "//!") w /\ line_comment w rest
   | KCommentLine => has_prefix (str "//") w /\ ~ has_prefix (str "//!") w /\
        (has_prefix (str "///") w -> has_prefix (str "////") w) /\ line_comment w rest
   | KDocCommentOuterBlock => block_comment (str "/**") w rest /\
        ~ has_prefix (str "/***") (w ++ rest) /\ ~ has_prefix (str "/**/") (w ++ rest)
   | KDocCommentInnerBlock => block_comment (str "/*!") w rest
   | _ => block_comment (str "/*") w rest /\ ~ has_prefix (str "/*!") w /\
        (has_prefix (str "/**") w -> has_prefix (str "/***") w \/ has_prefix (str "/**/") w)
   end).
Proof. exact comment_classes. Qed.

Example C10_ex : tokenize ascii_xid (str "/**/ /// d") = TokOk
  [Tk KCommentBlock (0, 4); Tk KWhitespace (4, 5); Tk KDocCommentOuterLine (5, 10); Tk KEndOfFile (10, 10)].
Proof. vm_compute. reflexivity. Qed.

(** ** C11: false of this tokenizer *)
Theorem C11_block_comments_nest_refuted : exists w, nested_block w /\
  forall X, ~ exists k e, yields X w 0 (Tk k e) [].
Proof. exact nested_comment_refuted. Qed.

Theorem C11_unterminated_block_comment_accepted : exists w,
  has_prefix (str "/*") w /\ free_of (str "*/") w /\
  forall X, tokenize X w = TokOk [Tk KCommentBlock (0, blen w); Tk KEndOfFile (blen w, blen w)].
Proof. exact unterminated_comment_accepted. Qed.

(** ** C12 *)
Theorem C12_string : forall X, xid_sane X -> forall b rest off, str_body b ->
  yields X (34%N :: b ++ 34%N :: rest) off (Tk KString (off, off + S (S (blen b)))) rest.
Proof. exact string_token. Qed.

Theorem C12_string_unterminated : forall X, xid_sane X -> forall r off,
  (forall b rest, str_body b -> r <> b ++ 34%N :: rest) -> rejects X (34%N :: r) off.
Proof. exact string_unterminated. Qed.

Example C12_ex : str_body [97; 92; 34; 98]%N /\
  tokenize ascii_xid [34; 97; 92; 34; 98; 34; 99]%N = TokOk [Tk KString (0, 6); Tk KIdent (6, 7); Tk KEndOfFile (7, 7)] /\
  exists e, tokenize ascii_xid [34; 97; 92; 34; 98]%N = TokErr e.
Proof.
  split; [|split; [vm_compute; reflexivity|eexists; vm_compute; reflexivity]].
  apply sb_char; [discriminate|discriminate|]. apply sb_esc. apply sb_char; [discriminate|discriminate|constructor].
Qed.

(** ** C13 *)
Theorem C13_raw_string : forall X, xid_sane X -> forall n body rest off,
  first_at (34%N :: repeat 35%N n) body rest ->
  yields X (str "r" ++ repeat 35%N n ++ [34%N] ++ body ++ (34%N :: repeat 35%N n) ++ rest) off
    (Tk KStringRaw (off, off + (3 + 2 * n + blen body))) rest.
Proof. exact raw_string_token. Qed.

Theorem C13_raw_string_sound : forall X, xid_sane X -> forall s off e rest,
  yields X s off (Tk KStringRaw e) rest ->
  exists w, s = w ++ rest /\ e = (off, off + blen w) /\ raw_string_literal w rest.
Proof. intros X XS s off e rest. exact (proj1 (yields_token X XS s off KStringRaw e rest)). Qed.

Example C13_ex : tokenize ascii_xid (str "r#" ++ [34; 97; 34; 98; 34; 35]%N ++ str "c") =
  TokOk [Tk KStringRaw (0, 8); Tk KIdent (8, 9); Tk KEndOfFile (9, 9)].
Proof. vm_compute. reflexivity. Qed.

(** ** C14 *)
Theorem C14_char : forall X, xid_sane X -> forall w rest off, char_literal w ->
  yields X (w ++ rest) off (Tk KCharacter (off, off + blen w)) rest.
Proof. exact char_token. Qed.

Theorem C14_byte : forall X, xid_sane X -> forall w rest off, char_literal w ->
  yields X (str "b" ++ w ++ rest) off (Tk KByte (off, off + blen (str "b" ++ w))) rest.
Proof. exact byte_token. Qed.

Theorem C14_lifetime : forall X, xid_sane X -> forall i rest off,
  is_ident X i -> ident_stops X rest ->
  (forall w r, 39%N :: i ++ rest = w ++ r -> ~ char_literal w) ->
  yields X (39%N :: i ++ rest) off (Tk KLifetime (off, off + S (blen i))) rest.
Proof. exact lifetime_token. Qed.

Example C14_ex : tokenize ascii_xid (str "'a''ab") =
  TokOk [Tk KCharacter (0, 3); Tk KLifetime (3, 6); Tk KEndOfFile (6, 6)] /\
  char_literal (str "'a'").
Proof. split; [vm_compute; reflexivity|]. left. exists 97%N. split; [|reflexivity]. repeat split; discriminate. Qed.

(** ** C15 *)
Theorem C15_number_exact : forall X, xid_sane X -> forall s off n rest,
  yields X s off (TkNumber n) rest <-> number_token X s off n rest.
Proof. exact yields_number. Qed.

Theorem C15_number_exists : forall X s off,
  (exists c r, s = c :: r /\ digit_of 10 c) -> exists n rest, number_token X s off n rest.
Proof. exact number_exists. Qed.

Theorem C15_number_unique : forall X s off n rest n' rest',
  number_token X s off n rest -> number_token X s off n' rest' -> n = n' /\ rest = rest'.
Proof. exact number_unique. Qed.

Example C15_ex : tokenize ascii_xid (str "0x1_f.2e3u8 1..2 1.a") = TokOk
  [TkNumber (mkNumber RHexadecimal (0, 11) (2, 5) (Some (5, 9)) None (Some (9, 11)) 1); Tk KWhitespace (11, 12);
   TkNumber (mkNumber RDecimal (12, 13) (12, 13) None None None 0); Tk KDoublePeriod (13, 15);
   TkNumber (mkNumber RDecimal (15, 16) (15, 16) None None None 0); Tk KWhitespace (16, 17);
   TkNumber (mkNumber RDecimal (17, 18) (17, 18) None None None 0); Tk KPeriod (18, 19); Tk KIdent (19, 20);
   Tk KEndOfFile (20, 20)].
Proof. vm_compute. reflexivity. Qed.

(** ** C16 *)
Theorem C16_into_simple : forall X, xid_sane X -> forall s off n rest w,
  yields X s off (TkNumber n) rest -> s = w ++ rest ->
  into_simple n = (if forallb (fun c => (48 <=? c) && (c <=? 57))%N w then Some (n_extent n) else None).
Proof. exact into_simple_yields. Qed.

Example C16_ex : yields ascii_xid (str "12.") 0 (TkNumber (mkNumber RDecimal (0, 3) (0, 2) (Some (2, 3)) None None 0)) [] /\
  yields ascii_xid (str "12 ") 0 (TkNumber (mkNumber RDecimal (0, 2) (0, 2) None None None 0)) (str " ").
Proof.
  split; (eapply yields_by_res; [vm_compute; reflexivity|discriminate]).
Qed.

(** ** C17 *)
Theorem C17_spaced_spellings : forall X, xid_sane X -> forall ps,
  Forall (fun '(p, sp) => piece_ok X p /\ sp <> [] /\ Forall ws_char sp) ps ->
  tokenize X (spaced ps) = TokOk (spaced_tokens ps 0).
Proof. exact spaced_tokenize. Qed.

Example C17_ex : Forall (fun '(p, sp) => piece_ok ascii_xid p /\ sp <> [] /\ Forall ws_char sp)
  [(PKeyword KFn "fn", str " "); (PSymbol KShiftRightEquals ">>=", [10; 32]%N); (PLifetime (str "a"), str " ");
   (PInteger (str "42"), str " ")].
Proof.
  assert (W : forall sp, forallb (fun c => existsb (N.eqb c) [32; 10]%N) sp = true -> Forall ws_char sp).
  { intros sp H. apply Forall_forall. intros c I. rewrite forallb_forall in H. specialize (H _ I).
    apply existsb_exists in H as (d & Id & Ed). apply N.eqb_eq in Ed. unfold ws_char. simpl in Id. intuition congruence. }
  apply Forall_forall. intros [p sp] I. simpl in I.
  destruct I as [I|[I|[I|[I|[]]]]]; inversion I; subst; (split; [|split; [discriminate|apply W; reflexivity]]).
  - reflexivity.
  - reflexivity.
  - split; [left; reflexivity|constructor].
  - split; [discriminate|]. apply Forall_forall. intros c Ic. apply digit10. simpl in Ic. destruct Ic as [<-|[<-|[]]]; lia.
Qed.

Print Assumptions tokenize_exact.
Print Assumptions C01_tokens_tile.
Print Assumptions C02_eof_once.
Print Assumptions C03_extents_valid.
Print Assumptions C04_no_panic.
Print Assumptions C04_calls_never_panic.
Print Assumptions C05_error_permanent.
Print Assumptions C06_words_by_spelling.
Print Assumptions C06_keyword_sound.
Print Assumptions C07_raw_identifier.
Print Assumptions C07_raw_identifier_error.
Print Assumptions C08_symbols_longest.
Print Assumptions C09_whitespace_maximal.
Print Assumptions C09_whitespace_not_adjacent.
Print Assumptions C10_comments.
Print Assumptions C10_comment_classes.
Print Assumptions C11_block_comments_nest_refuted.
Print Assumptions C11_unterminated_block_comment_accepted.
Print Assumptions C12_string.
Print Assumptions C12_string_unterminated.
Print Assumptions C13_raw_string.
Print Assumptions C13_raw_string_sound.
Print Assumptions C14_char.
Print Assumptions C14_byte.
Print Assumptions C14_lifetime.
Print Assumptions C15_number_exact.
Print Assumptions C15_number_exists.
Print Assumptions C15_number_unique.
Print Assumptions C16_into_simple.
Print Assumptions C17_spaced_spellings.
