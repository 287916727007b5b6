(** The tokenizer: src/tokenizer.rs, function by function.

    [UnicodeXID::is_xid_start] and [is_xid_continue] (crate unicode-xid) are an
    explicit argument [X]: every theorem holds for any two predicates unless it
    states a hypothesis about them. *)

From Coq Require Import String List NArith Arith Bool Lia.
From Verif Require Import Base Peresil Token.
Import ListNotations.

(** Crate unicode-xid, used at src/tokenizer.rs:581,585. *)
Record xid : Type := mkXid { xid_start : char -> bool; xid_continue : char -> bool }.

(** src/tokenizer.rs:321-336 [enum Error]. *)
Inductive terror : Type :=
| TLiteral (s : text)
| TExpectedIdentOrKeyword
| TExpectedIdent
| TExpectedNumber
| TExpectedHex
| TExpectedWhitespace
| TExpectedComment
| TExpectedCharacter
| TUnterminatedRawString
| TRawIdentifierMissingIdentifier
| TInvalidFollowForFractionalNumber.

(** src/tokenizer.rs:338-347. *)
Definition t_recoverable (e : terror) : bool :=
  match e with
  | TRawIdentifierMissingIdentifier => false
  | _ => true
  end.

(** [peresil::StringPoint]: the remaining text and its offset; ordered by offset
    (src/tokenizer.rs:385). *)
Record spoint : Type := mkPt { p_s : text; p_off : nat }.
Definition sp_lt (a b : spoint) : bool := p_off a <? p_off b.
Definition sp_zero : spoint := mkPt [] 0.

(** src/tokenizer.rs:386-387. *)
Definition tmaster := master spoint terror unit.
Definition tparser (A : Type) := @parser spoint terror unit A.

Notation t_optional := (@optional spoint terror unit sp_lt t_recoverable _).
Notation t_alternate := (@alternate spoint terror unit sp_lt t_recoverable _).

Notation "x <- p ;; k" := (bind p (fun x => k)) (at level 61, p at next level, right associativity).
Notation "' pat <- p ;; k" := (bind p (fun pat => k))
  (at level 61, pat pattern, p at next level, right associativity).

(** src/tokenizer.rs:928-932 [ex]: the assertion is the panic. *)
Definition ex (spt pt : spoint) : option extent :=
  if p_off spt <=? p_off pt then Some (p_off spt, p_off pt) else None.

(** [|_, pt| f(ex(spt, pt))]: the result closure of most sequences. *)
Definition ret_ex {A} (spt : spoint) (f : extent -> A) : tparser A :=
  fun pm pt =>
    match ex spt pt with
    | Some e => (pm, Success pt (f e))
    | None => (pm, Abort Panicked)
    end.

(** [StringPoint::consume_to] (peresil): split the remaining text at a byte
    offset; [str::split_at] panics off a boundary. *)
Definition consume_to (o : option nat) (err : terror) : tparser text :=
  fun pm pt =>
    match o with
    | None => (pm, Failure pt err)
    | Some i =>
        match split_at (p_s pt) i with
        | Some (h, t) => (pm, Success (mkPt t (p_off pt + i)) h)
        | None => (pm, Abort Panicked)
        end
    end.

(** src/tokenizer.rs:919-926 [literal], with [StringPoint::consume_literal]. *)
Definition literal (expected : text) : tparser extent :=
  fun pm spt =>
    (if starts_with (p_s spt) expected
     then bind (consume_to (Some (blen expected)) (TLiteral expected))
               (fun _ => ret_ex spt (fun e => e))
     else fun pm pt => (pm, Failure pt (TLiteral expected))) pm spt.

(** src/tokenizer.rs:934-946 [split_point_at_non_zero_offset]. *)
Definition split_point_at_non_zero_offset (idx : nat) (e : terror) : tparser (text * extent) :=
  fun pm pt =>
    if idx =? 0 then (pm, Failure pt e)
    else match split_at (p_s pt) idx with
         | Some (matched, tail) =>
             let end_ := p_off pt + idx in
             (pm, Success (mkPt tail end_) (matched, (p_off pt, end_)))
         | None => (pm, Abort Panicked)
         end.

(** [char::is_digit(radix)] (Rust core), for radix <= 16. *)
Definition is_digit (radix : N) (c : char) : bool :=
  (if (48 <=? c) && (c <=? 57) then c - 48 <? radix
   else if (97 <=? c) && (c <=? 102) then c - 87 <? radix
   else if (65 <=? c) && (c <=? 70) then c - 55 <? radix
   else false)%N%bool.

Definition underscore : char := 95%N.
Definition newline : char := 10%N.
Definition quote : text := [34%N].
Definition backslash : char := 92%N.
Definition dquote : char := 34%N.
Definition hash : char := 35%N.

Section WithXid.
  Variable X : xid.

  (** src/tokenizer.rs:576-592 [ident_len]. *)
  Definition ident_len (s : text) : nat :=
    match s with
    | [] => 0
    | c :: r =>
        if xid_start X c || N.eqb c underscore
        then len_utf8 c + take_while_len (xid_continue X) r
        else 0
    end.

  (** src/tokenizer.rs:571-574 [simple_ident]. *)
  Definition simple_ident : tparser extent :=
    fun pm pt =>
      map_p (split_point_at_non_zero_offset (ident_len (p_s pt)) TExpectedIdent) snd pm pt.

  (** src/tokenizer.rs:528-567: the keyword spellings. *)
  Definition keywords : list (string * tkind) :=
  [("as"%string, KAs);
   ("async"%string, KAsync);
   ("auto"%string, KAuto);
   ("box"%string, KBox);
   ("break"%string, KBreak);
   ("const"%string, KConst);
   ("continue"%string, KContinue);
   ("crate"%string, KCrate);
   ("default"%string, KDefault);
   ("dyn"%string, KDyn);
   ("else"%string, KElse);
   ("enum"%string, KEnum);
   ("extern"%string, KExtern);
   ("fn"%string, KFn);
   ("for"%string, KFor);
   ("if"%string, KIf);
   ("impl"%string, KImpl);
   ("in"%string, KIn);
   ("let"%string, KLet);
   ("loop"%string, KLoop);
   ("match"%string, KMatch);
   ("mod"%string, KMod);
   ("move"%string, KMove);
   ("mut"%string, KMut);
   ("pub"%string, KPub);
   ("ref"%string, KRef);
   ("return"%string, KReturn);
   ("self"%string, KSelfIdent);
   ("static"%string, KStatic);
   ("struct"%string, KStruct);
   ("trait"%string, KTrait);
   ("type"%string, KType);
   ("use"%string, KUse);
   ("union"%string, KUnion);
   ("unsafe"%string, KUnsafe);
   ("where"%string, KWhere);
   ("while"%string, KWhile)].

  Fixpoint lookup_keyword (tbl : list (string * tkind)) (s : text) : tkind :=
    match tbl with
    | [] => KIdent
    | (w, k) :: r => if text_eqb s (str w) then k else lookup_keyword r s
    end.

  (** src/tokenizer.rs:515-569 [keyword_or_ident]; [&pt.s[2..]] after
      [starts_with("r#")] is a split at byte 2. *)
  Definition keyword_or_ident : tparser token :=
    fun pm pt =>
      if starts_with (p_s pt) (str "r#") then
        match split_at (p_s pt) 2 with
        | None => (pm, Abort Panicked)
        | Some (_, rest) =>
            let idx := ident_len rest in
            if idx =? 0 then (pm, Failure pt TRawIdentifierMissingIdentifier)
            else map_p (split_point_at_non_zero_offset (2 + idx) TExpectedIdentOrKeyword)
                       (fun '(_, e) => Tk KIdent e) pm pt
        end
      else
        map_p (split_point_at_non_zero_offset (ident_len (p_s pt)) TExpectedIdentOrKeyword)
              (fun '(s, e) => Tk (lookup_keyword keywords s) e) pm pt.

  (** src/tokenizer.rs:672-686 [number_digits]. *)
  Definition number_digits (radix : N) : tparser (extent * nat) :=
    fun pm pt =>
      let p c := is_digit radix c || N.eqb c underscore in
      let idx := take_while_len p (p_s pt) in
      map_p (split_point_at_non_zero_offset idx TExpectedNumber)
            (fun '(s, e) => (e, count_char s underscore)) pm pt.

  (** src/tokenizer.rs:658-670 [number_fractional]. *)
  Definition number_fractional (radix : N) : tparser extent :=
    spt <- point ;;
    _ <- literal (str ".") ;;
    _ <- not (peek (literal (str "."))) TInvalidFollowForFractionalNumber ;;
    _ <- not (peek simple_ident) TInvalidFollowForFractionalNumber ;;
    _ <- t_optional (number_digits radix) ;;
    ret_ex spt (fun e => e).

  (** src/tokenizer.rs:646-656 [number_base], yielding the fields of
      [NumberDetailsPartial] (622-626) and the variant of [NumberPartial]. *)
  Definition number_base (prefix : text) (radix : N) (v : Token.radix)
    : tparser (Token.radix * extent * option extent * nat) :=
    _ <- literal prefix ;;
    '(integral, underscores) <- number_digits radix ;;
    fractional <- t_optional (number_fractional radix) ;;
    ret (v, integral, fractional, underscores).

  (** src/tokenizer.rs:637-644 [number_value]. *)
  Definition number_value : tparser (Token.radix * extent * option extent * nat) :=
    t_alternate
      [number_base (str "0b") 2 RBinary;
       number_base (str "0x") 16 RHexadecimal;
       number_base (str "0o") 8 ROctal;
       number_base (str "") 10 RDecimal].

  (** src/tokenizer.rs:696-708. *)
  Definition number_exponent_lowercase : tparser extent :=
    _ <- literal (str "e") ;; '(value, _) <- number_digits 10 ;; ret value.
  Definition number_exponent_uppercase : tparser extent :=
    _ <- literal (str "E") ;; '(value, _) <- number_digits 10 ;; ret value.

  (** src/tokenizer.rs:689-694 [number_exponent]. *)
  Definition number_exponent : tparser extent :=
    t_alternate [number_exponent_lowercase; number_exponent_uppercase].

  (** src/tokenizer.rs:628-635 [number], 601-619 [NumberPartial::finish]. *)
  Definition number_p : tparser number :=
    spt <- point ;;
    '(v, integral, fractional, underscores) <- number_value ;;
    exponent <- t_optional number_exponent ;;
    type_suffix <- t_optional simple_ident ;;
    ret_ex spt (fun e => mkNumber v e integral fractional exponent type_suffix underscores).

  (** src/tokenizer.rs:712-714. *)
  Definition is_ws (c : char) : bool :=
    (N.eqb c 32 || N.eqb c 9 || N.eqb c 13 || N.eqb c 10 || N.eqb c 8206 || N.eqb c 8207)%N.

  (** src/tokenizer.rs:710-717 [whitespace]. *)
  Definition whitespace : tparser extent :=
    fun pm pt =>
      map_p (split_point_at_non_zero_offset (take_while_len is_ws (p_s pt)) TExpectedWhitespace)
            snd pm pt.

  (** [pt.s.find('\n').unwrap_or_else(|| pt.s.len())]. *)
  Definition line_end (s : text) : nat :=
    match find_char s newline with Some n => n | None => blen s end.

  (** [pt.s[k..].find("*/").map(|x| k + x + 2).unwrap_or_else(|| pt.s.len())];
      the slice panics off a boundary. *)
  Definition block_end (k : nat) (s : text) : option nat :=
    match split_at s k with
    | None => None
    | Some (_, r) =>
        Some (match find_str r (str "*/") with Some x => k + x + 2 | None => blen s end)
    end.

  (** [spt.consume_to(Some(eol))] followed by building the token. *)
  Definition comment_token (k : tkind) (eol : option nat) : tparser token :=
    fun pm spt =>
      match eol with
      | None => (pm, Abort Panicked)
      | Some i => bind (consume_to (Some i) TExpectedComment)
                       (fun _ => ret_ex spt (fun e => Tk k e)) pm spt
      end.

  (** src/tokenizer.rs:719-748 [comment_or_doc_comment]. *)
  Definition comment_or_doc_comment : tparser token :=
    fun pm pt =>
      let s := p_s pt in
      let sw p := starts_with s (str p) in
      if sw "///"%string && negb (sw "////"%string) then comment_token KDocCommentOuterLine (Some (line_end s)) pm pt
      else if sw "//!"%string then comment_token KDocCommentInnerLine (Some (line_end s)) pm pt
      else if sw "//"%string then comment_token KCommentLine (Some (line_end s)) pm pt
      else if sw "/**"%string && negb (sw "/***"%string) && negb (sw "/**/"%string)
           then comment_token KDocCommentOuterBlock (block_end 3 s) pm pt
      else if sw "/*!"%string then comment_token KDocCommentInnerBlock (block_end 3 s) pm pt
      else if sw "/*"%string then comment_token KCommentBlock (block_end 2 s) pm pt
      else (pm, Failure pt TExpectedComment).

  (** src/tokenizer.rs:805-811 [hex_string]. *)
  Definition hex_string : tparser text :=
    fun pm pt =>
      let idx := take_while_len (is_digit 16) (p_s pt) in
      consume_to (if idx =? 0 then None else Some idx) TExpectedHex pm pt.

  (** src/tokenizer.rs:788-794 [escaped_char_hex]. *)
  Definition escaped_char_hex : tparser extent :=
    spt <- point ;; _ <- literal (str "x") ;; _ <- hex_string ;; ret_ex spt (fun e => e).

  (** src/tokenizer.rs:796-803 [escaped_char_unicode]. *)
  Definition escaped_char_unicode : tparser extent :=
    spt <- point ;;
    _ <- literal (str "u{") ;; _ <- hex_string ;; _ <- literal (str "}") ;;
    ret_ex spt (fun e => e).

  (** src/tokenizer.rs:774-786 [escaped_char_code]. *)
  Definition escaped_char_code : tparser extent :=
    t_alternate
      [literal (str "n"); literal (str "r"); literal (str "t"); literal [backslash];
       literal (str "'"); literal quote; literal (str "0");
       escaped_char_hex; escaped_char_unicode].

  (** src/tokenizer.rs:766-772 [escaped_char]; the returned [&str] (never used)
      is modelled as its extent. *)
  Definition escaped_char : tparser extent :=
    spt <- point ;; _ <- literal [backslash] ;; _ <- escaped_char_code ;; ret_ex spt (fun e => e).

  (** src/tokenizer.rs:813-825 [single_char]; the returned [&str] (never used)
      is modelled as its extent. *)
  Definition single_char : tparser extent :=
    fun pm pt =>
      match p_s pt with
      | c :: r => let i := len_utf8 c in
                  (pm, Success (mkPt r (p_off pt + i)) (p_off pt, p_off pt + i))
      | [] => (pm, Failure pt TExpectedCharacter)
      end.

  (** src/tokenizer.rs:759-764 [character_char]. *)
  Definition character_char : tparser extent := t_alternate [escaped_char; single_char].

  (** src/tokenizer.rs:750-757 [character]. *)
  Definition character : tparser extent :=
    spt <- point ;;
    _ <- literal (str "'") ;; _ <- character_char ;; _ <- literal (str "'") ;;
    ret_ex spt (fun e => e).

  (** src/tokenizer.rs:843-853: the loop of [string_char]: byte offset of the
      first unescaped quote, or the length of the text. *)
  Fixpoint string_scan (escaped : bool) (s : text) : nat :=
    match s with
    | [] => 0
    | c :: r =>
        if escaped then len_utf8 c + string_scan false r
        else if N.eqb c backslash then len_utf8 c + string_scan true r
        else if N.eqb c dquote then 0
        else len_utf8 c + string_scan false r
    end.

  (** src/tokenizer.rs:836-854 [string_char]; [split_at] may panic. *)
  Definition string_char : tparser text :=
    fun pm pt =>
      let i := string_scan false (p_s pt) in
      match split_at (p_s pt) i with
      | Some (h, t) => (pm, Success (mkPt t (p_off pt + i)) h)
      | None => (pm, Abort Panicked)
      end.

  (** src/tokenizer.rs:827-834 [string]. *)
  Definition string_p : tparser extent :=
    spt <- point ;;
    _ <- literal quote ;; _ <- string_char ;; _ <- literal quote ;;
    ret_ex spt (fun e => e).

  (** src/tokenizer.rs:866-885 [raw_string_tail]. *)
  Definition raw_string_tail (hashes : nat) : tparser text :=
    fun pm pt =>
      let s := quote ++ repeat hash hashes in
      match find_str (p_s pt) s with
      | Some end_ =>
          match split_at (p_s pt) end_ with
          | Some (content, quote_tail) =>
              match split_at quote_tail (blen s) with
              | Some (_, tail) => (pm, Success (mkPt tail (p_off pt + end_ + blen s)) content)
              | None => (pm, Abort Panicked)
              end
          | None => (pm, Abort Panicked)
          end
      | None => (pm, Failure pt TUnterminatedRawString)
      end.

  (** [zero_or_more(literal("#"))]; fuel: each iteration consumes a character. *)
  Definition hashes_p : tparser (list extent) :=
    fun pm pt =>
      zero_or_more sp_lt t_recoverable (S (List.length (p_s pt))) (literal (str "#")) pm pt.

  (** src/tokenizer.rs:856-864 [string_raw]. *)
  Definition string_raw : tparser extent :=
    spt <- point ;;
    _ <- literal (str "r") ;;
    h <- hashes_p ;;
    _ <- literal quote ;;
    _ <- raw_string_tail (List.length h) ;;
    ret_ex spt (fun e => e).

  (** src/tokenizer.rs:887-909 [byte], [byte_string], [byte_string_raw]. *)
  Definition byte_p : tparser extent :=
    spt <- point ;; _ <- literal (str "b") ;; _ <- character ;; ret_ex spt (fun e => e).
  Definition byte_string : tparser extent :=
    spt <- point ;; _ <- literal (str "b") ;; _ <- string_p ;; ret_ex spt (fun e => e).
  Definition byte_string_raw : tparser extent :=
    spt <- point ;; _ <- literal (str "b") ;; _ <- string_raw ;; ret_ex spt (fun e => e).

  (** src/tokenizer.rs:911-917 [lifetime]. *)
  Definition lifetime_p : tparser extent :=
    spt <- point ;; _ <- literal (str "'") ;; _ <- simple_ident ;; ret_ex spt (fun e => e).

  (** src/tokenizer.rs:448-506: the symbol alternatives, in order. *)
  Definition symbols : list (string * tkind) :=
  [(">>="%string, KShiftRightEquals);
   ("<<="%string, KShiftLeftEquals);
   ("..."%string, KTriplePeriod);
   ("..="%string, KDoublePeriodEquals);
   ("!="%string, KNotEqual);
   ("%="%string, KPercentEquals);
   ("&&"%string, KDoubleAmpersand);
   ("&="%string, KAmpersandEquals);
   ("*="%string, KTimesEquals);
   ("+="%string, KPlusEquals);
   ("-="%string, KMinusEquals);
   ("->"%string, KThinArrow);
   ("/="%string, KDivideEquals);
   ("<<"%string, KDoubleLeftAngle);
   ("<="%string, KLessThanOrEquals);
   ("=="%string, KDoubleEquals);
   ("=>"%string, KThickArrow);
   (">="%string, KGreaterThanOrEquals);
   (">>"%string, KDoubleRightAngle);
   ("^="%string, KCaretEquals);
   ("|="%string, KPipeEquals);
   (".."%string, KDoublePeriod);
   ("::"%string, KDoubleColon);
   ("||"%string, KDoublePipe);
   ("!"%string, KBang);
   ("#"%string, KHash);
   ("$"%string, KDollar);
   ("%"%string, KPercent);
   ("&"%string, KAmpersand);
   ("*"%string, KAsterisk);
   ("+"%string, KPlus);
   (","%string, KComma);
   ("-"%string, KMinus);
   ("."%string, KPeriod);
   ("/"%string, KSlash);
   (":"%string, KColon);
   (";"%string, KSemicolon);
   ("="%string, KEquals);
   ("?"%string, KQuestionMark);
   ("@"%string, KAt);
   ("^"%string, KCaret);
   ("|"%string, KPipe);
   ("~"%string, KTilde);
   ("\"%string, KBackslash);
   ("("%string, KLeftParen);
   (")"%string, KRightParen);
   ("<"%string, KLeftAngle);
   (">"%string, KRightAngle);
   ("["%string, KLeftSquare);
   ("]"%string, KRightSquare);
   ("{"%string, KLeftCurly);
   ("}"%string, KRightCurly)].

  (** src/tokenizer.rs:437-513 [single_token]. *)
  Definition single_token_alts : list (tparser token) :=
    [comment_or_doc_comment;
     map_p character (Tk KCharacter);
     map_p string_p (Tk KString);
     map_p string_raw (Tk KStringRaw);
     map_p byte_p (Tk KByte);
     map_p byte_string (Tk KByteString);
     map_p byte_string_raw (Tk KByteStringRaw);
     map_p lifetime_p (Tk KLifetime)]
    ++ map (fun '(s, k) => map_p (literal (str s)) (Tk k)) symbols
    ++ [keyword_or_ident;
        map_p number_p TkNumber;
        map_p whitespace (Tk KWhitespace)].

  Definition single_token : tparser token := t_alternate single_token_alts.

  (** src/tokenizer.rs:349-354 [ErrorDetail]; the [BTreeSet] of errors is kept as
      the list it is collected from (ordering and duplicates are not modelled). *)
  Record tok_error : Type := mkTokError { te_location : nat; te_errors : list terror }.

  (** src/tokenizer.rs:389-403 [Tokens]. *)
  Record tokens_state : Type := mkTokens { ts_pm : tmaster; ts_pt : spoint; ts_exhausted : bool }.
  Definition tokens_new (code : text) : tokens_state :=
    mkTokens (new_master sp_zero tt) (mkPt code 0) false.

  (** Result of one call of [next]. *)
  Inductive next_result : Type :=
  | NextNone
  | NextOk (t : token)
  | NextErr (e : tok_error)
  | NextAbort (w : abort).

  (** src/tokenizer.rs:408-434 [Tokens::next]. *)
  Definition tokens_next (st : tokens_state) : tokens_state * next_result :=
    if ts_exhausted st then (st, NextNone)
    else
      let pt := ts_pt st in
      match p_s pt with
      | [] => (mkTokens (ts_pm st) pt true, NextOk (Tk KEndOfFile (p_off pt, p_off pt)))
      | _ :: _ =>
          let (pm1, r) := single_token (ts_pm st) pt in
          let (pm2, r) := finish sp_lt sp_zero pm1 r in
          match r with
          | Success pt' v =>
              if p_off pt =? p_off pt' then (mkTokens pm2 pt false, NextAbort Panicked)
              else (mkTokens pm2 pt' false, NextOk v)
          | Failure pt' es => (mkTokens pm2 pt false, NextErr (mkTokError (p_off pt') es))
          | Abort w => (mkTokens pm2 pt false, NextAbort w)
          end
      end.

  (** Result of consuming the whole iterator the way [extract_whitespace]
      (src/lib.rs:284-285) does: stop at [None] or at the first error. *)
  Inductive tokenized : Type :=
  | TokOk (ts : list token)
  | TokErr (e : tok_error)
  | TokAbort (w : abort).

  Fixpoint collect (fuel : nat) (st : tokens_state) : tokenized :=
    match fuel with
    | O => TokAbort OutOfFuel
    | S fuel' =>
        match tokens_next st with
        | (_, NextNone) => TokOk []
        | (_, NextErr e) => TokErr e
        | (_, NextAbort w) => TokAbort w
        | (st', NextOk t) =>
            match collect fuel' st' with
            | TokOk ts => TokOk (t :: ts)
            | r => r
            end
        end
    end.

  (** [Tokens::new(code)] consumed to the end; the fuel is never exhausted (see
      TokenizerProofs). *)
  Definition tokenize (code : text) : tokenized :=
    collect (S (S (List.length code))) (tokens_new code).
End WithXid.

(** The XID predicates restricted to ASCII, for running examples. *)
Definition ascii_alpha (c : char) : bool :=
  ((65 <=? c) && (c <=? 90) || (97 <=? c) && (c <=? 122))%N.
Definition ascii_xid : xid :=
  mkXid ascii_alpha
        (fun c => ascii_alpha c || (48 <=? c) && (c <=? 57) || N.eqb c underscore)%N.
