(** Specification vocabulary for the tokenizer theorems.  Nothing here refers to
    the tokenizer's own parsers: only texts, offsets and tokens. *)

From Coq Require Import String List NArith Arith Bool Lia.
From Verif Require Import Base Peresil Token Tokenizer.
Import ListNotations.

(** A byte offset that is a character boundary of [t]. *)
Definition boundary (t : text) (n : nat) : Prop := exists a b, t = a ++ b /\ n = blen a.

(** An extent that can index [t] without panicking. *)
Definition valid_extent (t : text) (e : extent) : Prop :=
  fst e <= snd e /\ boundary t (fst e) /\ boundary t (snd e).

(** Consecutive extents, from offset [o] to offset [o']. *)
Fixpoint contiguous (o : nat) (es : list extent) (o' : nat) : Prop :=
  match es with
  | [] => o = o'
  | e :: r => fst e = o /\ contiguous (snd e) r o'
  end.

(** What an identifier is, given the XID predicates. *)
Definition is_ident (X : xid) (w : text) : Prop :=
  match w with
  | [] => False
  | c :: r => (xid_start X c = true \/ c = 95%N) /\ Forall (fun d => xid_continue X d = true) r
  end.

(** [rest] does not continue an identifier. *)
Definition ident_stops (X : xid) (rest : text) : Prop :=
  match rest with [] => True | c :: _ => xid_continue X c = false end.

(** [rest] does not start an identifier. *)
Definition no_ident (X : xid) (rest : text) : Prop :=
  match rest with [] => True | c :: _ => xid_start X c = false /\ c <> 95%N end.

(** ASCII digits of a given base. *)
Definition digit_value (c : char) : option N :=
  (if (48 <=? c) && (c <=? 57) then Some (c - 48)
   else if (97 <=? c) && (c <=? 102) then Some (c - 97 + 10)
   else if (65 <=? c) && (c <=? 70) then Some (c - 65 + 10)
   else None)%N%bool.
Definition digit_of (base : N) (c : char) : Prop :=
  exists v, digit_value c = Some v /\ (v < base)%N.
Definition digit_or_underscore (base : N) (c : char) : Prop := digit_of base c \/ c = 95%N.

(** Structure of a number token that starts at offset [off] of text [s] and
    leaves [rest]. *)
Definition number_shape (X : xid) (s : text) (off : nat) (n : number) (rest : text) : Prop :=
  exists prefix digits frac expo suffix base,
    s = prefix ++ digits ++ frac ++ expo ++ suffix ++ rest /\
    (* radix and prefix *)
    ((n_radix n = RBinary /\ prefix = str "0b" /\ base = 2%N) \/
     (n_radix n = RHexadecimal /\ prefix = str "0x" /\ base = 16%N) \/
     (n_radix n = ROctal /\ prefix = str "0o" /\ base = 8%N) \/
     (n_radix n = RDecimal /\ prefix = [] /\ base = 10%N)) /\
    (* integral part *)
    digits <> [] /\ Forall (digit_or_underscore base) digits /\
    n_integral n = (off + blen prefix, off + blen prefix + blen digits) /\
    n_underscores n = count_char digits 95%N /\
    (* fractional part: the period and the digits after it *)
    match n_fractional n with
    | None => frac = []
    | Some e =>
        e = (off + blen (prefix ++ digits), off + blen (prefix ++ digits ++ frac)) /\
        (exists ds, frac = 46%N :: ds /\ Forall (digit_or_underscore base) ds /\
           (* the period is not followed by a second period or an identifier *)
           no_ident X (ds ++ expo ++ suffix ++ rest) /\
           ~ (exists r, ds ++ expo ++ suffix ++ rest = 46%N :: r))
    end /\
    (* exponent: an e or E and at least one digit; the extent covers the digits *)
    match n_exponent n with
    | None => expo = []
    | Some e =>
        e = (off + blen (prefix ++ digits ++ frac) + 1, off + blen (prefix ++ digits ++ frac ++ expo)) /\
        exists c ds, expo = c :: ds /\ (c = 101%N \/ c = 69%N) /\ ds <> [] /\
                     Forall (digit_or_underscore 10) ds
    end /\
    (* type suffix: an identifier, as long as possible *)
    match n_type_suffix n with
    | None => suffix = [] /\ no_ident X rest
    | Some e =>
        e = (off + blen (prefix ++ digits ++ frac ++ expo),
             off + blen (prefix ++ digits ++ frac ++ expo ++ suffix)) /\
        is_ident X suffix /\ ident_stops X rest
    end /\
    n_extent n = (off, off + blen (prefix ++ digits ++ frac ++ expo ++ suffix)).

(** The iterator, standing at text [s] (offset [off]), yields [t] and then
    stands at [rest] -- whatever was recorded before. *)
Definition yields (X : xid) (s : text) (off : nat) (t : token) (rest : text) : Prop :=
  exists w, s = w ++ rest /\
  forall pm, exists pm',
    tokens_next X (mkTokens pm (mkPt s off) false) =
    (mkTokens pm' (mkPt rest (off + blen w)) false, NextOk t).

(** The iterator, standing at text [s], yields an error. *)
Definition rejects (X : xid) (s : text) (off : nat) : Prop :=
  forall pm, exists pm' e,
    tokens_next X (mkTokens pm (mkPt s off) false) = (mkTokens pm' (mkPt s off) false, NextErr e).

(** What the XID tables say about ASCII characters and about the two
    non-ASCII whitespace characters of the tokenizer. *)
Definition xid_sane (X : xid) : Prop :=
  (forall c, (c < 128)%N -> xid_start X c = ascii_alpha c) /\
  (forall c, (c < 128)%N ->
     xid_continue X c = (ascii_alpha c || ((48 <=? c) && (c <=? 57))%N || N.eqb c 95%N)%bool) /\
  xid_start X 8206%N = false /\ xid_continue X 8206%N = false /\
  xid_start X 8207%N = false /\ xid_continue X 8207%N = false.

Lemma ascii_xid_sane : xid_sane ascii_xid.
Proof. repeat split; vm_compute; reflexivity. Qed.

(** The result of the [n]-th (0-based) call of [next]. *)
Fixpoint nth_call (X : xid) (n : nat) (st : tokens_state) : next_result :=
  match n with
  | O => snd (tokens_next X st)
  | S n' => nth_call X n' (fst (tokens_next X st))
  end.

(** All extents carried by a token. *)
Definition token_extents (t : token) : list extent :=
  match t with
  | Tk _ e => [e]
  | TkNumber n =>
      n_extent n :: n_integral n ::
      (match n_fractional n with Some e => [e] | None => [] end) ++
      (match n_exponent n with Some e => [e] | None => [] end) ++
      (match n_type_suffix n with Some e => [e] | None => [] end)
  end.

(** The text of a token in a source text. *)
Definition token_text (code : text) (t : token) : option text := slice code (token_extent t).

(** [contents] are the texts of the tokens. *)
Definition texts_of (code : text) (ts : list token) (contents : list text) : Prop :=
  Forall2 (fun t w => token_text code t = Some w) ts contents.

(** ** A lexical specification, independent of the tokenizer's functions *)

(** Spelling of each keyword of the language subset. *)
Definition keyword_spelling (k : tkind) : option string :=
  match k with
  | KAs => Some "as"
  | KAsync => Some "async"
  | KAuto => Some "auto"
  | KBox => Some "box"
  | KBreak => Some "break"
  | KConst => Some "const"
  | KContinue => Some "continue"
  | KCrate => Some "crate"
  | KDefault => Some "default"
  | KDyn => Some "dyn"
  | KElse => Some "else"
  | KEnum => Some "enum"
  | KExtern => Some "extern"
  | KFn => Some "fn"
  | KFor => Some "for"
  | KIf => Some "if"
  | KImpl => Some "impl"
  | KIn => Some "in"
  | KLet => Some "let"
  | KLoop => Some "loop"
  | KMatch => Some "match"
  | KMod => Some "mod"
  | KMove => Some "move"
  | KMut => Some "mut"
  | KPub => Some "pub"
  | KRef => Some "ref"
  | KReturn => Some "return"
  | KSelfIdent => Some "self"
  | KStatic => Some "static"
  | KStruct => Some "struct"
  | KTrait => Some "trait"
  | KType => Some "type"
  | KUnion => Some "union"
  | KUnsafe => Some "unsafe"
  | KUse => Some "use"
  | KWhere => Some "where"
  | KWhile => Some "while"
  | _ => None
  end%string.

(** Spelling of each punctuation token. *)
Definition symbol_spelling (k : tkind) : option string :=
  match k with
  | KLeftAngle => Some "<"
  | KLeftCurly => Some "{"
  | KLeftParen => Some "("
  | KLeftSquare => Some "["
  | KRightAngle => Some ">"
  | KRightCurly => Some "}"
  | KRightParen => Some ")"
  | KRightSquare => Some "]"
  | KAmpersand => Some "&"
  | KAmpersandEquals => Some "&="
  | KAsterisk => Some "*"
  | KAt => Some "@"
  | KBackslash => Some "\"
  | KBang => Some "!"
  | KCaret => Some "^"
  | KCaretEquals => Some "^="
  | KColon => Some ":"
  | KComma => Some ","
  | KDivideEquals => Some "/="
  | KDollar => Some "$"
  | KDoubleAmpersand => Some "&&"
  | KDoubleColon => Some "::"
  | KDoubleEquals => Some "=="
  | KDoubleLeftAngle => Some "<<"
  | KDoublePeriod => Some ".."
  | KDoublePeriodEquals => Some "..="
  | KDoublePipe => Some "||"
  | KDoubleRightAngle => Some ">>"
  | KEquals => Some "="
  | KGreaterThanOrEquals => Some ">="
  | KHash => Some "#"
  | KLessThanOrEquals => Some "<="
  | KMinus => Some "-"
  | KMinusEquals => Some "-="
  | KNotEqual => Some "!="
  | KPercent => Some "%"
  | KPercentEquals => Some "%="
  | KPeriod => Some "."
  | KPipe => Some "|"
  | KPipeEquals => Some "|="
  | KPlus => Some "+"
  | KPlusEquals => Some "+="
  | KQuestionMark => Some "?"
  | KSemicolon => Some ";"
  | KShiftLeftEquals => Some "<<="
  | KShiftRightEquals => Some ">>="
  | KSlash => Some "/"
  | KThickArrow => Some "=>"
  | KThinArrow => Some "->"
  | KTilde => Some "~"
  | KTimesEquals => Some "*="
  | KTriplePeriod => Some "..."
  | _ => None
  end%string.

(** The whitespace characters: space, tab, CR, LF and the two Unicode
    direction marks. *)
Definition ws_char (c : char) : Prop :=
  c = 32%N \/ c = 9%N \/ c = 13%N \/ c = 10%N \/ c = 8206%N \/ c = 8207%N.

(** A text that [p] does not occur in. *)
Definition free_of (p t : text) : Prop := forall a b, t <> a ++ p ++ b.

(** [t] starts with [p]. *)
Definition has_prefix (p t : text) : Prop := exists r, t = p ++ r.

(** [p] occurs in [body ++ p ++ rest] for the first time right after [body]. *)
Definition first_at (p body rest : text) : Prop :=
  forall a b, body ++ p ++ rest = a ++ p ++ b -> List.length body <= List.length a.

(** Contents of a string literal: escapes come in pairs, no bare quote. *)
Inductive str_body : text -> Prop :=
| sb_nil : str_body []
| sb_char c b : c <> 92%N -> c <> 34%N -> str_body b -> str_body (c :: b)
| sb_esc c b : str_body b -> str_body (92%N :: c :: b).

(** What may follow the backslash in a character literal. *)
Inductive escape : text -> Prop :=
| esc_simple c : In c (str "nrt\'""0") -> escape [c]
| esc_hex ds : ds <> [] -> Forall (digit_of 16) ds -> escape (str "x" ++ ds)
| esc_unicode ds : ds <> [] -> Forall (digit_of 16) ds -> escape (str "u{" ++ ds ++ str "}").

(** A character literal. *)
Definition char_literal (w : text) : Prop :=
  (exists c, c <> 92%N /\ w = [39%N; c; 39%N]) \/
  (exists e, escape e /\ w = [39%N; 92%N] ++ e ++ [39%N]).

(** A string literal. *)
Definition string_literal (w : text) : Prop := exists b, str_body b /\ w = [34%N] ++ b ++ [34%N].

(** A raw string literal with [n] hashes, followed by [rest]. *)
Definition raw_string_literal (w rest : text) : Prop :=
  exists n b, w = str "r" ++ repeat 35%N n ++ [34%N] ++ b ++ [34%N] ++ repeat 35%N n /\
              first_at ([34%N] ++ repeat 35%N n) b rest.

(** End of a line comment: no newline inside, newline or end of text after it. *)
Definition line_comment (w rest : text) : Prop :=
  ~ In 10%N w /\ (rest = [] \/ exists r, rest = 10%N :: r).

(** A block comment with a given opener: it runs through the first closer after
    the opener, or to the end of the text when there is none. *)
Definition block_comment (opener w rest : text) : Prop :=
  (exists b, w = opener ++ b ++ str "*/" /\ first_at (str "*/") b rest) \/
  (exists b, w = opener ++ b /\ rest = [] /\ free_of (str "*/") b).

(** [w] is a character, string or byte literal of kind [k], followed by [rest]. *)
Definition literal_token (k : tkind) (w rest : text) : Prop :=
  match k with
  | KCharacter => char_literal w
  | KString => string_literal w
  | KStringRaw => raw_string_literal w rest
  | KByte => exists c, w = str "b" ++ c /\ char_literal c
  | KByteString => exists c, w = str "b" ++ c /\ string_literal c
  | KByteStringRaw => exists c, w = str "b" ++ c /\ raw_string_literal c rest
  | _ => False
  end.

(** No such literal starts the text [s]. *)
Definition no_literal (s : text) : Prop :=
  forall k w rest, s = w ++ rest -> ~ literal_token k w rest.

(** No comment starts the text [s]. *)
Definition no_comment (s : text) : Prop := ~ has_prefix (str "//") s /\ ~ has_prefix (str "/*") s.

(** In a text that continues as [w ++ rest], the next token is [w] and it is of
    kind [k] (all kinds except numbers and the end of the file). *)
Definition lexical (X : xid) (k : tkind) (w rest : text) : Prop :=
  match keyword_spelling k, symbol_spelling k with
  | Some s, _ => w = str s /\ ident_stops X rest
  | None, Some s =>
      w = str s /\ no_comment (w ++ rest) /\
      (* no longer symbol matches *)
      forall k' s', symbol_spelling k' = Some s' -> has_prefix (str s') (w ++ rest) ->
                    String.length s' <= String.length s
  | None, None =>
      match k with
      | KWhitespace => w <> [] /\ Forall ws_char w /\ (forall c r, rest = c :: r -> ~ ws_char c)
      | KDocCommentOuterLine =>
          has_prefix (str "///") w /\ ~ has_prefix (str "////") w /\ line_comment w rest
      | KDocCommentInnerLine => has_prefix (str "//!") w /\ line_comment w rest
      | KCommentLine =>
          has_prefix (str "//") w /\ ~ has_prefix (str "//!") w /\
          (has_prefix (str "///") w -> has_prefix (str "////") w) /\ line_comment w rest
      | KDocCommentOuterBlock =>
          block_comment (str "/**") w rest /\
          ~ has_prefix (str "/***") (w ++ rest) /\ ~ has_prefix (str "/**/") (w ++ rest)
      | KDocCommentInnerBlock => block_comment (str "/*!") w rest
      | KCommentBlock =>
          block_comment (str "/*") w rest /\ ~ has_prefix (str "/*!") w /\
          (has_prefix (str "/**") w -> has_prefix (str "/***") w \/ has_prefix (str "/**/") w)
      | KIdent =>
          (is_ident X w /\ ident_stops X rest /\ no_literal (w ++ rest) /\
           ~ has_prefix (str "r#") (w ++ rest) /\
           (forall k' s', keyword_spelling k' = Some s' -> w <> str s')) \/
          (exists i, w = str "r#" ++ i /\ is_ident X i /\ ident_stops X rest)
      | KLifetime =>
          no_literal (w ++ rest) /\ exists i, w = [39%N] ++ i /\ is_ident X i /\ ident_stops X rest
      | _ => literal_token k w rest
      end
  end.

(** ** Number tokens, exactly *)

(** No digit of the base (or underscore) comes next. *)
Definition digits_stop (base : N) (t : text) : Prop :=
  forall c r, t = c :: r -> ~ digit_or_underscore base c.

(** A prefix such as 0x only counts when a digit of its base follows. *)
Definition radix_prefixes : list (radix * text * N) :=
  [(RBinary, str "0b", 2%N); (RHexadecimal, str "0x", 16%N); (ROctal, str "0o", 8%N)].
Definition has_radix_prefix (p : text) (base : N) (s : text) : Prop :=
  exists d r, s = p ++ d :: r /\ digit_or_underscore base d.

(** A fractional part may start here: a period that is followed neither by a
    second period nor by an identifier. *)
Definition fraction_starts (X : xid) (t : text) : Prop :=
  exists r, t = 46%N :: r /\ no_ident X r /\ ~ has_prefix [46%N] r.

(** An exponent may start here: e or E and a digit. *)
Definition exponent_starts (t : text) : Prop :=
  exists c d r, t = c :: d :: r /\ (c = 101%N \/ c = 69%N) /\ digit_or_underscore 10 d.

Definition fraction_part (X : xid) (base : N) (frac after : text) : Prop :=
  (frac = [] /\ ~ fraction_starts X after) \/
  (fraction_starts X (frac ++ after) /\
   exists ds, frac = 46%N :: ds /\ Forall (digit_or_underscore base) ds /\ digits_stop base after).

Definition exponent_part (expo after : text) : Prop :=
  (expo = [] /\ ~ exponent_starts after) \/
  (exists c ds, expo = c :: ds /\ (c = 101%N \/ c = 69%N) /\ ds <> [] /\
                Forall (digit_or_underscore 10) ds /\ digits_stop 10 after).

Definition suffix_part (X : xid) (suffix after : text) : Prop :=
  (suffix = [] /\ no_ident X after) \/ (is_ident X suffix /\ ident_stops X after).

(** The extent of an optional part [w] at offset [off], without its first [skip]
    bytes. *)
Definition part_extent (off skip : nat) (w : text) : option extent :=
  match w with [] => None | _ => Some (off + skip, off + blen w) end.

(** In a text that continues as [s], at offset [off], the next token is the
    number [n], and [rest] remains. *)
Definition number_token (X : xid) (s : text) (off : nat) (n : number) (rest : text) : Prop :=
  exists rx prefix base digits frac expo suffix,
    s = prefix ++ digits ++ frac ++ expo ++ suffix ++ rest /\
    (In (rx, prefix, base) radix_prefixes \/
     (rx = RDecimal /\ prefix = [] /\ base = 10%N /\
      (exists c r, s = c :: r /\ digit_of 10 c) /\
      forall rx' p b, In (rx', p, b) radix_prefixes -> ~ has_radix_prefix p b s)) /\
    digits <> [] /\ Forall (digit_or_underscore base) digits /\
    digits_stop base (frac ++ expo ++ suffix ++ rest) /\
    fraction_part X base frac (expo ++ suffix ++ rest) /\
    exponent_part expo (suffix ++ rest) /\
    suffix_part X suffix rest /\
    n = mkNumber rx
          (off, off + blen (prefix ++ digits ++ frac ++ expo ++ suffix))
          (off + blen prefix, off + blen (prefix ++ digits))
          (part_extent (off + blen (prefix ++ digits)) 0 frac)
          (part_extent (off + blen (prefix ++ digits ++ frac)) 1 expo)
          (part_extent (off + blen (prefix ++ digits ++ frac ++ expo)) 0 suffix)
          (count_char digits 95%N).

(** ** Whole texts *)

(** The next token of a text that continues as [s], at offset [off], and what
    remains after it. *)
Inductive token_at (X : xid) (s : text) (off : nat) : token -> text -> Prop :=
| at_token k w rest : s = w ++ rest -> lexical X k w rest ->
    token_at X s off (Tk k (off, off + blen w)) rest
| at_number n rest : number_token X s off n rest -> token_at X s off (TkNumber n) rest.

(** The tokens of a text that continues as [s], at offset [off]. *)
Inductive lexes (X : xid) : text -> nat -> list token -> Prop :=
| lexes_end off : lexes X [] off [Tk KEndOfFile (off, off)]
| lexes_step s off t rest ts : s <> [] -> token_at X s off t rest ->
    lexes X rest (snd (token_extent t)) ts -> lexes X s off (t :: ts).

(** Properly nested block comments, as in the Rust reference. *)
Inductive nested_block : text -> Prop :=
| nested_intro b : nested_body b -> nested_block (str "/*" ++ b ++ str "*/")
with nested_body : text -> Prop :=
| nb_nil : nested_body []
| nb_char c b : c <> 42%N -> c <> 47%N -> nested_body b -> nested_body (c :: b)
| nb_block w b : nested_block w -> nested_body b -> nested_body (w ++ b).

(** Pieces of a space-separated text: a spelling and the kind it stands for. *)
Inductive piece : Type :=
| PKeyword (k : tkind) (s : string)
| PSymbol (k : tkind) (s : string)
| PIdent (w : text)
| PLifetime (w : text)
| PInteger (w : text).

Definition piece_ok (X : xid) (p : piece) : Prop :=
  match p with
  | PKeyword k s => keyword_spelling k = Some s
  | PSymbol k s => symbol_spelling k = Some s
  | PIdent w => is_ident X w /\ forall k s, keyword_spelling k = Some s -> w <> str s
  | PLifetime w => is_ident X w
  | PInteger w => w <> [] /\ Forall (digit_of 10) w
  end.

Definition piece_text (p : piece) : text :=
  match p with
  | PKeyword _ s | PSymbol _ s => str s
  | PIdent w | PInteger w => w
  | PLifetime w => 39%N :: w
  end.

Definition piece_token (p : piece) (off : nat) : token :=
  let e := (off, off + blen (piece_text p)) in
  match p with
  | PKeyword k _ | PSymbol k _ => Tk k e
  | PIdent _ => Tk KIdent e
  | PLifetime _ => Tk KLifetime e
  | PInteger _ => TkNumber (mkNumber RDecimal e e None None None 0)
  end.

(** The text of pieces each followed by its own non-empty whitespace. *)
Fixpoint spaced (ps : list (piece * text)) : text :=
  match ps with [] => [] | (p, sp) :: r => piece_text p ++ sp ++ spaced r end.

Fixpoint spaced_tokens (ps : list (piece * text)) (off : nat) : list token :=
  match ps with
  | [] => [Tk KEndOfFile (off, off)]
  | (p, sp) :: r =>
      let o1 := off + blen (piece_text p) in
      let o2 := o1 + blen sp in
      piece_token p off :: Tk KWhitespace (o1, o2) :: spaced_tokens r o2
  end.
