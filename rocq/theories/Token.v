(** Token kinds: src/tokenizer.rs:10-131, [enum Token].  Every variant except
    [Number] carries just an [Extent]; the variant name becomes a constructor of
    [tkind] (prefixed with [K]). *)

From Coq Require Import String List NArith Bool Lia.
From Verif Require Import Base.
Import ListNotations.

(** src/tokenizer.rs:10-131 (all variants but [Number]). *)
Inductive tkind : Type :=
| KLeftAngle
| KLeftCurly
| KLeftParen
| KLeftSquare
| KRightAngle
| KRightCurly
| KRightParen
| KRightSquare
| KAmpersand
| KAmpersandEquals
| KAsterisk
| KAt
| KBackslash
| KBang
| KCaret
| KCaretEquals
| KColon
| KComma
| KDivideEquals
| KDollar
| KDoubleAmpersand
| KDoubleColon
| KDoubleEquals
| KDoubleLeftAngle
| KDoublePeriod
| KDoublePeriodEquals
| KDoublePipe
| KDoubleRightAngle
| KEquals
| KGreaterThanOrEquals
| KHash
| KLessThanOrEquals
| KMinus
| KMinusEquals
| KNotEqual
| KPercent
| KPercentEquals
| KPeriod
| KPipe
| KPipeEquals
| KPlus
| KPlusEquals
| KQuestionMark
| KSemicolon
| KShiftLeftEquals
| KShiftRightEquals
| KSlash
| KThickArrow
| KThinArrow
| KTilde
| KTimesEquals
| KTriplePeriod
| KAs
| KAsync
| KAuto
| KBox
| KBreak
| KConst
| KContinue
| KCrate
| KDefault
| KDyn
| KElse
| KEnum
| KExtern
| KFn
| KFor
| KIf
| KImpl
| KIn
| KLet
| KLoop
| KMatch
| KMod
| KMove
| KMut
| KPub
| KRef
| KReturn
| KSelfIdent
| KStatic
| KStruct
| KTrait
| KType
| KUnion
| KUnsafe
| KUse
| KWhere
| KWhile
| KCharacter
| KString
| KStringRaw
| KByte
| KByteString
| KByteStringRaw
| KIdent
| KWhitespace
| KCommentLine
| KCommentBlock
| KDocCommentOuterLine
| KDocCommentInnerLine
| KDocCommentOuterBlock
| KDocCommentInnerBlock
| KLifetime
| KEndOfFile.

(** All kinds, in declaration order. *)
Definition all_tkinds : list tkind :=
  [KLeftAngle;
   KLeftCurly;
   KLeftParen;
   KLeftSquare;
   KRightAngle;
   KRightCurly;
   KRightParen;
   KRightSquare;
   KAmpersand;
   KAmpersandEquals;
   KAsterisk;
   KAt;
   KBackslash;
   KBang;
   KCaret;
   KCaretEquals;
   KColon;
   KComma;
   KDivideEquals;
   KDollar;
   KDoubleAmpersand;
   KDoubleColon;
   KDoubleEquals;
   KDoubleLeftAngle;
   KDoublePeriod;
   KDoublePeriodEquals;
   KDoublePipe;
   KDoubleRightAngle;
   KEquals;
   KGreaterThanOrEquals;
   KHash;
   KLessThanOrEquals;
   KMinus;
   KMinusEquals;
   KNotEqual;
   KPercent;
   KPercentEquals;
   KPeriod;
   KPipe;
   KPipeEquals;
   KPlus;
   KPlusEquals;
   KQuestionMark;
   KSemicolon;
   KShiftLeftEquals;
   KShiftRightEquals;
   KSlash;
   KThickArrow;
   KThinArrow;
   KTilde;
   KTimesEquals;
   KTriplePeriod;
   KAs;
   KAsync;
   KAuto;
   KBox;
   KBreak;
   KConst;
   KContinue;
   KCrate;
   KDefault;
   KDyn;
   KElse;
   KEnum;
   KExtern;
   KFn;
   KFor;
   KIf;
   KImpl;
   KIn;
   KLet;
   KLoop;
   KMatch;
   KMod;
   KMove;
   KMut;
   KPub;
   KRef;
   KReturn;
   KSelfIdent;
   KStatic;
   KStruct;
   KTrait;
   KType;
   KUnion;
   KUnsafe;
   KUse;
   KWhere;
   KWhile;
   KCharacter;
   KString;
   KStringRaw;
   KByte;
   KByteString;
   KByteStringRaw;
   KIdent;
   KWhitespace;
   KCommentLine;
   KCommentBlock;
   KDocCommentOuterLine;
   KDocCommentInnerLine;
   KDocCommentOuterBlock;
   KDocCommentInnerBlock;
   KLifetime;
   KEndOfFile].

(** Position of the variant in the enum: used to decide equality of variants. *)
Definition tkind_index (k : tkind) : N :=
  match k with
  | KLeftAngle => 0
  | KLeftCurly => 1
  | KLeftParen => 2
  | KLeftSquare => 3
  | KRightAngle => 4
  | KRightCurly => 5
  | KRightParen => 6
  | KRightSquare => 7
  | KAmpersand => 8
  | KAmpersandEquals => 9
  | KAsterisk => 10
  | KAt => 11
  | KBackslash => 12
  | KBang => 13
  | KCaret => 14
  | KCaretEquals => 15
  | KColon => 16
  | KComma => 17
  | KDivideEquals => 18
  | KDollar => 19
  | KDoubleAmpersand => 20
  | KDoubleColon => 21
  | KDoubleEquals => 22
  | KDoubleLeftAngle => 23
  | KDoublePeriod => 24
  | KDoublePeriodEquals => 25
  | KDoublePipe => 26
  | KDoubleRightAngle => 27
  | KEquals => 28
  | KGreaterThanOrEquals => 29
  | KHash => 30
  | KLessThanOrEquals => 31
  | KMinus => 32
  | KMinusEquals => 33
  | KNotEqual => 34
  | KPercent => 35
  | KPercentEquals => 36
  | KPeriod => 37
  | KPipe => 38
  | KPipeEquals => 39
  | KPlus => 40
  | KPlusEquals => 41
  | KQuestionMark => 42
  | KSemicolon => 43
  | KShiftLeftEquals => 44
  | KShiftRightEquals => 45
  | KSlash => 46
  | KThickArrow => 47
  | KThinArrow => 48
  | KTilde => 49
  | KTimesEquals => 50
  | KTriplePeriod => 51
  | KAs => 52
  | KAsync => 53
  | KAuto => 54
  | KBox => 55
  | KBreak => 56
  | KConst => 57
  | KContinue => 58
  | KCrate => 59
  | KDefault => 60
  | KDyn => 61
  | KElse => 62
  | KEnum => 63
  | KExtern => 64
  | KFn => 65
  | KFor => 66
  | KIf => 67
  | KImpl => 68
  | KIn => 69
  | KLet => 70
  | KLoop => 71
  | KMatch => 72
  | KMod => 73
  | KMove => 74
  | KMut => 75
  | KPub => 76
  | KRef => 77
  | KReturn => 78
  | KSelfIdent => 79
  | KStatic => 80
  | KStruct => 81
  | KTrait => 82
  | KType => 83
  | KUnion => 84
  | KUnsafe => 85
  | KUse => 86
  | KWhere => 87
  | KWhile => 88
  | KCharacter => 89
  | KString => 90
  | KStringRaw => 91
  | KByte => 92
  | KByteString => 93
  | KByteStringRaw => 94
  | KIdent => 95
  | KWhitespace => 96
  | KCommentLine => 97
  | KCommentBlock => 98
  | KDocCommentOuterLine => 99
  | KDocCommentInnerLine => 100
  | KDocCommentOuterBlock => 101
  | KDocCommentInnerBlock => 102
  | KLifetime => 103
  | KEndOfFile => 104
  end%N.

Definition tkind_eqb (a b : tkind) : bool := N.eqb (tkind_index a) (tkind_index b).

Lemma tkind_index_inj a b : tkind_index a = tkind_index b -> a = b.
Proof.
  assert (H : forall k, nth_error all_tkinds (N.to_nat (tkind_index k)) = Some k)
    by (intros []; reflexivity).
  intros E. pose proof (H a) as Ha. pose proof (H b) as Hb. rewrite E in Ha. congruence.
Qed.

Lemma tkind_eqb_eq a b : tkind_eqb a b = true <-> a = b.
Proof.
  unfold tkind_eqb. rewrite N.eqb_eq. split; [apply tkind_index_inj|congruence].
Qed.

Lemma tkind_eqb_refl a : tkind_eqb a a = true.
Proof. apply tkind_eqb_eq; reflexivity. Qed.

Lemma tkind_eqb_neq a b : tkind_eqb a b = false <-> a <> b.
Proof. rewrite <- tkind_eqb_eq. destruct (tkind_eqb a b); split; congruence. Qed.

Lemma tkind_eq_dec (a b : tkind) : {a = b} + {a <> b}.
Proof.
  destruct (tkind_eqb a b) eqn:E; [left; now apply tkind_eqb_eq | right; now apply tkind_eqb_neq].
Qed.

Lemma all_tkinds_complete k : In k all_tkinds.
Proof.
  apply nth_error_In with (n := N.to_nat (tkind_index k)). destruct k; reflexivity.
Qed.

(** src/tokenizer.rs:249-255: which of the four number variants. *)
Inductive radix : Type := RBinary | RDecimal | RHexadecimal | ROctal.

(** src/tokenizer.rs:287-319, macro [number!]: the four number structs have the
    same fields; [Number]'s variant is recorded in [n_radix]. *)
Record number : Type := mkNumber {
  n_radix : radix;
  n_extent : extent;
  n_integral : extent;
  n_fractional : option extent;
  n_exponent : option extent;
  n_type_suffix : option extent;
  n_underscores : nat
}.

(** src/tokenizer.rs:10-131 [enum Token]. *)
Inductive token : Type :=
| Tk (k : tkind) (e : extent)
| TkNumber (n : number).

(** src/tokenizer.rs:133-247 [Token::extent], 257-267 [Number::extent]. *)
Definition token_extent (t : token) : extent :=
  match t with
  | Tk _ e => e
  | TkNumber n => n_extent n
  end.

(** src/tokenizer.rs:269-284 [Number::into_simple]. *)
Definition into_simple (n : number) : option extent :=
  match n_radix n with
  | RDecimal =>
      match n_fractional n, n_exponent n, n_type_suffix n, n_underscores n with
      | None, None, None, O => Some (n_extent n)
      | _, _, _, _ => None
      end
  | _ => None
  end.
