(** What the errors in a list of expectations say, for the statements about them. *)

From Coq Require Import List Bool.
From Verif Require Import Base Token Nt.
Import ListNotations.

(** src/parser/mod.rs:178-288 [Error]: the kind of token an error asks for. *)
Definition named (e : perror) : option tkind :=
  match e with
  | ExpectedAmpersand => Some KAmpersand
  | ExpectedAmpersandEquals => Some KAmpersandEquals
  | ExpectedAs => Some KAs
  | ExpectedAsterisk => Some KAsterisk
  | ExpectedAsync => Some KAsync
  | ExpectedAt => Some KAt
  | ExpectedAuto => Some KAuto
  | ExpectedBackslash => Some KBackslash
  | ExpectedBang => Some KBang
  | ExpectedBox => Some KBox
  | ExpectedBreak => Some KBreak
  | ExpectedByte => Some KByte
  | ExpectedByteString => Some KByteString
  | ExpectedByteStringRaw => Some KByteStringRaw
  | ExpectedCaret => Some KCaret
  | ExpectedCaretEquals => Some KCaretEquals
  | ExpectedCharacter => Some KCharacter
  | ExpectedColon => Some KColon
  | ExpectedComma => Some KComma
  | ExpectedConst => Some KConst
  | ExpectedContinue => Some KContinue
  | ExpectedCrate => Some KCrate
  | ExpectedDefault => Some KDefault
  | ExpectedDyn => Some KDyn
  | ExpectedDivideEquals => Some KDivideEquals
  | ExpectedDocCommentInnerBlock => Some KDocCommentInnerBlock
  | ExpectedDocCommentInnerLine => Some KDocCommentInnerLine
  | ExpectedDocCommentOuterBlock => Some KDocCommentOuterBlock
  | ExpectedDocCommentOuterLine => Some KDocCommentOuterLine
  | ExpectedDollar => Some KDollar
  | ExpectedDoubleAmpersand => Some KDoubleAmpersand
  | ExpectedDoubleColon => Some KDoubleColon
  | ExpectedDoubleEquals => Some KDoubleEquals
  | ExpectedDoubleLeftAngle => Some KDoubleLeftAngle
  | ExpectedDoublePeriod => Some KDoublePeriod
  | ExpectedDoublePeriodEquals => Some KDoublePeriodEquals
  | ExpectedDoublePipe => Some KDoublePipe
  | ExpectedDoubleRightAngle => Some KDoubleRightAngle
  | ExpectedElse => Some KElse
  | ExpectedEnum => Some KEnum
  | ExpectedEquals => Some KEquals
  | ExpectedExtern => Some KExtern
  | ExpectedFn => Some KFn
  | ExpectedFor => Some KFor
  | ExpectedGreaterThanOrEquals => Some KGreaterThanOrEquals
  | ExpectedHash => Some KHash
  | ExpectedIdent => Some KIdent
  | ExpectedIf => Some KIf
  | ExpectedImpl => Some KImpl
  | ExpectedIn => Some KIn
  | ExpectedLeftAngle => Some KLeftAngle
  | ExpectedLeftCurly => Some KLeftCurly
  | ExpectedLeftParen => Some KLeftParen
  | ExpectedLeftSquare => Some KLeftSquare
  | ExpectedLessThanOrEquals => Some KLessThanOrEquals
  | ExpectedLet => Some KLet
  | ExpectedLifetime => Some KLifetime
  | ExpectedLoop => Some KLoop
  | ExpectedMatch => Some KMatch
  | ExpectedMinus => Some KMinus
  | ExpectedMinusEquals => Some KMinusEquals
  | ExpectedMod => Some KMod
  | ExpectedMove => Some KMove
  | ExpectedMut => Some KMut
  | ExpectedNotEqual => Some KNotEqual
  | ExpectedPercent => Some KPercent
  | ExpectedPercentEquals => Some KPercentEquals
  | ExpectedPeriod => Some KPeriod
  | ExpectedPipe => Some KPipe
  | ExpectedPipeEquals => Some KPipeEquals
  | ExpectedPlus => Some KPlus
  | ExpectedPlusEquals => Some KPlusEquals
  | ExpectedPub => Some KPub
  | ExpectedQuestionMark => Some KQuestionMark
  | ExpectedRef => Some KRef
  | ExpectedReturn => Some KReturn
  | ExpectedRightAngle => Some KRightAngle
  | ExpectedRightCurly => Some KRightCurly
  | ExpectedRightParen => Some KRightParen
  | ExpectedRightSquare => Some KRightSquare
  | ExpectedSelfIdent => Some KSelfIdent
  | ExpectedSemicolon => Some KSemicolon
  | ExpectedShiftLeftEquals => Some KShiftLeftEquals
  | ExpectedShiftRightEquals => Some KShiftRightEquals
  | ExpectedSlash => Some KSlash
  | ExpectedStatic => Some KStatic
  | ExpectedString => Some KString
  | ExpectedStringRaw => Some KStringRaw
  | ExpectedStruct => Some KStruct
  | ExpectedThickArrow => Some KThickArrow
  | ExpectedThinArrow => Some KThinArrow
  | ExpectedTilde => Some KTilde
  | ExpectedTimesEquals => Some KTimesEquals
  | ExpectedTrait => Some KTrait
  | ExpectedTriplePeriod => Some KTriplePeriod
  | ExpectedType => Some KType
  | ExpectedUnion => Some KUnion
  | ExpectedUnsafe => Some KUnsafe
  | ExpectedUse => Some KUse
  | ExpectedWhere => Some KWhere
  | ExpectedWhile => Some KWhile
  | ExpectedNumber => None
  | ExpectedExpression => None
  | BlockNotAllowedHere => None
  end.

(** The token [t] is one that the error [e] asks for.  [ExpectedNumber] asks for
    a number; where a tuple field is expected only a plain decimal one will do
    (src/tokenizer.rs:269-284 [Number::into_simple]), so other numbers are left open. *)
Definition fits (e : perror) (t : token) : bool :=
  match t with
  | Tk k _ => match named e with Some k' => tkind_eqb k' k | None => false end
  | TkNumber n => match e with
      | ExpectedNumber => match into_simple n with Some _ => true | None => false end
      | _ => false
      end
  end.

(** The tokens that the grammar may read in two steps, as the closing angles of
    [Vec<Vec<u8>>]. *)
Definition compound (t : token) : bool :=
  match t with
  | Tk (KDoubleLeftAngle | KDoubleRightAngle | KShiftRightEquals | KGreaterThanOrEquals | KDoublePipe | KDoubleAmpersand) _ => true
  | _ => false
  end.
