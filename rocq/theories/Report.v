(** What an error message says: the set of the errors and its order, and the [Display]
    of the errors of [parse_rust_file]. *)

From Coq Require Import String Ascii List Bool Arith NArith.
From Verif Require Import Base Token Tokenizer Nt Lib.
Import ListNotations.
Local Open Scope string_scope.
Local Open Scope list_scope.

(** * Errors of the parser *)

(** src/parser/mod.rs:177-288 [enum Error]: the derived [Ord] is the order of declaration. *)
Definition perror_list : list perror :=
  [ExpectedAmpersand; ExpectedAmpersandEquals; ExpectedAs; ExpectedAsterisk; ExpectedAsync;
   ExpectedAt; ExpectedAuto; ExpectedBackslash; ExpectedBang; ExpectedBox;
   ExpectedBreak; ExpectedByte; ExpectedByteString; ExpectedByteStringRaw; ExpectedCaret;
   ExpectedCaretEquals; ExpectedCharacter; ExpectedColon; ExpectedComma; ExpectedConst;
   ExpectedContinue; ExpectedCrate; ExpectedDefault; ExpectedDyn; ExpectedDivideEquals;
   ExpectedDocCommentInnerBlock; ExpectedDocCommentInnerLine; ExpectedDocCommentOuterBlock; ExpectedDocCommentOuterLine; ExpectedDollar;
   ExpectedDoubleAmpersand; ExpectedDoubleColon; ExpectedDoubleEquals; ExpectedDoubleLeftAngle; ExpectedDoublePeriod;
   ExpectedDoublePeriodEquals; ExpectedDoublePipe; ExpectedDoubleRightAngle; ExpectedElse; ExpectedEnum;
   ExpectedEquals; ExpectedExtern; ExpectedFn; ExpectedFor; ExpectedGreaterThanOrEquals;
   ExpectedHash; ExpectedIdent; ExpectedIf; ExpectedImpl; ExpectedIn;
   ExpectedLeftAngle; ExpectedLeftCurly; ExpectedLeftParen; ExpectedLeftSquare; ExpectedLessThanOrEquals;
   ExpectedLet; ExpectedLifetime; ExpectedLoop; ExpectedMatch; ExpectedMinus;
   ExpectedMinusEquals; ExpectedMod; ExpectedMove; ExpectedMut; ExpectedNotEqual;
   ExpectedNumber; ExpectedPercent; ExpectedPercentEquals; ExpectedPeriod; ExpectedPipe;
   ExpectedPipeEquals; ExpectedPlus; ExpectedPlusEquals; ExpectedPub; ExpectedQuestionMark;
   ExpectedRef; ExpectedReturn; ExpectedRightAngle; ExpectedRightCurly; ExpectedRightParen;
   ExpectedRightSquare; ExpectedSelfIdent; ExpectedSemicolon; ExpectedShiftLeftEquals; ExpectedShiftRightEquals;
   ExpectedSlash; ExpectedStatic; ExpectedString; ExpectedStringRaw; ExpectedStruct;
   ExpectedThickArrow; ExpectedThinArrow; ExpectedTilde; ExpectedTimesEquals; ExpectedTrait;
   ExpectedTriplePeriod; ExpectedType; ExpectedUnion; ExpectedUnsafe; ExpectedUse;
   ExpectedWhere; ExpectedWhile; ExpectedExpression; BlockNotAllowedHere].

Definition perror_rank (e : perror) : nat :=
  match e with
  | ExpectedAmpersand => 0 | ExpectedAmpersandEquals => 1 | ExpectedAs => 2 | ExpectedAsterisk => 3
  | ExpectedAsync => 4 | ExpectedAt => 5 | ExpectedAuto => 6 | ExpectedBackslash => 7
  | ExpectedBang => 8 | ExpectedBox => 9 | ExpectedBreak => 10 | ExpectedByte => 11
  | ExpectedByteString => 12 | ExpectedByteStringRaw => 13 | ExpectedCaret => 14 | ExpectedCaretEquals => 15
  | ExpectedCharacter => 16 | ExpectedColon => 17 | ExpectedComma => 18 | ExpectedConst => 19
  | ExpectedContinue => 20 | ExpectedCrate => 21 | ExpectedDefault => 22 | ExpectedDyn => 23
  | ExpectedDivideEquals => 24 | ExpectedDocCommentInnerBlock => 25 | ExpectedDocCommentInnerLine => 26 | ExpectedDocCommentOuterBlock => 27
  | ExpectedDocCommentOuterLine => 28 | ExpectedDollar => 29 | ExpectedDoubleAmpersand => 30 | ExpectedDoubleColon => 31
  | ExpectedDoubleEquals => 32 | ExpectedDoubleLeftAngle => 33 | ExpectedDoublePeriod => 34 | ExpectedDoublePeriodEquals => 35
  | ExpectedDoublePipe => 36 | ExpectedDoubleRightAngle => 37 | ExpectedElse => 38 | ExpectedEnum => 39
  | ExpectedEquals => 40 | ExpectedExtern => 41 | ExpectedFn => 42 | ExpectedFor => 43
  | ExpectedGreaterThanOrEquals => 44 | ExpectedHash => 45 | ExpectedIdent => 46 | ExpectedIf => 47
  | ExpectedImpl => 48 | ExpectedIn => 49 | ExpectedLeftAngle => 50 | ExpectedLeftCurly => 51
  | ExpectedLeftParen => 52 | ExpectedLeftSquare => 53 | ExpectedLessThanOrEquals => 54 | ExpectedLet => 55
  | ExpectedLifetime => 56 | ExpectedLoop => 57 | ExpectedMatch => 58 | ExpectedMinus => 59
  | ExpectedMinusEquals => 60 | ExpectedMod => 61 | ExpectedMove => 62 | ExpectedMut => 63
  | ExpectedNotEqual => 64 | ExpectedNumber => 65 | ExpectedPercent => 66 | ExpectedPercentEquals => 67
  | ExpectedPeriod => 68 | ExpectedPipe => 69 | ExpectedPipeEquals => 70 | ExpectedPlus => 71
  | ExpectedPlusEquals => 72 | ExpectedPub => 73 | ExpectedQuestionMark => 74 | ExpectedRef => 75
  | ExpectedReturn => 76 | ExpectedRightAngle => 77 | ExpectedRightCurly => 78 | ExpectedRightParen => 79
  | ExpectedRightSquare => 80 | ExpectedSelfIdent => 81 | ExpectedSemicolon => 82 | ExpectedShiftLeftEquals => 83
  | ExpectedShiftRightEquals => 84 | ExpectedSlash => 85 | ExpectedStatic => 86 | ExpectedString => 87
  | ExpectedStringRaw => 88 | ExpectedStruct => 89 | ExpectedThickArrow => 90 | ExpectedThinArrow => 91
  | ExpectedTilde => 92 | ExpectedTimesEquals => 93 | ExpectedTrait => 94 | ExpectedTriplePeriod => 95
  | ExpectedType => 96 | ExpectedUnion => 97 | ExpectedUnsafe => 98 | ExpectedUse => 99
  | ExpectedWhere => 100 | ExpectedWhile => 101 | ExpectedExpression => 102 | BlockNotAllowedHere => 103
  end.

(** The derived [Debug]. *)
Definition perror_name (e : perror) : string :=
  match e with
  | ExpectedAmpersand => "ExpectedAmpersand" | ExpectedAmpersandEquals => "ExpectedAmpersandEquals"
  | ExpectedAs => "ExpectedAs" | ExpectedAsterisk => "ExpectedAsterisk"
  | ExpectedAsync => "ExpectedAsync" | ExpectedAt => "ExpectedAt"
  | ExpectedAuto => "ExpectedAuto" | ExpectedBackslash => "ExpectedBackslash"
  | ExpectedBang => "ExpectedBang" | ExpectedBox => "ExpectedBox"
  | ExpectedBreak => "ExpectedBreak" | ExpectedByte => "ExpectedByte"
  | ExpectedByteString => "ExpectedByteString" | ExpectedByteStringRaw => "ExpectedByteStringRaw"
  | ExpectedCaret => "ExpectedCaret" | ExpectedCaretEquals => "ExpectedCaretEquals"
  | ExpectedCharacter => "ExpectedCharacter" | ExpectedColon => "ExpectedColon"
  | ExpectedComma => "ExpectedComma" | ExpectedConst => "ExpectedConst"
  | ExpectedContinue => "ExpectedContinue" | ExpectedCrate => "ExpectedCrate"
  | ExpectedDefault => "ExpectedDefault" | ExpectedDyn => "ExpectedDyn"
  | ExpectedDivideEquals => "ExpectedDivideEquals" | ExpectedDocCommentInnerBlock => "ExpectedDocCommentInnerBlock"
  | ExpectedDocCommentInnerLine => "ExpectedDocCommentInnerLine" | ExpectedDocCommentOuterBlock => "ExpectedDocCommentOuterBlock"
  | ExpectedDocCommentOuterLine => "ExpectedDocCommentOuterLine" | ExpectedDollar => "ExpectedDollar"
  | ExpectedDoubleAmpersand => "ExpectedDoubleAmpersand" | ExpectedDoubleColon => "ExpectedDoubleColon"
  | ExpectedDoubleEquals => "ExpectedDoubleEquals" | ExpectedDoubleLeftAngle => "ExpectedDoubleLeftAngle"
  | ExpectedDoublePeriod => "ExpectedDoublePeriod" | ExpectedDoublePeriodEquals => "ExpectedDoublePeriodEquals"
  | ExpectedDoublePipe => "ExpectedDoublePipe" | ExpectedDoubleRightAngle => "ExpectedDoubleRightAngle"
  | ExpectedElse => "ExpectedElse" | ExpectedEnum => "ExpectedEnum"
  | ExpectedEquals => "ExpectedEquals" | ExpectedExtern => "ExpectedExtern"
  | ExpectedFn => "ExpectedFn" | ExpectedFor => "ExpectedFor"
  | ExpectedGreaterThanOrEquals => "ExpectedGreaterThanOrEquals" | ExpectedHash => "ExpectedHash"
  | ExpectedIdent => "ExpectedIdent" | ExpectedIf => "ExpectedIf"
  | ExpectedImpl => "ExpectedImpl" | ExpectedIn => "ExpectedIn"
  | ExpectedLeftAngle => "ExpectedLeftAngle" | ExpectedLeftCurly => "ExpectedLeftCurly"
  | ExpectedLeftParen => "ExpectedLeftParen" | ExpectedLeftSquare => "ExpectedLeftSquare"
  | ExpectedLessThanOrEquals => "ExpectedLessThanOrEquals" | ExpectedLet => "ExpectedLet"
  | ExpectedLifetime => "ExpectedLifetime" | ExpectedLoop => "ExpectedLoop"
  | ExpectedMatch => "ExpectedMatch" | ExpectedMinus => "ExpectedMinus"
  | ExpectedMinusEquals => "ExpectedMinusEquals" | ExpectedMod => "ExpectedMod"
  | ExpectedMove => "ExpectedMove" | ExpectedMut => "ExpectedMut"
  | ExpectedNotEqual => "ExpectedNotEqual" | ExpectedNumber => "ExpectedNumber"
  | ExpectedPercent => "ExpectedPercent" | ExpectedPercentEquals => "ExpectedPercentEquals"
  | ExpectedPeriod => "ExpectedPeriod" | ExpectedPipe => "ExpectedPipe"
  | ExpectedPipeEquals => "ExpectedPipeEquals" | ExpectedPlus => "ExpectedPlus"
  | ExpectedPlusEquals => "ExpectedPlusEquals" | ExpectedPub => "ExpectedPub"
  | ExpectedQuestionMark => "ExpectedQuestionMark" | ExpectedRef => "ExpectedRef"
  | ExpectedReturn => "ExpectedReturn" | ExpectedRightAngle => "ExpectedRightAngle"
  | ExpectedRightCurly => "ExpectedRightCurly" | ExpectedRightParen => "ExpectedRightParen"
  | ExpectedRightSquare => "ExpectedRightSquare" | ExpectedSelfIdent => "ExpectedSelfIdent"
  | ExpectedSemicolon => "ExpectedSemicolon" | ExpectedShiftLeftEquals => "ExpectedShiftLeftEquals"
  | ExpectedShiftRightEquals => "ExpectedShiftRightEquals" | ExpectedSlash => "ExpectedSlash"
  | ExpectedStatic => "ExpectedStatic" | ExpectedString => "ExpectedString"
  | ExpectedStringRaw => "ExpectedStringRaw" | ExpectedStruct => "ExpectedStruct"
  | ExpectedThickArrow => "ExpectedThickArrow" | ExpectedThinArrow => "ExpectedThinArrow"
  | ExpectedTilde => "ExpectedTilde" | ExpectedTimesEquals => "ExpectedTimesEquals"
  | ExpectedTrait => "ExpectedTrait" | ExpectedTriplePeriod => "ExpectedTriplePeriod"
  | ExpectedType => "ExpectedType" | ExpectedUnion => "ExpectedUnion"
  | ExpectedUnsafe => "ExpectedUnsafe" | ExpectedUse => "ExpectedUse"
  | ExpectedWhere => "ExpectedWhere" | ExpectedWhile => "ExpectedWhile"
  | ExpectedExpression => "ExpectedExpression" | BlockNotAllowedHere => "BlockNotAllowedHere"
  end.

Definition perror_cmp (a b : perror) : comparison := (perror_rank a ?= perror_rank b)%nat.
Definition perror_debug (e : perror) : text := str (perror_name e).

(** * Errors of the tokenizer *)

(** [Ord] of [str]: by the bytes of the texts, which for UTF-8 is by their characters. *)
Fixpoint text_cmp (a b : text) : comparison :=
  match a, b with
  | [], [] => Eq
  | [], _ :: _ => Lt
  | _ :: _, [] => Gt
  | x :: a', y :: b' => match (x ?= y)%N with Eq => text_cmp a' b' | c => c end
  end.

(** src/tokenizer.rs:321-336 [enum Error]: order of declaration, and [Literal]s by their texts. *)
Definition terror_rank (e : terror) : nat :=
  match e with
  | TLiteral _ => 0
  | TExpectedIdentOrKeyword => 1 | TExpectedIdent => 2 | TExpectedNumber => 3 | TExpectedHex => 4
  | TExpectedWhitespace => 5 | TExpectedComment => 6 | TExpectedCharacter => 7
  | TUnterminatedRawString => 8 | TRawIdentifierMissingIdentifier => 9 | TInvalidFollowForFractionalNumber => 10
  end.
Definition terror_cmp (a b : terror) : comparison :=
  match a, b with TLiteral s, TLiteral t => text_cmp s t | _, _ => (terror_rank a ?= terror_rank b)%nat end.

(** [Debug] of [str]: quotes, backslashes and the four control characters with an escape of
    their own.  Simplified: the escapes \u{..} of other control characters are left out (no
    literal of src/tokenizer.rs has such characters). *)
Definition escape_debug (c : char) : text :=
  if N.eqb c 34 then [92; 34]%N else if N.eqb c 92 then [92; 92]%N
  else if N.eqb c 10 then [92; 110]%N else if N.eqb c 13 then [92; 114]%N
  else if N.eqb c 9 then [92; 116]%N else if N.eqb c 0 then [92; 48]%N else [c].
Definition terror_debug (e : terror) : text :=
  match e with
  | TLiteral s => str "Literal(" ++ [34%N] ++ flat_map escape_debug s ++ [34%N] ++ str ")"
  | TExpectedIdentOrKeyword => str "ExpectedIdentOrKeyword" | TExpectedIdent => str "ExpectedIdent"
  | TExpectedNumber => str "ExpectedNumber" | TExpectedHex => str "ExpectedHex"
  | TExpectedWhitespace => str "ExpectedWhitespace" | TExpectedComment => str "ExpectedComment"
  | TExpectedCharacter => str "ExpectedCharacter" | TUnterminatedRawString => str "UnterminatedRawString"
  | TRawIdentifierMissingIdentifier => str "RawIdentifierMissingIdentifier"
  | TInvalidFollowForFractionalNumber => str "InvalidFollowForFractionalNumber"
  end.

(** * Sets *)

(** [collect] into a [BTreeSet] (src/lib.rs:334, src/tokenizer.rs:430), as the list of its
    elements in order. *)
Section Set_.
  Context {A : Type} (cmp : A -> A -> comparison).
  Fixpoint set_insert (x : A) (l : list A) : list A :=
    match l with
    | [] => [x]
    | y :: l' => match cmp x y with Lt => x :: l | Eq => l | Gt => y :: set_insert x l' end
    end.
  Definition set_of (l : list A) : list A := fold_left (fun s x => set_insert x s) l [].
End Set_.

(** * Messages *)

(** src/lib.rs:246-253, with src/parser/mod.rs:315-328 and src/tokenizer.rs:370-383: the
    message for the outcome of [parse_rust_file], shown with the text [code]; [None] is a
    panic, or no error. *)
Definition error_message (code : text) (r : file_result) : option text :=
  match r with
  | FileTokErr e => error_report "Unable to tokenize text" code (te_location e) (map terror_debug (set_of terror_cmp (te_errors e)))
  | FileErr l es => error_report "Unable to parse text" code l (map perror_debug (set_of perror_cmp es))
  | _ => None
  end.
