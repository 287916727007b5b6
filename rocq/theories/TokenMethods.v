(** The methods of tokens and numbers: [Token] and [Number] of src/tokenizer.rs derive
    [Decompose] (fuzzy-pickles-derive/src/lib.rs). *)

From Coq Require Import String Ascii List Bool Arith NArith.
From Verif Require Import Base Token Schema Value Grammar Accessors.
Import ListNotations.
Local Open Scope string_scope.

(** The names of the variants of [Token], src/tokenizer.rs:11-131. *)
Definition kind_name (k : tkind) : string :=
  match k with
  | KLeftAngle => "LeftAngle" | KLeftCurly => "LeftCurly" | KLeftParen => "LeftParen" | KLeftSquare => "LeftSquare"
  | KRightAngle => "RightAngle" | KRightCurly => "RightCurly" | KRightParen => "RightParen" | KRightSquare => "RightSquare"
  | KAmpersand => "Ampersand" | KAmpersandEquals => "AmpersandEquals" | KAsterisk => "Asterisk" | KAt => "At"
  | KBackslash => "Backslash" | KBang => "Bang" | KCaret => "Caret" | KCaretEquals => "CaretEquals"
  | KColon => "Colon" | KComma => "Comma" | KDivideEquals => "DivideEquals" | KDollar => "Dollar"
  | KDoubleAmpersand => "DoubleAmpersand" | KDoubleColon => "DoubleColon" | KDoubleEquals => "DoubleEquals" | KDoubleLeftAngle => "DoubleLeftAngle"
  | KDoublePeriod => "DoublePeriod" | KDoublePeriodEquals => "DoublePeriodEquals" | KDoublePipe => "DoublePipe" | KDoubleRightAngle => "DoubleRightAngle"
  | KEquals => "Equals" | KGreaterThanOrEquals => "GreaterThanOrEquals" | KHash => "Hash" | KLessThanOrEquals => "LessThanOrEquals"
  | KMinus => "Minus" | KMinusEquals => "MinusEquals" | KNotEqual => "NotEqual" | KPercent => "Percent"
  | KPercentEquals => "PercentEquals" | KPeriod => "Period" | KPipe => "Pipe" | KPipeEquals => "PipeEquals"
  | KPlus => "Plus" | KPlusEquals => "PlusEquals" | KQuestionMark => "QuestionMark" | KSemicolon => "Semicolon"
  | KShiftLeftEquals => "ShiftLeftEquals" | KShiftRightEquals => "ShiftRightEquals" | KSlash => "Slash" | KThickArrow => "ThickArrow"
  | KThinArrow => "ThinArrow" | KTilde => "Tilde" | KTimesEquals => "TimesEquals" | KTriplePeriod => "TriplePeriod"
  | KAs => "As" | KAsync => "Async" | KAuto => "Auto" | KBox => "Box"
  | KBreak => "Break" | KConst => "Const" | KContinue => "Continue" | KCrate => "Crate"
  | KDefault => "Default" | KDyn => "Dyn" | KElse => "Else" | KEnum => "Enum"
  | KExtern => "Extern" | KFn => "Fn" | KFor => "For" | KIf => "If"
  | KImpl => "Impl" | KIn => "In" | KLet => "Let" | KLoop => "Loop"
  | KMatch => "Match" | KMod => "Mod" | KMove => "Move" | KMut => "Mut"
  | KPub => "Pub" | KRef => "Ref" | KReturn => "Return" | KSelfIdent => "SelfIdent"
  | KStatic => "Static" | KStruct => "Struct" | KTrait => "Trait" | KType => "Type"
  | KUnion => "Union" | KUnsafe => "Unsafe" | KUse => "Use" | KWhere => "Where"
  | KWhile => "While" | KCharacter => "Character" | KString => "String" | KStringRaw => "StringRaw"
  | KByte => "Byte" | KByteString => "ByteString" | KByteStringRaw => "ByteStringRaw" | KIdent => "Ident"
  | KWhitespace => "Whitespace" | KCommentLine => "CommentLine" | KCommentBlock => "CommentBlock" | KDocCommentOuterLine => "DocCommentOuterLine"
  | KDocCommentInnerLine => "DocCommentInnerLine" | KDocCommentOuterBlock => "DocCommentOuterBlock" | KDocCommentInnerBlock => "DocCommentInnerBlock" | KLifetime => "Lifetime"
  | KEndOfFile => "EndOfFile"
  end.

(** A token or a number as a variant with what is in it.  [Token]: lines 11-131; [Number]:
    lines 249-255, whose structs are the type [number] here. *)
Definition token_variants : list string := map kind_name all_tkinds ++ ["Number"].
Definition number_variants : list string := ["Binary"; "Decimal"; "Hexadecimal"; "Octal"].
Definition token_parts (t : token) : string * val :=
  match t with Tk k e => (kind_name k, VExt e) | TkNumber n => ("Number", VNum n) end.
Definition number_parts (n : number) : string * number := (radix_name (n_radix n), n).

Section Methods.
  Context {A B : Type} (variants : list string) (parts : A -> string * B).

  (** fuzzy-pickles-derive/src/lib.rs:211, 225, 239: the variant that the method [name] is
      generated for. *)
  Definition method_variant (prefix name : string) : option string :=
    find (fun x => String.eqb (prefix ++ camelcase_to_snake_case x) name) variants.

  (** Lines 209-221 [into_*] and 223-235 [as_*]; [None] if there is no such method. *)
  Definition method_payload (prefix name : string) (v : A) : option (option B) :=
    match method_variant prefix name with
    | Some x => Some (if String.eqb x (fst (parts v)) then Some (snd (parts v)) else None)
    | None => None
    end.

  (** Lines 237-249 [is_*]. *)
  Definition method_is (name : string) (v : A) : option bool :=
    match method_variant "is" name with
    | Some x => Some (String.eqb x (fst (parts v)))
    | None => None
    end.
End Methods.

Definition token_into : string -> token -> option (option val) := method_payload token_variants token_parts "into".
Definition token_as : string -> token -> option (option val) := method_payload token_variants token_parts "as".
Definition token_is : string -> token -> option bool := method_is token_variants token_parts.
Definition number_into : string -> number -> option (option number) := method_payload number_variants number_parts "into".
Definition number_as : string -> number -> option (option number) := method_payload number_variants number_parts "as".
Definition number_is : string -> number -> option bool := method_is number_variants number_parts.
