(** Vocabulary for the properties that relate the text to the AST: pieces of
    source, how tokens spell them, and the outline of an AST. *)

From Coq Require Import String List Bool.
From Verif Require Import Base Token Schema Value.
Import ListNotations.
Local Open Scope string_scope.
Local Open Scope list_scope.

(** * Source *)

(** A symbol or keyword wherever it stands; a token whose place matters
    (identifiers, lifetimes, literals); a number; a token of any sort, as in the
    arguments of a macro. *)
Inductive piece : Type := Sym (k : tkind) | Word (k : tkind) (x : extent) | Num (n : number) | Raw (t : token).

(** Symbols written without a space between them may make one token. *)
Definition gluings : list (tkind * list tkind) :=
  [(KDoubleRightAngle, [KRightAngle; KRightAngle]);
   (KGreaterThanOrEquals, [KRightAngle; KEquals]);
   (KShiftRightEquals, [KRightAngle; KRightAngle; KEquals]);
   (KShiftRightEquals, [KRightAngle; KGreaterThanOrEquals]);
   (KDoubleLeftAngle, [KLeftAngle; KLeftAngle]);
   (KDoubleAmpersand, [KAmpersand; KAmpersand]);
   (KDoublePipe, [KPipe; KPipe])].

(** The tokens spell the pieces, glued or not. *)
Inductive spells : list token -> list piece -> Prop :=
| SP_nil : spells [] []
| SP_sym k x ts ps : spells ts ps -> spells (Tk k x :: ts) (Sym k :: ps)
| SP_word k x ts ps : spells ts ps -> spells (Tk k x :: ts) (Word k x :: ps)
| SP_num n ts ps : spells ts ps -> spells (TkNumber n :: ts) (Num n :: ps)
| SP_raw t ts ps : spells ts ps -> spells (t :: ts) (Raw t :: ps)
| SP_glued k ks x ts ps : In (k, ks) gluings -> spells ts ps -> spells (Tk k x :: ts) (map Sym ks ++ ps).

(** Pieces separated by [sep], possibly with one more at the end. *)
Fixpoint separated (sep : tkind) (l : list (list piece)) (trailing : bool) : list piece :=
  match l with
  | [] => []
  | [x] => x ++ (if trailing then [Sym sep] else [])
  | x :: l' => x ++ Sym sep :: separated sep l' trailing
  end.

Definition commas : list (list piece) -> bool -> list piece := separated KComma.

(** An identifier: the kind of its token and where it is. *)
Definition word : Type := tkind * extent.

Definition spell_word (w : word) : piece := Word (fst w) (snd w).

(** The kinds of token that are identifiers, and those allowed in paths. *)
Definition ident_kind (k : tkind) : bool :=
  existsb (tkind_eqb k) [KIdent; KDefault; KSelfIdent; KDyn; KUnion].
Definition member_kind (k : tkind) : bool := ident_kind k || tkind_eqb k KCrate.

(** * AST *)

(** The nodes that stand for one token. *)
Definition leaf (k : string) : bool :=
  existsb (String.eqb k) ["Ident"; "Character"; "String"; "NumberBinary"; "NumberDecimal"; "NumberHexadecimal"; "NumberOctal"].

(** In place of an extent. *)
Definition hole : val := VExt (0, 0).

(** A whitespace or comment entry. *)
Definition is_whitespace (v : val) : bool :=
  match v with VVar en _ _ => String.eqb en "Whitespace" | _ => false end.

(** The AST without whitespace and without the extents of the nodes that do not
    stand for one token. *)
Fixpoint outline (v : val) : val :=
  match v with
  | VExt _ => hole
  | VSome v => VSome (outline v)
  | VPair a b => VPair (outline a) (outline b)
  | VList l => VList (flat_map (fun v => if is_whitespace v then [] else [outline v]) l)
  | VNode k fs => if leaf k then v else VNode k (map outline fs)
  | VVar en vn p => VVar en vn (outline p)
  | _ => v
  end.

(** A node with an extent and whitespace. *)
Definition node (k : string) (fs : list val) : val := VNode k (hole :: fs ++ [VList []]).

Definition vopt_of {A} (f : A -> val) (o : option A) : val :=
  match o with Some a => VSome (f a) | None => VNone end.

Definition ident (w : word) : val := VNode "Ident" [VExt (snd w)].
