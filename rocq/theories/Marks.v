(** A static analysis of the grammar: by which tokens what a parser reads begins
    and ends, and which of its results are extents of single tokens. *)

From Coq Require Import String List Arith Bool Lia.
From Verif Require Import Base Peresil Token Schema Value Nt Grammar Points Table Static MarkSpec.
Import ListNotations.
Local Open Scope string_scope.
Local Open Scope list_scope.
Local Open Scope nat_scope.

(** * Sets of kinds of tokens; [None] is no information. *)

Definition matcher_eqb (a b : matcher) : bool :=
  match a, b with MK k, MK k' => tkind_eqb k k' | MNumber, MNumber => true | _, _ => false end.

Definition mset := option (list matcher).
Definition mem (m : matcher) (l : list matcher) : bool := existsb (matcher_eqb m) l.
Definition add_all (a b : list matcher) : list matcher := fold_right (fun m l => if mem m l then l else m :: l) b a.
Definition union (a b : mset) : mset :=
  match a, b with Some a, Some b => Some (add_all a b) | _, _ => None end.
Definition subset (a b : mset) : bool :=
  match a, b with
  | _, None => true
  | Some a, Some b => forallb (fun m => mem m b) a
  | None, Some _ => false
  end.

(** Whether nothing may be read; the kinds of the first and of the last token. *)
Record fl := mkFl { nul : bool; fi : mset; la : mset }.

Definition fl_nothing : fl := mkFl true (Some []) (Some []).
Definition fl_bottom : fl := mkFl false (Some []) (Some []).
Definition fl_top : fl := mkFl false None None.
Definition fl_seq (a b : fl) : fl :=
  mkFl (nul a && nul b) (if nul a then union (fi a) (fi b) else fi a) (if nul b then union (la a) (la b) else la b).
Definition fl_or (a b : fl) : fl := mkFl (nul a || nul b) (union (fi a) (fi b)) (union (la a) (la b)).
Definition fl_le (a b : fl) : bool := implb (nul a) (nul b) && subset (fi a) (fi b) && subset (la a) (la b).

Section Ends.
  Variable nfl : nt -> fl.

  Fixpoint flg (x : g) : fl :=
    match x with
    | GTok m _ => mkFl false (Some [m]) (Some [m])
    | GNT n => nfl n
    | GPoint | GPeek _ => fl_nothing
    | GSeq steps _ => fold_right (fun s a => fl_seq (flg (snd s)) a) fl_nothing steps
    | GAlt gs => fold_right (fun y a => fl_or (flg y) a) fl_bottom gs
    | GOpt y | GMany y => fl_or fl_nothing (flg y)
    | GTailed1 _ f => if nul (flg f) then fl_top else mkFl false (fi (flg f)) None
    | GTailed _ _ _ | GResume _ _ | GImplicit _ _ | GNested _ _ | GShunt _ => fl_top
    | GExt y | GMapErr y _ | GSimple y _ | GAmb _ y | GIfMax _ y => flg y
    | GIfAmb a b => fl_or (flg a) (flg b)
    end.
End Ends.

Definition fl_list : list fl :=
  Eval vm_compute in Nat.iter 20 (fun l => let nfl := lookup fl_top l in map (fun n => flg nfl (table n)) all_nts) (map (fun _ => fl_bottom) all_nts).
Definition nfl : nt -> fl := lookup fl_top fl_list.
Definition tfl : g -> fl := flg nfl.

Lemma nfl_checked : forallb (fun n => fl_le (tfl (table n)) (nfl n)) all_nts = true.
Proof. vm_compute. reflexivity. Qed.

(** * Parsers of single tokens *)

Section One.
  Variable none : nt -> mset.
  Fixpoint oneg (x : g) : mset :=
    match x with
    | GTok m _ => Some [m]
    | GNT n => none n
    | GSeq [(_, y)] _ => oneg y
    | GAlt gs => fold_right (fun y a => union (oneg y) a) (Some []) gs
    | GExt y | GMapErr y _ | GSimple y _ | GAmb _ y | GIfMax _ y => oneg y
    | GIfAmb a b => union (oneg a) (oneg b)
    | _ => None
    end.
End One.

Definition one_list : list mset :=
  Eval vm_compute in Nat.iter 20 (fun l => let none := lookup None l in map (fun n => oneg none (table n)) all_nts) (map (fun _ => Some []) all_nts).
Definition none : nt -> mset := lookup None one_list.
Definition tone : g -> mset := oneg none.

Lemma none_checked : forallb (fun n => subset (tone (table n)) (none n)) all_nts = true.
Proof. vm_compute. reflexivity. Qed.

(** * Values *)

(** [AExt one s]: an extent, of one token of [one], or of tokens as [s] tells. *)
Inductive av : Type := AAny | ANone | AExt (one : mset) (s : fl) | AOpt (a : av) | APair (a b : av).

Fixpoint av_or (a b : av) : av :=
  match a, b with
  | ANone, ANone => ANone
  | ANone, AOpt a | AOpt a, ANone => AOpt a
  | AOpt a, AOpt b => AOpt (av_or a b)
  | AExt o s, AExt o' s' => AExt (union o o') (fl_or s s')
  | APair a b, APair a' b' => APair (av_or a a') (av_or b b')
  | _, _ => AAny
  end.

Inductive ent : Type := EPt (s : fl) | EVal (a : av).
Definition menv := list (string * ent).

Fixpoint bind_av (p : pat) (a : av) (se : menv) : menv :=
  match p with
  | PVar x => (x, EVal a) :: se
  | PPair p1 p2 =>
      match a with
      | APair a1 a2 => bind_av p2 a2 (bind_av p1 a1 se)
      | _ => bind_av p2 AAny (bind_av p1 AAny se)
      end
  end.

Definition passed (s : fl) (se : menv) : menv :=
  map (fun '(x, t) => (x, match t with EPt s' => EPt (fl_seq s' s) | _ => t end)) se.

Section Values.
  Variable nav : nt -> av.

  Fixpoint bav (se : menv) (b : bexp) : av :=
    match b with
    | BVar x => match assoc x se with Some (EVal a) => a | _ => AAny end
    | BEx x => match assoc x se with Some (EPt s) => AExt None s | _ => AAny end
    | BNone => ANone
    | BSome b => AOpt (bav se b)
    | BPair a b => APair (bav se a) (bav se b)
    | BFst b => match bav se b with APair a _ => a | _ => AAny end
    | BSnd b => match bav se b with APair _ a => a | _ => AAny end
    | BOptFst b => match bav se b with ANone => ANone | AOpt (APair a _) => AOpt a | _ => AAny end
    | _ => AAny
    end.

  Section Steps.
    Variable avg : menv -> g -> av.
    Fixpoint mwalk (steps : list (pat * g)) (se : menv) : menv :=
      match steps with
      | [] => se
      | (p, y) :: rest =>
          mwalk rest (match p, y with
                      | PVar x, GPoint => (x, EPt fl_nothing) :: se
                      | _, _ => bind_av p (avg se y) (passed (tfl y) se)
                      end)
      end.
  End Steps.

  Fixpoint avg (se : menv) (x : g) : av :=
    match x with
    | GTok (MK k) _ => AExt (Some [MK k]) (tfl x)
    | GNT n => nav n
    | GSeq steps b => bav (mwalk avg steps se) b
    | GAlt [] => AAny
    | GAlt (y :: gs) => fold_right (fun z a => av_or (avg se z) a) (avg se y) gs
    | GOpt y => AOpt (avg se y)
    | GExt y => AExt (tone y) (tfl y)
    | GMapErr y _ | GAmb _ y | GIfMax _ y => avg se y
    | GSimple (GTok MNumber _ as y) _ => AExt (Some [MNumber]) (tfl y)
    | GSimple _ _ => AAny
    | GIfAmb a b => av_or (avg se a) (avg se b)
    | _ => AAny
    end.
End Values.

Definition av_list : list av :=
  Eval vm_compute in Nat.iter 8 (fun l => let nav := lookup AAny l in map (fun n => avg nav [] (table n)) all_nts) (map (fun _ => AAny) all_nts).
Definition nav : nt -> av := lookup AAny av_list.
Definition tav : menv -> g -> av := avg nav.

Lemma nav_checked : map (fun n => tav [] (table n)) all_nts = av_list.
Proof. vm_compute. reflexivity. Qed.

(** * The check of the tables of [MarkSpec] *)

Definition all_in (l : list matcher) (ms : list matcher) : bool := forallb (fun m => mem m ms) l.

Definition av_marks (ms : list matcher) (a : av) : bool :=
  match a with
  | ANone => true
  | AExt (Some l) _ | AOpt (AExt (Some l) _) => all_in l ms
  | _ => false
  end.

Definition av_first_last (k : string) (a : list matcher) (b : option (list matcher)) (v : av) : bool :=
  match v with
  | AExt _ s =>
      implb (nul s) (existsb (String.eqb k) may_be_empty) && subset (fi s) (Some a) &&
      match b, la s with
      | None, _ => true
      | Some ms, Some l => all_in l ms && forallb whole_matcher l
      | Some _, None => false
      end
  | _ => false
  end.

Definition node_chk (k : string) (fs : list (string * av)) : bool :=
  negb (String.eqb k "Number") &&
  forallb (fun '(k', f, ms) => implb (String.eqb k k') match assoc f fs with Some a => av_marks ms a | None => false end) markers &&
  forallb (fun '(k', a, b) => implb (String.eqb k k') match assoc "extent" fs with Some v => av_first_last k a b v | None => false end) first_last &&
  forallb (fun '(k', _, _, _, _) => negb (String.eqb k k')) operators && forallb (fun '(k', _) => negb (String.eqb k k')) operator_ends.

Definition variant_chk (e t : string) (a : av) : bool :=
  forallb (fun '(e', t', ms) => implb (String.eqb e e' && String.eqb t t') (av_marks ms a)) payloads.

(** The names of the fields are those of the declaration. *)
Fixpoint names_eqb (a b : list string) : bool :=
  match a, b with
  | [], [] => true
  | x :: a', y :: b' => String.eqb x y && names_eqb a' b'
  | _, _ => false
  end.

Definition names_chk (k : string) (fs : list string) : bool :=
  match struct_fields k with Some fields => names_eqb fs (map (fun f => fst (fst f)) fields) | None => false end.

Fixpoint bchk (se : menv) (b : bexp) : bool :=
  match b with
  | BVar _ | BEx _ | BExTo _ _ | BUnit | BNil | BNone => true
  | BSome b | BSingle b | BIntoAppend b | BUnwrapNil b | BFst b | BSnd b | BField _ b | BExtentOf b | BIsSome b
  | BOptFst b | BOptSnd b | BNumber b => bchk se b
  | BUnwrapOr a b | BPair a b | BStmts a b | BTrailing a b => bchk se a && bchk se b
  | BMk k fs =>
      names_chk k (map fst fs) &&
      (fix go (l : list (string * bexp)) : bool := match l with [] => true | (_, b) :: l' => bchk se b && go l' end) fs &&
      node_chk k (map (fun f => (fst f, bav se (snd f))) fs)
  | BVariant e t b => bchk se b && variant_chk e t (bav se b)
  | BParen a b =>
      bchk se a && bchk se b && node_chk "Parenthetical" [("extent", bav se a)] && node_chk "Tuple" [("extent", bav se a)]
  end.

(** An environment some time later. *)
Definition weak (se : menv) : menv := map (fun '(x, t) => (x, match t with EPt _ => EPt fl_top | _ => t end)) se.

Section Check.
  Section Steps.
    Variable mchk : menv -> g -> bool.
    Fixpoint mchk_steps (steps : list (pat * g)) (se : menv) : bool :=
      match steps with
      | [] => true
      | (p, y) :: rest =>
          mchk se y &&
          mchk_steps rest (match p, y with
                           | PVar x, GPoint => (x, EPt fl_nothing) :: se
                           | _, _ => bind_av p (tav se y) (passed (tfl y) se)
                           end)
      end.
  End Steps.

  Fixpoint mchk (se : menv) (x : g) : bool :=
    match x with
    | GTok _ _ | GNT _ | GPoint | GNested _ _ | GShunt _ => true
    | GSeq steps b => mchk_steps mchk steps se && bchk (mwalk tav steps se) b
    | GAlt gs => forallb (mchk se) gs
    | GOpt y | GExt y | GPeek y | GMapErr y _ | GSimple y _ | GAmb _ y | GIfMax _ y => mchk se y
    | GMany y => mchk (weak se) y
    | GTailed app sep f => bchk se app && mchk (weak se) sep && mchk (weak se) f
    | GTailed1 sep f | GResume sep f | GImplicit sep f => mchk (weak se) sep && mchk (weak se) f
    | GIfAmb a b => mchk se a && mchk se b
    end.
End Check.

Lemma mchk_checked : forallb (fun n => mchk [] (table n)) all_nts = true.
Proof. vm_compute. reflexivity. Qed.
