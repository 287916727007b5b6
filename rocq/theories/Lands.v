(** A static analysis of the table: which tokens stand between the parts of a
    node.  It refines the times of [Spans] by the tokens that each step surely
    reads, and checks the tables of [LandSpec]. *)

From Coq Require Import String List Arith Bool.
From Verif Require Import Base Peresil Token Schema Value Nt Grammar Points Table Static SpanSpec MarkSpec LandSpec Deriv Spans.
From Verif Require Import Marks.
Import ListNotations.
Local Open Scope string_scope.
Local Open Scope list_scope.
Local Open Scope nat_scope.

(** * Tokens that a parser surely reads *)

(** A list of sets: of each set, one token is read. *)
Definition msets := list (list matcher).

Definition incl_b (a b : list matcher) : bool := forallb (fun m => mem m b) a.
Definition same_b (a b : list matcher) : bool := incl_b a b && incl_b b a.
Definition dedup (l : msets) : msets := fold_right (fun a l => if existsb (same_b a) l then l else a :: l) [] l.

(** What both of two parsers read. *)
Definition common (a b : msets) : msets :=
  let l := dedup (flat_map (fun x => map (fun y => add_all x y) b) a) in if length l <=? 24 then l else [].

Fixpoint commons (l : list msets) : msets :=
  match l with
  | [] => []
  | [a] => a
  | a :: l' => common a (commons l')
  end.

Section Must.
  Variable nmust : nt -> msets.
  Fixpoint mustg (x : g) : msets :=
    match x with
    | GTok m _ => [[m]]
    | GNT n => nmust n
    | GSeq steps _ => flat_map (fun s => mustg (snd s)) steps
    | GAlt gs => commons (map mustg gs)
    | GTailed1 _ f => mustg f
    | GExt y | GMapErr y _ | GSimple y _ | GAmb _ y | GIfMax _ y => mustg y
    | GIfAmb a b => common (mustg a) (mustg b)
    | _ => []
    end.
End Must.

Definition must_step (l : list msets) : list msets :=
  let nmust := lookup [] l in map (fun n => let r := dedup (mustg nmust (table n)) in if length r <=? 18 then r else []) all_nts.
Definition must_list : list msets := Eval vm_compute in Nat.iter 4 must_step (map (fun _ => []) all_nts).
Definition nmust : nt -> msets := lookup [] must_list.
Definition tmust : g -> msets := mustg nmust.

(** Some set of [l] is within [ms]. *)
Definition some_in (ms : list matcher) (l : msets) : bool := existsb (fun a => incl_b a ms) l.

Lemma nmust_checked : forallb (fun n => forallb (fun ms => some_in ms (tmust (table n))) (nmust n)) all_nts = true.
Proof. vm_compute. reflexivity. Qed.

(** * Values *)

(** [SList l]: a list with tokens of [l] between neighbours; [SSelf l]: the same,
    but behind elements that need none. *)
Inductive sav : Type := SAny | SNone | SList (l : list matcher) | SSelf (l : list matcher) | SFst (s : sav) | SOpt (s : sav).

Fixpoint sav_or (a b : sav) : sav :=
  match a, b with
  | SNone, SNone => SNone
  | SNone, SOpt s | SOpt s, SNone => SOpt s
  | SList l, SList l' => SList (add_all l l')
  | SFst a, SFst b => SFst (sav_or a b)
  | SOpt a, SOpt b => SOpt (sav_or a b)
  | _, _ => SAny
  end.

(** The tokens read in front of and behind all extents of a value, by the parser
    that returned it. *)
Record la := mkLa { lead : msets; trail : msets; lsep : sav }.
Definition la_any : la := mkLa [] [] SAny.
Definition la_or (a b : la) : la := mkLa (common (lead a) (lead b)) (common (trail a) (trail b)) (sav_or (lsep a) (lsep b)).

(** Variables with the step that bound them, and what each step reads. *)
Definition lenv := list (string * (nat * la)).
Definition events := list (nat * msets).

(** The variable that all extents of [b] come from. *)
Fixpoint src (b : bexp) : option string :=
  match b with
  | BVar x => Some x
  | BSome b | BSingle b | BIntoAppend b | BUnwrapNil b | BFst b | BSnd b | BField _ b | BVariant _ _ b | BOptFst b | BOptSnd b => src b
  | BStmts b _ | BTrailing b _ => src b
  | _ => None
  end.

Definition src_la (le : lenv) (b : bexp) : option (nat * la) := obind (src b) (fun x => assoc x le).

Fixpoint bsv (le : lenv) (b : bexp) : sav :=
  match b with
  | BVar x => match assoc x le with Some (_, l) => lsep l | None => SAny end
  | BNil | BSingle _ => SList []
  | BNone => SNone
  | BSome b => SOpt (bsv le b)
  | BFst b => match bsv le b with SFst s => s | _ => SAny end
  | BPair a b => SFst (bsv le a)
  | BOptFst b => match bsv le b with SNone => SNone | SOpt (SFst s) => SOpt s | _ => SAny end
  | BUnwrapNil b => match bsv le b with SNone => SList [] | SOpt (SList l) => SList l | _ => SAny end
  | _ => SAny
  end.

(** What is read before time [t], and from time [t] on. *)
Definition read_before (t : nat) (ev : events) : msets := flat_map (fun '(j, l) => if 2 * j + 2 <=? t then l else []) ev.
Definition read_after (t : nat) (ev : events) : msets := flat_map (fun '(j, l) => if t <=? 2 * j then l else []) ev.

Fixpoint lbind (p : pat) (i : nat) (a : la) (le : lenv) : lenv :=
  match p with
  | PVar x => (x, (i, a)) :: le
  | PPair p1 p2 =>
      lbind p2 i (mkLa (lead a) (trail a) SAny) (lbind p1 i (mkLa (lead a) (trail a) match lsep a with SFst s => s | _ => SAny end) le)
  end.

Definition step_env (p : pat) (y : g) (se : senv) (i : nat) (mv : moves) : senv :=
  match walk tchk [(p, y)] se i mv with Some (se', _, _) => se' | None => se end.

Section Leads.
  Variable nla : nt -> la.

  Section Steps.
    Variable ldg : senv -> nat -> moves -> g -> la.
    Fixpoint lwalk (steps : list (pat * g)) (se : senv) (i : nat) (mv : moves) (le : lenv) (ev : events) : lenv * events :=
      match steps with
      | [] => (le, ev)
      | (p, y) :: rest =>
          lwalk rest (step_env p y se i mv) (i + 1) (moved i y mv) (lbind p i (ldg se i mv y) le) ((i, tmust y) :: ev)
      end.
  End Steps.

  Definition is_nil (b : bexp) : bool := match b with BNil => true | _ => false end.

  Fixpoint ldg (se : senv) (i : nat) (mv : moves) (x : g) {struct x} : la :=
    match x with
    | GNT n => nla n
    | GSeq steps b =>
        match walk tchk steps se i mv with
        | Some (se', i', mv') =>
            let '(le, ev) := lwalk ldg steps se i mv [] [] in
            let own := match src_la le b with Some (_, l) => (lead l, trail l) | None => ([], []) end in
            match bat se' i' mv' b with
            | Some a => mkLa (dedup (read_before (a_lo a) ev ++ fst own)) (dedup (read_after (a_hi a) ev ++ snd own)) (bsv le b)
            | None => la_any
            end
        | None => la_any
        end
    | GAlt [] => la_any
    | GAlt (y :: gs) => fold_right (fun z a => la_or (ldg se i mv z) a) (ldg se i mv y) gs
    | GOpt y => let a := ldg se i mv y in mkLa (lead a) (trail a) (SOpt (lsep a))
    | GTailed app sep _ => mkLa [] [] (if is_nil app then match tone sep with Some l => SFst (SList l) | None => SAny end else SAny)
    | GTailed1 sep _ => mkLa [] [] match tone sep with Some l => SFst (SList l) | None => SAny end
    | GResume sep _ => mkLa [] [] match tone sep with Some l => SList l | None => SAny end
    | GImplicit sep _ => mkLa [] [] match tone sep with Some l => SFst (SSelf l) | None => SAny end
    | GMapErr y _ | GAmb _ y | GIfMax _ y => ldg se i mv y
    | GIfAmb a b => la_or (ldg se i mv a) (ldg se i mv b)
    | _ => la_any
    end.
End Leads.

Definition la_list : list la :=
  Eval vm_compute in Nat.iter 6 (fun l => let nla := lookup la_any l in map (fun n => ldg nla [] 0 still (table n)) all_nts) (map (fun _ => la_any) all_nts).
Definition nla : nt -> la := lookup la_any la_list.
Definition tla : senv -> nat -> moves -> g -> la := ldg nla.

Lemma nla_checked : map (fun n => tla [] 0 still (table n)) all_nts = la_list.
Proof. vm_compute. reflexivity. Qed.

(** * The check of the tables *)

Section Node.
  Variables (se : senv) (i : nat) (mv : moves) (le : lenv) (ev : events).

  (** The points where the extent of a node starts and ends. *)
  Definition extent_steps (fs : list (string * bexp)) : option (nat * nat) :=
    match assoc "extent" fs with
    | Some (BEx x) => omap (fun j => (j, i)) (point_of se x)
    | Some (BExTo x y) => obind (point_of se x) (fun j => obind (point_of se y) (fun k => if j <=? k then Some (j, k) else None))
    | _ => None
    end.

  (** The end of the field [l], or the start of the node. *)
  Definition left_time (fs : list (string * bexp)) (l : string) : option nat :=
    if String.eqb l "" then omap (fun '(j, _) => 2 * j) (extent_steps fs)
    else obind (assoc l fs) (fun b => omap a_hi (bat se i mv b)).

  (** The start of the field [r], or the end of the node. *)
  Definition right_time (fs : list (string * bexp)) (r : string) : option nat :=
    if String.eqb r "" then omap (fun '(_, k) => 2 * k) (extent_steps fs)
    else obind (assoc r fs) (fun b => omap a_lo (bat se i mv b)).

  Definition no_extents (fs : list (string * bexp)) (l : string) : bool :=
    negb (String.eqb l "") && match obind (assoc l fs) (bat se i mv) with Some a => a_emp a | None => false end.

  (** The tokens that are read between two fields. *)
  Definition tokens_between (fs : list (string * bexp)) (l r : string) : msets :=
    match left_time fs l, right_time fs r with
    | Some hi, Some lo =>
        flat_map (fun '(j, m) => if (hi <=? 2 * j) && (2 * j + 2 <=? lo) then m else []) ev ++
        match obind (assoc r fs) (src_la le) with
        | Some (j, a) => if negb (String.eqb r "") && (hi <=? 2 * j) then lead a else []
        | None => []
        end ++
        match obind (assoc l fs) (src_la le) with
        | Some (j, a) => if negb (String.eqb l "") && (2 * j + 2 <=? lo) then trail a else []
        | None => []
        end
    | _, _ => []
    end.

  Definition land_ok (fs : list (string * bexp)) (l : string) (ms : list matcher) (r : string) : bool :=
    no_extents fs l || no_extents fs r ||
    (implb (String.eqb r "") (forallb whole_matcher ms) && some_in ms (tokens_between fs l r)).

  Definition sep_ok (b : option bexp) (ms : list matcher) : bool :=
    match b with
    | Some b => match bsv le b with SList l => incl_b l ms | _ => false end
    | None => false
    end.

  Definition loose_ok (fs : list (string * bexp)) (f g : string) (ms : list matcher) : bool :=
    match assoc f fs, assoc g fs with
    | Some (BStmts (BVar s) (BVar t)), Some (BTrailing (BVar s') (BVar t')) =>
        String.eqb s s' && String.eqb t t' && match bsv le (BVar s) with SSelf l => incl_b l ms | _ => false end
    | Some b, None => String.eqb g "" && match bsv le b with SSelf l => incl_b l ms | _ => false end
    | _, _ => false
    end.

  Definition node_land (k : string) (fs : list (string * bexp)) : bool :=
    forallb (fun '(k', l, ms, r) => implb (String.eqb k k') (land_ok fs l ms r)) landmarks &&
    forallb (fun '(k', f, ms) => implb (String.eqb k k') (sep_ok (assoc f fs) ms)) separators &&
    forallb (fun '(k', f, g, ms) => implb (String.eqb k k') (loose_ok fs f g ms)) loose_separators.

  Fixpoint blchk (b : bexp) : bool :=
    match b with
    | BVar _ | BEx _ | BExTo _ _ | BUnit | BNil | BNone => true
    | BIsSome b | BSome b | BSingle b | BIntoAppend b | BUnwrapNil b | BFst b | BSnd b | BField _ b | BExtentOf b
    | BOptFst b | BOptSnd b | BNumber b | BVariant _ _ b => blchk b
    | BUnwrapOr a b | BPair a b | BStmts a b | BTrailing a b => blchk a && blchk b
    | BMk k fs =>
        names_chk k (map fst fs) && node_land k fs &&
        (fix go (fs : list (string * bexp)) : bool := match fs with [] => true | (_, b) :: fs' => blchk b && go fs' end) fs
    | BParen x t =>
        blchk x && blchk t &&
        node_land "Parenthetical" [("extent", x); ("expression", BFst t); ("whitespace", BNil)] &&
        node_land "Tuple" [("extent", x); ("members", BFst t); ("whitespace", BNil)]
    end.
End Node.

Section LSteps.
  Variable lchk : senv -> nat -> moves -> g -> bool.
  Fixpoint lchk_steps (steps : list (pat * g)) (se : senv) (i : nat) (mv : moves) : bool :=
    match steps with
    | [] => true
    | (p, y) :: rest => lchk se i mv y && lchk_steps rest (step_env p y se i mv) (i + 1) (moved i y mv)
    end.
End LSteps.

Fixpoint lchk (se : senv) (i : nat) (mv : moves) (x : g) {struct x} : bool :=
  match x with
  | GSeq steps b =>
      lchk_steps lchk steps se i mv &&
      match walk tchk steps se i mv with
      | Some (se', i', mv') => let '(le, ev) := lwalk tla steps se i mv [] [] in blchk se' i' mv' le ev b
      | None => false
      end
  | GAlt gs => forallb (lchk se i mv) gs
  | GOpt y | GMapErr y _ | GSimple y _ | GAmb _ y | GIfMax _ y => lchk se i mv y
  | GMany y | GTailed1 _ y | GResume _ y | GImplicit _ y => lchk [] 0 still y
  | GTailed app _ y => lchk [] 0 still y && blchk se i mv [] [] app
  | GIfAmb a b => lchk se i mv a && lchk se i mv b
  | _ => true
  end.

Lemma lchk_checked : forallb (fun n => lchk [] 0 still (table n)) all_nts = true.
Proof. vm_compute. reflexivity. Qed.
