(** A static analysis of the grammar: which tokens that a parser reads lie in no
    extent of the value it returns. *)

From Coq Require Import String List Arith Bool.
From Verif Require Import Base Peresil Token Schema Value Nt Grammar Points Table Static Deriv SpanSpec MarkSpec LandSpec Marks Expect CoverSpec.
Import ListNotations.
Local Open Scope string_scope.
Local Open Scope list_scope.
Local Open Scope nat_scope.

(** Sets of kinds; no set: anything. *)
Definition kset := option (list tkind).
Definition kmem (k : tkind) (l : list tkind) : bool := existsb (tkind_eqb k) l.
Definition kadd (a b : list tkind) : list tkind := fold_right (fun k l => if kmem k l then l else k :: l) b a.
Definition kjoin (a b : kset) : kset := match a, b with Some a, Some b => Some (kadd a b) | _, _ => None end.
Definition kall {A} (f : A -> kset) (l : list A) : kset := fold_right (fun x s => kjoin (f x) s) (Some []) l.
Definition ksub (a b : kset) : bool :=
  match b with None => true | Some b => match a with Some a => forallb (fun k => kmem k b) a | None => false end end.

(** * The tokens a parser reads *)

Section Read.
  Variable na : nt -> kset.
  Fixpoint readg (x : g) : kset :=
    match x with
    | GTok (MK k) _ => Some [k]
    | GTok MNumber _ => None
    | GNT n => na n
    | GPoint | GPeek _ => Some []
    | GSeq steps _ => kall (fun s => readg (snd s)) steps
    | GAlt gs => kall readg gs
    | GOpt y | GMany y | GExt y | GMapErr y _ | GSimple y _ | GAmb _ y | GIfMax _ y => readg y
    | GTailed _ sep f | GTailed1 sep f | GResume sep f | GImplicit sep f =>
        if tfip sep && tfip f then kjoin (readg sep) (readg f) else None
    | GIfAmb a b => kjoin (readg a) (readg b)
    | GNested _ _ | GShunt _ => None
    end.
End Read.

Definition iter_k (f : (nt -> kset) -> g -> kset) : list kset :=
  Nat.iter 12 (fun l => map (fun n => f (lookup None l) (table n)) all_nts) (map (fun _ => None) all_nts).
Definition nread_list : list kset := Eval vm_compute in iter_k readg.
Definition nread : nt -> kset := lookup None nread_list.
Definition tread : g -> kset := readg nread.

Lemma nread_checked : forallb (fun n => ksub (tread (table n)) (nread n)) all_nts = true.
Proof. vm_compute. reflexivity. Qed.

(** * What a builder keeps of its variables *)

Inductive kept : Type := KAll (x : string) | KFst (x : string) | KSnd (x : string).
Definition kept_eqb (a b : kept) : bool :=
  match a, b with KAll x, KAll y | KFst x, KFst y | KSnd x, KSnd y => String.eqb x y | _, _ => false end.

Fixpoint keeps (b : bexp) : list kept :=
  match b with
  | BVar x => [KAll x]
  | BSome b | BSingle b | BIntoAppend b | BUnwrapNil b | BUnwrapOr b _ | BVariant _ _ b => keeps b
  | BMk _ fs => flat_map (fun f => keeps (snd f)) fs
  | BPair a b => keeps a ++ keeps b
  | BFst (BVar x) | BOptFst (BVar x) => [KFst x]
  | BSnd (BVar x) | BOptSnd (BVar x) => [KSnd x]
  | BNumber b => keeps b
  | _ => []
  end.

Fixpoint pat_vars (p : pat) : list string := match p with PVar x => [x] | PPair a b => pat_vars a ++ pat_vars b end.
Definition steps_vars (steps : list (pat * g)) : list string := flat_map (fun s => pat_vars (fst s)) steps.

(** The second half of the pair it returns holds no extent. *)
Fixpoint lists (x : g) : bool :=
  match x with
  | GTailed _ _ _ | GTailed1 _ _ | GImplicit _ _ => true
  | GAmb _ y => lists y
  | GSeq [(PVar x, y)] (BPair (BFst (BVar x')) (BSnd (BSnd (BVar x'')))) => String.eqb x x' && String.eqb x x'' && lists y
  | _ => false
  end.

Definition mem_str (x : string) (l : list string) : bool := existsb (String.eqb x) l.
Definition has_kept (ks : list kept) (k : kept) : bool := existsb (kept_eqb k) ks.

(** Is all of the value of a step kept?  [later]: variables bound afterwards. *)
Fixpoint keeps_pat (ks : list kept) (l : bool) (later : list string) (p : pat) : bool :=
  match p with
  | PVar x => negb (mem_str x later) && (has_kept ks (KAll x) || has_kept ks (KFst x) && (has_kept ks (KSnd x) || l))
  | PPair a b => keeps_pat ks false (pat_vars b ++ later) a && (l || keeps_pat ks false later b)
  end.

Section Cover.
  Variable nc : nt -> kset.

  Section Steps.
    Variable cov : g -> kset.
    Definition step_cov (ks : list kept) (later : list string) (p : pat) (y : g) : kset :=
      if keeps_pat ks (lists y) later p then cov y else tread y.
    Fixpoint steps_cov (ks : list kept) (later : list string) (steps : list (pat * g)) : kset :=
      match steps with
      | [] => Some []
      | (p, y) :: rest => kjoin (step_cov ks (steps_vars rest ++ later) p y) (steps_cov ks later rest)
      end.

    (** The steps from the point [x] on, and those before it with the variables
        bound from there on. *)
    Fixpoint steps_from (x : string) (steps : list (pat * g)) : option (list (pat * g)) :=
      match steps with
      | [] => None
      | (PVar y, GPoint) :: rest => if String.eqb x y && negb (mem_str x (steps_vars rest)) then Some rest else steps_from x rest
      | _ :: rest => steps_from x rest
      end.
    Fixpoint steps_to (x : string) (steps : list (pat * g)) : option (list (pat * g) * list string) :=
      match steps with
      | [] => None
      | (pt, y) :: rest =>
          if match pt, y with PVar z, GPoint => String.eqb x z && negb (mem_str x (steps_vars rest)) | _, _ => false end
          then Some ([], steps_vars ((pt, y) :: rest))
          else option_map (fun r => ((pt, y) :: fst r, snd r)) (steps_to x rest)
      end.
    Definition starts_at (x : string) (steps : list (pat * g)) : bool :=
      (fix go (steps : list (pat * g)) : bool :=
        match steps with
        | (PVar y, GPoint) :: rest => String.eqb x y && negb (mem_str x (steps_vars rest)) || go rest
        | _ => false
        end) steps.

    (** The value has an extent over all the steps. *)
    Fixpoint whole (steps : list (pat * g)) (b : bexp) : bool :=
      match b with
      | BEx x => starts_at x steps
      | BSome b | BSingle b | BIntoAppend b | BUnwrapNil b | BVariant _ _ b => whole steps b
      | BMk _ fs => existsb (fun f => whole steps (snd f)) fs
      | BPair a b => whole steps a || whole steps b
      | BParen a _ => whole steps a
      | _ => false
      end.
  End Steps.

  Fixpoint covg (x : g) : kset :=
    match x with
    | GTok _ _ | GPoint | GNested _ _ | GExt _ | GPeek _ | GShunt _ => Some []
    | GSimple (GTok MNumber _) _ => Some []
    | GSimple _ _ => None
    | GNT n => nc n
    | GSeq steps b =>
        if whole steps b then Some []
        else steps_cov covg (keeps b) [] steps
    | GAlt gs => kall covg gs
    | GOpt y | GMany y | GMapErr y _ | GAmb _ y | GIfMax _ y => covg y
    | GTailed _ sep f | GTailed1 sep f | GResume sep f | GImplicit sep f =>
        if tfip sep && tfip f then kjoin (tread sep) (covg f) else None
    | GIfAmb a b => kjoin (covg a) (covg b)
    end.
End Cover.

Definition ncov_list : list kset := Eval vm_compute in iter_k covg.
Definition ncov : nt -> kset := lookup None ncov_list.
Definition tcov : g -> kset := covg ncov.

(** * Nodes *)

(** The words in a node: nothing if its extent is that of a field. *)
Definition field_keeps (fs : list (string * bexp)) : list kept :=
  flat_map (fun f => if String.eqb (fst f) "extent" then [] else keeps (snd f)) fs.

(** Equal builders (some of them). *)
Fixpoint beqb (a b : bexp) {struct a} : bool :=
  match a, b with
  | BVar x, BVar y | BEx x, BEx y => String.eqb x y
  | BExTo x x', BExTo y y' => String.eqb x y && String.eqb x' y'
  | BNil, BNil | BNone, BNone => true
  | BSingle a, BSingle b => beqb a b
  | BVariant e v a, BVariant e' v' b => String.eqb e e' && String.eqb v v' && beqb a b
  | BField f a, BField f' b => String.eqb f f' && beqb a b
  | BMk k fs, BMk k' fs' =>
      String.eqb k k' &&
      (fix go (fs fs' : list (string * bexp)) : bool :=
         match fs, fs' with
         | [], [] => true
         | (f, a) :: fs, (f', b) :: fs' => String.eqb f f' && beqb a b && go fs fs'
         | _, _ => false
         end) fs fs'
  | _, _ => false
  end.

Definition node_words (steps : list (pat * g)) (fs : list (string * bexp)) : kset :=
  match assoc "extent" fs with
  | Some (BEx x) =>
      match steps_from x steps with
      | Some l => steps_cov tcov (field_keeps fs) [] l
      | None => None
      end
  | Some (BExTo x y) =>
      match steps_from x steps with
      | Some l => match steps_to y l with Some (m, later) => steps_cov tcov (field_keeps fs) later m | None => None end
      | None => None
      end
  | Some (BField _ (BVar x)) => if has_kept (field_keeps fs) (KAll x) then Some [] else None
  | Some (BExtentOf b) => if existsb (fun f => negb (String.eqb (fst f) "extent") && beqb b (snd f)) fs then Some [] else None
  | _ => None
  end.

Definition node_tidy (steps : list (pat * g)) (k : string) (fs : list (string * bexp)) : bool :=
  negb (is_tidy k) || (ksub (node_words steps fs) (Some (own_words k)) && names_chk k (map fst fs)).

(** All nodes built. *)
Fixpoint btidy (steps : list (pat * g)) (b : bexp) : bool :=
  match b with
  | BMk k fs => node_tidy steps k fs && forallb (fun f => btidy steps (snd f)) fs
  | BSome b | BSingle b | BIntoAppend b | BUnwrapNil b | BVariant _ _ b | BFst b | BSnd b | BField _ b | BIsSome b | BExtentOf b | BOptFst b | BOptSnd b | BNumber b => btidy steps b
  | BUnwrapOr a b | BPair a b | BStmts a b | BTrailing a b | BParen a b => btidy steps a && btidy steps b
  | _ => true
  end.

Fixpoint gtidy (x : g) : bool :=
  match x with
  | GTok _ _ | GNT _ | GPoint | GNested _ _ | GShunt _ => true
  | GSeq steps b => btidy steps b && forallb (fun s => gtidy (snd s)) steps
  | GAlt gs => forallb gtidy gs
  | GOpt y | GMany y | GExt y | GPeek y | GMapErr y _ | GSimple y _ | GAmb _ y | GIfMax _ y => gtidy y
  | GTailed app a b => btidy [] app && gtidy a && gtidy b
  | GTailed1 a b | GResume a b | GImplicit a b | GIfAmb a b => gtidy a && gtidy b
  end.

Lemma ncov_checked : forallb (fun n => ksub (tcov (table n)) (ncov n)) all_nts = true.
Proof. vm_compute. reflexivity. Qed.

Lemma gtidy_checked : forallb (fun n => gtidy (table n)) all_nts = true.
Proof. vm_compute. reflexivity. Qed.
