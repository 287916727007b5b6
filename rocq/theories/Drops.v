(** A static analysis of the grammar: the lists behind whose last element tokens
    may be dropped. *)

From Coq Require Import String List NArith Arith Bool.
From Verif Require First.
From Verif Require Import Base Peresil Token Schema Value Nt Grammar Points Table Static Deriv Spans SpanSpec MarkSpec LandSpec Marks Expect CoverSpec Cover DropSpec.
Import ListNotations.
Local Open Scope string_scope.
Local Open Scope list_scope.
Local Open Scope nat_scope.

(** All the variables a builder mentions; none if it makes extents of its own. *)
Definition vjoin (a b : option (list string)) : option (list string) := match a, b with Some a, Some b => Some (a ++ b) | _, _ => None end.
Fixpoint bvars (b : bexp) : option (list string) :=
  match b with
  | BVar x => Some [x]
  | BUnit | BNil | BNone => Some []
  | BSome b | BSingle b | BIntoAppend b | BUnwrapNil b | BVariant _ _ b | BFst b | BSnd b | BField _ b | BIsSome b | BExtentOf b | BOptFst b | BOptSnd b => bvars b
  | BUnwrapOr a b | BPair a b | BStmts a b | BTrailing a b => vjoin (bvars a) (bvars b)
  | _ => None
  end.

(** Variables that a parser keeps in its value. *)
Definition gkeeps (x : g) : list kept :=
  match x with
  | GTailed app _ _ => keeps app
  | GSeq [(PVar x, GTailed app _ _)] (BFst (BVar x')) => if String.eqb x x' then keeps app else []
  | _ => []
  end.

(** What is kept of the variables before the steps, [ks] being kept of those behind. *)
Definition kept_var (k : kept) : string := match k with KAll x | KFst x | KSnd x => x end.
Fixpoint steps_keep (ks : list kept) (steps : list (pat * g)) : list kept :=
  match steps with
  | [] => ks
  | (p, y) :: rest =>
      let ks' := steps_keep ks rest in
      filter (fun k => negb (mem_str (kept_var k) (pat_vars p))) ks' ++ (if keeps_pat ks' (lists y) [] p then gkeeps y else [])
  end.

Definition step_words (ks : list kept) (p : pat) (y : g) : kset := if keeps_pat ks (lists y) [] p then tcov y else tread y.

(** The words of steps that keep all they read but words. *)
Fixpoint steps_words (ks : list kept) (steps : list (pat * g)) : kset :=
  match steps with
  | [] => Some []
  | (p, y) :: rest => kjoin (step_words (steps_keep ks rest) p y) (steps_words ks rest)
  end.

Section Tail.
  Variable na : nt -> kset.

  Section Steps.
    Variable tl : g -> kset.
    (** The words in front of and behind what is dropped; the steps behind keep
        nothing of what is asked for. *)
    Fixpoint steps_tail (ks : list kept) (vs : list string) (steps : list (pat * g)) : kset :=
      match steps with
      | [] => Some []
      | (p, y) :: rest =>
          let ks' := steps_keep ks rest in
          match step_words ks' p y with
          | Some W => kjoin (Some W) (steps_tail ks vs rest)
          | None => if keeps_pat ks' (lists y) [] p && negb (existsb (fun x => mem_str x vs) (steps_vars rest)) then kjoin (tl y) (steps_words ks rest) else None
          end
      end.
  End Steps.

  Fixpoint tailg (x : g) : kset :=
    match tcov x with
    | Some W => Some W
    | None =>
      match x with
      | GNT n => na n
      | GSeq steps b => match bvars b with Some vs => steps_tail tailg (keeps b) vs steps | None => None end
      | GAlt gs => kall tailg gs
      | GOpt y | GMapErr y _ | GAmb _ y | GIfMax _ y => tailg y
      | GTailed _ sep f | GTailed1 sep f | GResume sep f | GImplicit sep f => if tfip sep then kjoin (tread sep) (tcov f) else None
      | GIfAmb a b => kjoin (tailg a) (tailg b)
      | _ => None
      end
    end.
End Tail.

Definition ntail_list : list kset := Eval vm_compute in iter_k tailg.
Definition ntail : nt -> kset := lookup None ntail_list.
Definition ttail : g -> kset := tailg ntail.

Lemma ntail_checked : forallb (fun n => ksub (ttail (table n)) (ntail n)) all_nts = true.
Proof. vm_compute. reflexivity. Qed.

(** What is dropped begins with one of these tokens (a set of [First]). *)
Section Start.
  Variable ns : nt -> N.

  Section Steps.
    Variable st : g -> N.
    Fixpoint steps_start (ks : list kept) (steps : list (pat * g)) : N :=
      match steps with
      | [] => 0%N
      | (p, y) :: rest => match step_words (steps_keep ks rest) p y with Some _ => steps_start ks rest | None => st y end
      end.
  End Steps.

  Fixpoint startg (x : g) : N :=
    match tcov x with
    | Some _ => 0%N
    | None =>
      match x with
      | GNT n => ns n
      | GSeq steps b => steps_start startg (keeps b) steps
      | GAlt gs => fold_right (fun y a => N.lor (startg y) a) 0%N gs
      | GOpt y | GMapErr y _ | GAmb _ y | GIfMax _ y => startg y
      | GTailed _ _ f | GTailed1 _ f | GResume _ f | GImplicit _ f => First.firstg f
      | GIfAmb a b => N.lor (startg a) (startg b)
      | _ => 0%N
      end
    end.
End Start.

Definition nstart_list : list N := Eval vm_compute in
  Nat.iter 12 (fun l => map (fun n => startg (lookup 0%N l) (table n)) all_nts) (map (fun _ => 0%N) all_nts).
Definition nstart : nt -> N := lookup 0%N nstart_list.
Definition tstart : g -> N := startg nstart.
Definition nsub (a b : N) : bool := N.eqb (N.land a b) a.

Lemma nstart_checked : forallb (fun n => nsub (tstart (table n)) (nstart n)) all_nts = true.
Proof. vm_compute. reflexivity. Qed.

(** The word that an optional clause begins with. *)
Definition leading (x : g) : option tkind :=
  match x with
  | GOpt (GNT n) => match table n with GSeq ((_, GTok (MK k) _) :: _) _ => Some k | _ => None end
  | _ => None
  end.

(** The tokens of the specification as a set. *)
Definition opening_set (k f : string) : N :=
  N.lor (if fst (opening k f) then First.bit_number else 0%N) (fold_right (fun w a => N.lor (First.bit w) a) 0%N (snd (opening k f))).

(** The parser uses no variables but its own. *)
Definition closed (x : g) : bool := match tchk [] 0 still x with Some _ => true | None => false end.

(** * Nodes *)

Definition subset (a b : list string) : bool := forallb (fun x => mem_str x b) a.
Definition disjoint (a b : list string) : bool := forallb (fun x => negb (mem_str x b)) a.

(** A block keeps its statements in two fields. *)
Definition block_keeps (fs : list (string * bexp)) : list kept :=
  match assoc "statements" fs, assoc "expression" fs with
  | Some (BStmts (BVar s) (BVar t)), Some (BTrailing (BVar s') (BVar t')) => if String.eqb s s' && String.eqb t t' then [KAll s] else []
  | _, _ => []
  end.
Definition node_keeps (fs : list (string * bexp)) : list kept := field_keeps fs ++ block_keeps fs.

Section Node.
  Variables (k : string) (fs : list (string * bexp)).

  (** The field [f] and the fields before it are built from variables that are not
      bound here or [later], the fields behind it from variables bound [later] only. *)
  Definition fray_at (here later : list string) (f : string) : bool :=
    forallb (fun g => match assoc g fs with Some b => match bvars b with Some l => disjoint l (here ++ later) | None => false end | None => false end)
      (f :: fields_before f (source_order k)) &&
    forallb (fun g => match assoc g fs with Some b => match bvars b with Some l => subset l later | None => false end | None => false end)
      (fields_after f (source_order k)).

  Fixpoint node_steps (steps : list (pat * g)) : bool :=
    match steps with
    | [] => true
    | (p, y) :: rest =>
        node_steps rest &&
        let ks := steps_keep (node_keeps fs) rest in
        (ksub (step_words ks p y) (Some (frayed_words k)) ||
         existsb (fun f => fray_at (pat_vars p) (steps_vars rest) f && match leading y with Some w => nsub (First.bit w) (opening_set k f) | None => false end) (fraying k) &&
         forallb (fun s => closed (snd s)) rest ||
         keeps_pat ks (lists y) [] p && ksub (ttail y) (Some (frayed_words k)) &&
         existsb (fun f => fray_at [] (steps_vars rest) f && nsub (tstart y) (opening_set k f)) (fraying k) &&
         forallb (fun s => closed (snd s)) rest)
    end.

  Definition node_frays (steps : list (pat * g)) : bool :=
    match assoc "extent" fs with
    | Some (BEx x) => match steps_from x steps with Some l => node_steps l | None => false end
    | _ => false
    end.
End Node.

Definition node_neat (steps : list (pat * g)) (k : string) (fs : list (string * bexp)) : bool :=
  negb (is_led k) && (negb (is_frayed k && is_whole k) || (node_frays k fs steps && names_chk k (map fst fs))).

(** All nodes built. *)
Fixpoint bneat (steps : list (pat * g)) (b : bexp) : bool :=
  match b with
  | BMk k fs => node_neat steps k fs && forallb (fun f => bneat steps (snd f)) fs
  | BSome b | BSingle b | BIntoAppend b | BUnwrapNil b | BVariant _ _ b | BFst b | BSnd b | BField _ b | BIsSome b | BExtentOf b | BOptFst b | BOptSnd b | BNumber b => bneat steps b
  | BParen x t => node_neat steps "Parenthetical" [("extent", x); ("expression", BFst t); ("whitespace", BNil)] &&
      node_neat steps "Tuple" [("extent", x); ("members", BFst t); ("whitespace", BNil)] && bneat steps t
  | BUnwrapOr a b | BPair a b | BStmts a b | BTrailing a b => bneat steps a && bneat steps b
  | _ => true
  end.

Fixpoint gneat (x : g) : bool :=
  match x with
  | GTok _ _ | GNT _ | GPoint | GNested _ _ | GShunt _ => true
  | GSeq steps b => bneat steps b && forallb (fun s => gneat (snd s)) steps
  | GAlt gs => forallb gneat gs
  | GOpt y | GMany y | GExt y | GPeek y | GMapErr y _ | GSimple y _ | GAmb _ y | GIfMax _ y => gneat y
  | GTailed app a b => bneat [] app && gneat a && gneat b
  | GTailed1 a b | GResume a b | GImplicit a b | GIfAmb a b => gneat a && gneat b
  end.

Lemma gneat_checked : forallb (fun n => gneat (table n)) all_nts = true.
Proof. vm_compute. reflexivity. Qed.
