(** Decidable checks on the grammar table: types of the results, progress,
    exactness of start positions, bounded left recursion.  The checks are
    evaluated here; Safety proves what they guarantee. *)

From Coq Require Import String List Arith Bool Lia.
From Verif Require Import Base Peresil Token Schema Value Nt Grammar Points Table.
Import ListNotations.
Local Open Scope string_scope.
Local Open Scope nat_scope.

(** * Types with holes: the empty list and [None] have elements of any type *)

Definition hole : ty := TN "?".

Fixpoint tle (a b : ty) : bool :=
  match a, b with
  | TN x, _ => if String.eqb x "?" then true
               else match b with TN y => String.eqb x y | _ => false end
  | TExt, TExt | TBool, TBool | TNat, TNat | TPoint, TPoint | TNumber, TNumber | TUnit, TUnit => true
  | TOpt x, TOpt y | TList x, TList y => tle x y
  | TPair x1 x2, TPair y1 y2 => tle x1 y1 && tle x2 y2
  | _, _ => false
  end.

Fixpoint hole_free (a : ty) : bool :=
  match a with
  | TN x => negb (String.eqb x "?")
  | TOpt x | TList x => hole_free x
  | TPair x y => hole_free x && hole_free y
  | _ => true
  end.

Fixpoint join (a b : ty) : option ty :=
  if tle a b then Some b
  else if tle b a then Some a
  else
    match a, b with
    | TOpt x, TOpt y => option_map TOpt (join x y)
    | TList x, TList y => option_map TList (join x y)
    | TPair x1 x2, TPair y1 y2 =>
        match join x1 y1, join x2 y2 with
        | Some u, Some v => Some (TPair u v)
        | _, _ => None
        end
    | _, _ => None
    end.

Definition tenv : Type := list (string * ty).

Fixpoint tidx {A} (x : string) (te : list (string * A)) : option nat :=
  match te with
  | [] => None
  | (y, _) :: te' => if String.eqb x y then Some 0 else option_map S (tidx x te')
  end.

(** Whether every value of a type has an extent; [d] bounds the nesting of enums. *)
Fixpoint has_ext (d : nat) (t : ty) : bool :=
  match t with
  | TExt => true
  | TN k =>
      match struct_fields k with
      | Some ((_, TExt, _) :: _) =>
          match enum_variants k with None => true | Some _ => false end
      | Some _ => false
      | None =>
          match d, enum_variants k with
          | S d', Some vs =>
              forallb (fun v => match snd v with Some t => has_ext d' t | None => false end) vs
          | _, _ => false
          end
      end
  | _ => false
  end.

Definition nopoint (t : ty) : bool := match t with TPoint => false | _ => true end.

Fixpoint bind_ty (p : pat) (t : ty) (te : tenv) : option tenv :=
  match p, t with
  | PVar x, _ => if nopoint t then Some ((x, t) :: te) else None
  | PPair a b, TPair ta tb =>
      match bind_ty a ta te with
      | Some te' => bind_ty b tb te'
      | None => None
      end
  | PPair _ _, _ => None
  end.

Definition is_point_var (te : tenv) (x : string) : bool :=
  match assoc x te with Some TPoint => true | _ => false end.

Definition tailed_ty (t : ty) : ty := TPair (TList t) (TPair TNat TBool).

Fixpoint binfer (te : tenv) (b : bexp) {struct b} : option ty :=
  match b with
  | BVar x => assoc x te
  | BEx x => if is_point_var te x then Some TExt else None
  | BExTo x y =>
      if is_point_var te x && is_point_var te y &&
         match tidx x te, tidx y te with Some i, Some j => j <=? i | _, _ => false end
      then Some TExt else None
  | BUnit => Some TUnit
  | BNil => Some (TList hole)
  | BNone => Some (TOpt hole)
  | BSome b => option_map TOpt (binfer te b)
  | BSingle b => option_map TList (binfer te b)
  | BIntoAppend b =>
      match binfer te b with
      | Some (TOpt t) => Some (TList t)
      | Some (TList t) => Some (TList t)
      | _ => None
      end
  | BUnwrapNil b =>
      match binfer te b with
      | Some (TOpt (TList t)) => Some (TList t)
      | _ => None
      end
  | BUnwrapOr b d =>
      match binfer te b, binfer te d with
      | Some (TOpt t), Some t' => join t t'
      | _, _ => None
      end
  | BMk k fs =>
      match struct_fields k with
      | Some fields =>
          if (fix go (fs : list (string * bexp)) (fields : list (string * ty * bool)) : bool :=
                match fs, fields with
                | [], [] => true
                | (f, b) :: fs', (f', t, _) :: fields' =>
                    String.eqb f f' &&
                    match binfer te b with Some t' => tle t' t | None => false end &&
                    go fs' fields'
                | _, _ => false
                end) fs fields
          then Some (TN k) else None
      | None => None
      end
  | BVariant e v b =>
      match enum_variants e with
      | Some vs =>
          match assoc v vs, binfer te b with
          | Some (Some t), Some t' => if tle t' t then Some (TN e) else None
          | Some None, Some TUnit => Some (TN e)
          | _, _ => None
          end
      | None => None
      end
  | BPair a b =>
      match binfer te a, binfer te b with
      | Some x, Some y => Some (TPair x y)
      | _, _ => None
      end
  | BFst b => match binfer te b with Some (TPair x _) => Some x | _ => None end
  | BSnd b => match binfer te b with Some (TPair _ y) => Some y | _ => None end
  | BField f b =>
      match binfer te b with
      | Some (TN k) =>
          match struct_fields k, enum_variants k with
          | Some fields, None =>
              match field_index f fields with
              | Some i => option_map (fun x => snd (fst x)) (nth_error fields i)
              | None => None
              end
          | _, _ => None
          end
      | _ => None
      end
  | BExtentOf b =>
      match binfer te b with
      | Some t => if has_ext 4 t then Some TExt else None
      | None => None
      end
  | BIsSome b => match binfer te b with Some (TOpt _) => Some TBool | _ => None end
  | BOptFst b => match binfer te b with Some (TOpt (TPair x _)) => Some (TOpt x) | _ => None end
  | BOptSnd b => match binfer te b with Some (TOpt (TPair _ (TOpt y))) => Some (TOpt y) | _ => None end
  | BStmts s t =>
      match binfer te s, binfer te t with
      | Some (TList (TN "Statement")), Some TBool => Some (TList (TN "Statement"))
      | _, _ => None
      end
  | BTrailing s t =>
      match binfer te s, binfer te t with
      | Some (TList (TN "Statement")), Some TBool => Some (TOpt (TN "Attributed<Expression>"))
      | _, _ => None
      end
  | BParen x t =>
      match binfer te x, binfer te t with
      | Some TExt, Some t' =>
          if tle t' (tailed_ty (TN "Attributed<Expression>")) then Some (TN "Expression") else None
      | _, _ => None
      end
  | BNumber b => match binfer te b with Some TNumber => Some (TN "Number") | _ => None end
  end.

Definition join_o (a b : option ty) : option ty :=
  match a, b with Some x, Some y => join x y | _, _ => None end.

Definition is_gpoint (x : g) : bool := match x with GPoint => true | _ => false end.

Section InferLists.
  Variable gi : tenv -> g -> option ty.
  Variable b : bexp.

  (** The steps of a sequence, then the closure that builds the result. *)
  Fixpoint infer_steps (steps : list (pat * g)) (te : tenv) : option ty :=
    match steps with
    | [] => binfer te b
    | (p, y) :: rest =>
        match (if is_gpoint y
               then match p with PVar n => Some ((n, TPoint) :: te) | PPair _ _ => None end
               else match gi te y with Some t => bind_ty p t te | None => None end) with
        | Some te' => infer_steps rest te'
        | None => None
        end
    end.

  Variable te : tenv.

  Fixpoint infer_alts (gs : list g) : option ty :=
    match gs with
    | [] => None
    | y :: gs' => match gs' with [] => gi te y | _ => join_o (gi te y) (infer_alts gs') end
    end.
End InferLists.

Fixpoint ginfer (te : tenv) (x : g) {struct x} : option ty :=
  match x with
  | GTok m _ => Some (matcher_type m)
  | GNT n => Some (nt_type n)
  | GPoint => Some TPoint
  | GSeq steps b => infer_steps ginfer b steps te
  | GAlt gs => infer_alts ginfer te gs
  | GOpt y => option_map TOpt (ginfer te y)
  | GMany y => option_map TList (ginfer te y)
  | GTailed app sep f =>
      match binfer te app, ginfer te sep, ginfer te f with
      | Some (TList ta), Some _, Some t => option_map tailed_ty (join ta t)
      | _, _, _ => None
      end
  | GTailed1 sep f | GImplicit sep f =>
      match ginfer te sep, ginfer te f with
      | Some _, Some t => Some (tailed_ty t)
      | _, _ => None
      end
  | GResume sep f =>
      match ginfer te sep, ginfer te f with
      | Some _, Some t => Some (TList t)
      | _, _ => None
      end
  | GNested _ _ => Some TExt
  | GExt y => match ginfer te y with Some _ => Some TExt | None => None end
  | GPeek y => match ginfer te y with Some _ => Some TUnit | None => None end
  | GMapErr y _ | GAmb _ y | GIfMax _ y => ginfer te y
  | GSimple y _ => match ginfer te y with Some TNumber => Some TExt | _ => None end
  | GIfAmb a b => join_o (ginfer te a) (ginfer te b)
  | GShunt _ => Some (TN "Attributed<Expression>")
  end.

(** * Progress, whole-token progress, exact starts, left depth *)

Section Analyses.
  Variables np na nx nk : nt -> bool.
  Variable ldn : nt -> nat.
  Variable K : nat.

  (** Success moves strictly forward. *)
  Fixpoint prog (x : g) : bool :=
    match x with
    | GTok _ _ => true
    | GNT n => np n
    | GSeq steps _ => existsb (fun s => prog (snd s)) steps
    | GAlt gs => forallb prog gs
    | GTailed1 _ f => prog f
    | GExt y | GMapErr y _ | GSimple y _ | GAmb _ y | GIfMax _ y => prog y
    | GIfAmb a b => prog a && prog b
    | GShunt _ => true
    | _ => false
    end.

  (** Success moves to another token. *)
  Fixpoint adv (x : g) : bool :=
    match x with
    | GTok m _ => whole_matcher m
    | GNT n => na n
    | GSeq steps _ => existsb (fun s => adv (snd s)) steps
    | GAlt gs => forallb adv gs
    | GTailed1 _ f => adv f
    | GExt y | GMapErr y _ | GSimple y _ | GAmb _ y | GIfMax _ y => adv y
    | GIfAmb a b => adv a && adv b
    | _ => false
    end.

  (** The extent of the built value starts where parsing started; [tags] says
      which variables hold the start point or such a value. *)
  Fixpoint bxs (tags : list (string * bool)) (b : bexp) : bool :=
    match b with
    | BVar x | BEx x | BExTo x _ => match assoc x tags with Some t => t | None => false end
    | BUnit | BNil | BNone | BSome _ | BSingle _ | BIntoAppend _ | BPair _ _ | BIsSome _ | BOptFst _
    | BOptSnd _ | BStmts _ _ | BTrailing _ _ => true
    | BMk _ [] => true
    | BMk _ ((_, b) :: _) => bxs tags b
    | BVariant _ _ b => bxs tags b
    | BField f b => String.eqb f "extent" && bxs tags b
    | BExtentOf b => bxs tags b
    | BParen x _ => bxs tags x
    | BNumber b => bxs tags b
    | BUnwrapNil _ | BUnwrapOr _ _ | BFst _ | BSnd _ => false
    end.

  Fixpoint tag_pat (p : pat) (t : bool) (tags : list (string * bool)) : list (string * bool) :=
    match p with
    | PVar x => (x, t) :: tags
    | PPair a b => tag_pat b false (tag_pat a false tags)
    end.

  Section XsSteps.
    Variable xs : g -> bool.
    Variable b : bexp.
    (** [here]: nothing consumed yet. *)
    Fixpoint xs_steps (steps : list (pat * g)) (here : bool) (tags : list (string * bool)) : bool :=
      match steps with
      | [] => bxs tags b
      | (p, y) :: rest =>
          xs_steps rest (here && is_gpoint y) (tag_pat p (here && xs y) tags)
      end.
  End XsSteps.

  Fixpoint xs (x : g) : bool :=
    match x with
    | GNT n => nx n
    | GSeq steps b => xs_steps xs b steps true []
    | GAlt gs => forallb xs gs
    | GMapErr y _ | GAmb _ y | GIfMax _ y => xs y
    | GIfAmb a b => xs a && xs b
    | GSimple y _ => xs y
    | _ => true
    end.

  (** Success without progress happens only in front of a semicolon. *)
  Fixpoint pk (x : g) : bool :=
    match x with
    | GTok _ _ => true
    | GNT n => nk n
    | GSeq steps _ => existsb (fun s => pk (snd s)) steps
    | GAlt gs => forallb pk gs
    | GTailed1 _ f => pk f
    | GExt y | GMapErr y _ | GSimple y _ | GAmb _ y | GIfMax _ y => pk y
    | GIfAmb a b => pk a && pk b
    | GShunt _ => true
    | GPeek (GTok (MK KSemicolon) _) => true
    | _ => false
    end.

  Section LdSteps.
    Variable ld : g -> nat.
    Fixpoint ld_steps (steps : list (pat * g)) : nat :=
      match steps with
      | [] => 0
      | (_, y) :: rest => Nat.max (ld y) (if prog y then 0 else ld_steps rest)
      end.
  End LdSteps.

  (** Nesting of the interpreter before any input is consumed. *)
  Fixpoint ld (x : g) : nat :=
    match x with
    | GNT n => S (ldn n)
    | GSeq steps _ => S (ld_steps ld steps)
    | GAlt gs => S (fold_right (fun y n => Nat.max (ld y) n) 0 gs)
    | GOpt y | GMany y | GExt y | GPeek y | GMapErr y _ | GSimple y _ | GAmb _ y | GIfMax _ y => S (ld y)
    | GTailed1 _ f => S (ld f)
    | GTailed _ sep f | GImplicit sep f => S (Nat.max (ld f) (if prog f then 0 else ld sep))
    | GResume sep _ => S (ld sep)
    | GIfAmb a b => S (Nat.max (ld a) (ld b))
    | GShunt _ => S (S (ldn N_expression_prefix_or_atom))
    | GTok _ _ | GPoint | GNested _ _ => 1
    end.

  Definition next_clean (clean : bool) (y : g) : bool :=
    match y with GTok m _ => whole_matcher m | GPoint => clean | _ => false end.

  Section SafeSteps.
    Variable gsafe : bool -> g -> bool.
    Fixpoint safe_steps (steps : list (pat * g)) (clean : bool) : bool :=
      match steps with
      | [] => true
      | (_, y) :: rest => gsafe clean y && safe_steps rest (next_clean clean y)
      end.
  End SafeSteps.

  Definition is_semicolon (x : g) : bool :=
    match x with GTok (MK KSemicolon) _ => true | _ => false end.

  (** Side conditions; [clean] says that the start point is between tokens. *)
  Fixpoint gsafe (clean : bool) (x : g) {struct x} : bool :=
    (ld x <=? K) &&
    match x with
    | GTok m _ => not_eof_matcher m
    | GNT _ | GPoint | GShunt _ => true
    | GSeq steps _ => safe_steps gsafe steps clean
    | GAlt gs => match gs with [] => false | _ => forallb (gsafe false) gs end
    | GOpt y | GExt y | GPeek y | GMapErr y _ | GSimple y _ | GAmb _ y | GIfMax _ y => gsafe false y
    | GMany y => gsafe false y && prog y
    | GTailed _ sep f | GTailed1 sep f => gsafe false sep && gsafe false f && prog f
    | GImplicit sep f =>
        gsafe false sep && gsafe false f && (prog f || pk f && is_semicolon sep)
    | GResume sep f => gsafe false sep && gsafe false f && prog sep && prog f
    | GNested _ _ => clean
    | GIfAmb a b => gsafe false a && gsafe false b
    end.
End Analyses.

(** * Greatest fixed points and left depths, by iteration *)

Definition lookup {A} (d : A) (l : list A) (n : nt) : A := nth (nt_index n) l d.

Definition iter_b (f : (nt -> bool) -> g -> bool) : list bool :=
  Nat.iter 20 (fun l => map (fun n => lookup false l n && f (lookup false l) (table n)) all_nts)
           (map (fun _ => true) all_nts).

Definition np_list : list bool := Eval vm_compute in iter_b prog.
Definition na_list : list bool := Eval vm_compute in iter_b adv.
Definition nx_list : list bool := Eval vm_compute in iter_b xs.
Definition nk_list : list bool := Eval vm_compute in iter_b pk.
Definition np : nt -> bool := lookup false np_list.
Definition na : nt -> bool := lookup false na_list.
Definition nx : nt -> bool := lookup false nx_list.
Definition nk : nt -> bool := lookup false nk_list.

Definition ldn_list : list nat :=
  Eval vm_compute in
    Nat.iter 80 (fun l => map (fun n => ld np (lookup 0 l) (table n)) all_nts)
             (map (fun _ => 0) all_nts).
Definition ldn : nt -> nat := lookup 0 ldn_list.

(** A bound on the left depth of every parser in the table. *)
Definition K : nat := 40.

(** * The checks *)

Definition tprog := prog np.
Definition tadv := adv na.
Definition txs := xs nx.
Definition tpk := pk nk.
Definition tld := ld np ldn.
Definition tsafe := gsafe np nk ldn K.

Definition schema_ok : bool :=
  forallb (fun s => match field_index "extent" (snd s) with
                    | None => true
                    | Some 0 => match snd s with (_, TExt, _) :: _ => true | _ => false end
                    | Some _ => false
                    end) (structs ++ internal_structs).

Definition nt_ok (n : nt) : bool :=
  implb (np n) (tprog (table n)) &&
  implb (na n) (tadv (table n)) &&
  implb (nx n) (txs (table n)) &&
  implb (nk n) (tpk (table n)) &&
  (tld (table n) <=? ldn n) &&
  tsafe false (table n) &&
  hole_free (nt_type n) &&
  match ginfer [] (table n) with Some t => tle t (nt_type n) | None => false end.

Lemma all_nts_ok : forallb nt_ok all_nts = true.
Proof. vm_compute. reflexivity. Qed.

Lemma table_ok n : nt_ok n = true.
Proof. exact (proj1 (forallb_forall _ _) all_nts_ok n (all_nts_complete n)). Qed.

Lemma schema_is_ok : schema_ok = true.
Proof. vm_compute. reflexivity. Qed.
