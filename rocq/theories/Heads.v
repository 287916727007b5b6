(** Struct literals and heads in values, and a static check of the grammar: which
    parsers return no bare struct literal when the restriction is on, and that the
    heads are read by such parsers. *)

From Coq Require Import String List Arith Bool Lia.
From Verif Require Import Base Peresil Token Schema Value Nt Grammar Table Static SpanSpec HeadSpec Marks.
Import ListNotations.
Local Open Scope string_scope.
Local Open Scope list_scope.
Local Open Scope nat_scope.

(** * Values *)

(** No bare struct literal. *)
Definition nolit (v : val) : Prop := forall fs, ~ bare_in (VNode "StructLiteral" fs) v.

(** The heads in the value have none. *)
Definition headed (v : val) : Prop :=
  forall k fs f h, part_of (VNode k fs) v -> In (k, f) heads -> get_field f (VNode k fs) = Some h -> nolit h.

(** Both, the first if [s]. *)
Definition good (s : bool) (v : val) : Prop := headed v /\ (s = true -> nolit v).

Definition pair_in (k f : string) (l : list (string * string)) : bool :=
  existsb (fun x => String.eqb k (fst x) && String.eqb f (snd x)) l.

Lemma pair_in_iff k f l : pair_in k f l = true <-> In (k, f) l.
Proof.
  unfold pair_in. rewrite existsb_exists. split.
  - intros ([a b] & I & E). cbn in E. apply andb_true_iff in E. destruct E as [E1 E2].
    apply String.eqb_eq in E1. apply String.eqb_eq in E2. now subst.
  - intros I. exists (k, f). cbn. now rewrite !String.eqb_refl.
Qed.

(** The [i]-th field of the struct is sheltered. *)
Definition shelters (k : string) (i : nat) : bool :=
  match field_at k i with Some f => pair_in k f sheltered | None => false end.

Lemma good_weak s v : good s v -> good false v.
Proof. intros [A _]. split; [auto|discriminate]. Qed.

Lemma good_and s t v : good s v -> good (s && t) v.
Proof. intros [A B]. split; [auto|]. intros E. apply andb_true_iff in E. tauto. Qed.

Lemma good_some s v : good s (VSome v) <-> good s v.
Proof.
  split; intros [A B]; split.
  - intros k fs f h P. apply A. now constructor.
  - intros S fs P. apply (B S fs). now constructor.
  - intros k fs f h P. inversion P; subst. eapply A; eauto.
  - intros S fs P. inversion P; subst. eapply B; eauto.
Qed.

Lemma good_var s e t v : good s (VVar e t v) <-> good s v.
Proof.
  split; intros [A B]; split.
  - intros k fs f h P. apply A. now constructor.
  - intros S fs P. apply (B S fs). now constructor.
  - intros k fs f h P. inversion P; subst. eapply A; eauto.
  - intros S fs P. inversion P; subst. eapply B; eauto.
Qed.

Lemma good_pair s a b : good s (VPair a b) <-> good s a /\ good s b.
Proof.
  split.
  - intros [A B]. split; split.
    + intros k fs f h P. apply A. now constructor.
    + intros S fs P. apply (B S fs). now constructor.
    + intros k fs f h P. apply A. now apply part_right.
    + intros S fs P. apply (B S fs). now apply bare_right.
  - intros [[A1 B1] [A2 B2]]. split.
    + intros k fs f h P. inversion P; subst; [eapply A1|eapply A2]; eauto.
    + intros S fs P. inversion P; subst; [eapply B1|eapply B2]; eauto.
Qed.

Lemma good_list s l : good s (VList l) <-> Forall (good s) l.
Proof.
  split.
  - intros [A B]. apply Forall_forall. intros x I. split.
    + intros k fs f h P. apply A. eapply part_elem; eauto.
    + intros S fs P. apply (B S fs). eapply bare_elem; eauto.
  - rewrite Forall_forall. intros H. split.
    + intros k fs f h P. inversion P as [| | | | |x ? I P'|]; subst. destruct (H x I) as [A _]. eapply A; eauto.
    + intros S fs P. inversion P as [| | | | |x ? I P'|]; subst. destruct (H x I) as [_ B]. eapply B; eauto.
Qed.

Definition leaf (v : val) : bool :=
  match v with VExt _ | VBool _ | VNat _ | VPoint _ | VNum _ | VUnit | VNone => true | _ => false end.

Lemma good_leaf s v : leaf v = true -> good s v.
Proof.
  destruct v; try discriminate; intros _; (split; [intros k fs f h P; inversion P|intros S fs P; inversion P]).
Qed.

Lemma good_node s k fs : (s = true -> k <> "StructLiteral") ->
  (forall i x, nth_error fs i = Some x -> good (s && negb (shelters k i)) x) ->
  (forall f h, In (k, f) heads -> get_field f (VNode k fs) = Some h -> nolit h) -> good s (VNode k fs).
Proof.
  intros K F H. split.
  - intros k' fs' f h P I G. inversion P as [| | | | | |x ? ? Ix P']; subst.
    + eapply H; eauto.
    + apply In_nth_error in Ix. destruct Ix as [i Ni]. destruct (F i x Ni) as [A _]. eapply A; eauto.
  - intros S fs' P. inversion P as [| | | | | |i x ? ? Ni NS P']; subst.
    + now apply K.
    + destruct (F i x Ni) as [_ B]. apply (B) in P'; [exact P'|]. cbn [andb].
      unfold shelters. destruct (field_at k i) as [f|] eqn:FA; [|reflexivity].
      destruct (pair_in k f sheltered) eqn:PI; [|reflexivity]. apply pair_in_iff in PI. now elim (NS f eq_refl).
Qed.

Lemma good_nth s k fs i x : good s (VNode k fs) -> nth_error fs i = Some x -> good (s && negb (shelters k i)) x.
Proof.
  intros [A B] N. split.
  - intros k' fs' f h P. apply A. eapply part_field; [eapply nth_error_In; eauto|auto].
  - intros S fs' P. apply andb_true_iff in S. destruct S as [S1 S2]. apply (B S1 fs').
    eapply bare_field; [exact N| |exact P]. intros f FA I. unfold shelters in S2. rewrite FA in S2.
    apply pair_in_iff in I. rewrite I in S2. discriminate.
Qed.

(** * Levels *)

(** What is known of a value: nothing but its heads; that it is an operator, with
    no bare struct literal unless it brings parentheses or brackets; that it is a
    variant with such an operator; that it has no bare struct literal; that it is
    moreover a node without sheltered fields; that it is such a node if it is the
    variant [Prefix]; that there is no such value. *)
Inductive lv : Type := LOpen | LOp | LWrap | LBare | LNode | LPre | LBot.
Inductive ab : Type := L1 (l : lv) | LP (a b : ab).

Definition closing (k : string) : bool := existsb (String.eqb k) ["Call"; "Slice"].
Definition opl (v : val) : Prop := forall e k p, v = VVar e k p -> closing k = true \/ nolit p.

Definition sheltering (k : string) : bool := existsb (fun x => String.eqb k (fst x)) sheltered.
Definition plain (v : val) : Prop := forall k fs, v = VNode k fs -> sheltering k = false.

Definition conc (l : lv) (v : val) : Prop :=
  match l with
  | LBot => False
  | LNode => good true v /\ plain v
  | LPre => good true v /\ forall e p, v = VVar e "Prefix" p -> plain p
  | LOpen => good false v
  | LBare => good true v
  | LOp => good false v /\ opl v
  | LWrap => good false v /\ forall e k p, v = VVar e k p -> opl p
  end.

Fixpoint concA (a : ab) (v : val) : Prop :=
  match a with L1 l => conc l v | LP a b => exists x y, v = VPair x y /\ concA a x /\ concA b y end.

Definition is_bare (l : lv) : bool := match l with LBare | LNode | LPre | LBot => true | _ => false end.
Definition only (b : bool) : lv := if b then LBare else LOpen.

Fixpoint flat (a : ab) : lv :=
  match a with L1 l => l | LP a b => only (is_bare (flat a) && is_bare (flat b)) end.
Definition bare (a : ab) : bool := is_bare (flat a).

Definition lle (x y : lv) : bool :=
  match x, y with
  | LBot, _ | _, LOpen | LNode, LNode | LPre, LPre | LOp, LOp | LWrap, LWrap
  | LNode, (LBare | LOp | LWrap) | LPre, (LBare | LOp | LWrap) | LBare, (LBare | LOp | LWrap) => true
  | _, _ => false
  end.
Definition ljoin (x y : lv) : lv := if lle x y then y else if lle y x then x else only (is_bare x && is_bare y).
Fixpoint ale (a b : ab) : bool :=
  match a, b with
  | LP a1 a2, LP b1 b2 => ale a1 b1 && ale a2 b2
  | _, L1 l => lle (flat a) l
  | L1 _, LP _ _ => false
  end.
Definition ajoin (a b : ab) : ab := L1 (ljoin (flat a) (flat b)).

(** * The static check *)

Definition aenv := list (string * ab).
Definition alook (x : string) (ae : aenv) : ab := match assoc x ae with Some a => a | None => L1 LOpen end.

(** No field of this name is sheltered. *)
Definition plain_name (f : string) : bool := forallb (fun x => negb (String.eqb f (snd x))) sheltered.

Fixpoint bl (ae : aenv) (b : bexp) : ab :=
  match b with
  | BVar x => alook x ae
  | BEx _ | BExTo _ _ | BUnit | BNil | BNone | BExtentOf _ | BIsSome _ | BNumber _ => L1 LBare
  | BSome b | BSingle b | BIntoAppend b | BUnwrapNil b | BOptFst b | BOptSnd b => L1 (only (bare (bl ae b)))
  | BUnwrapOr a b | BStmts a b | BTrailing a b => L1 (only (bare (bl ae a) && bare (bl ae b)))
  | BPair a b => LP (bl ae a) (bl ae b)
  | BFst b => match bl ae b with LP x _ => x | x => L1 (only (bare x)) end
  | BSnd b => match bl ae b with LP _ x => x | x => L1 (only (bare x)) end
  | BField f b => L1 (only (plain_name f && bare (bl ae b)))
  | BParen _ _ => L1 LBare
  | BMk k fs => L1 (if negb (String.eqb k "StructLiteral") &&
      (fix go (fs : list (string * bexp)) : bool :=
         match fs with [] => true | (f, b) :: fs' => (pair_in k f sheltered || bare (bl ae b)) && go fs' end) fs
      then if sheltering k then LBare else LNode else LOpen)
  | BVariant _ k b => L1 (match flat (bl ae b) with
      | LBot => LBot | LNode => LPre | LBare | LPre => if String.eqb k "Prefix" then LBare else LPre
      | LOp => LWrap | LOpen | LWrap => if closing k then LOp else LOpen end)
  end.

Fixpoint bc (ae : aenv) (b : bexp) : bool :=
  match b with
  | BVar _ | BEx _ | BExTo _ _ | BUnit | BNil | BNone => true
  | BSome b | BSingle b | BIntoAppend b | BUnwrapNil b | BFst b | BSnd b | BField _ b | BExtentOf b
  | BIsSome b | BOptFst b | BOptSnd b | BNumber b | BVariant _ _ b => bc ae b
  | BUnwrapOr a b | BPair a b | BStmts a b | BTrailing a b | BParen a b => bc ae a && bc ae b
  | BMk k fs => names_chk k (map fst fs) &&
      (fix go (fs : list (string * bexp)) : bool :=
         match fs with [] => true | (f, b) :: fs' => bc ae b && (negb (pair_in k f heads) || bare (bl ae b)) && go fs' end) fs
  end.

Fixpoint abind_pat (p : pat) (a : ab) (ae : aenv) : aenv :=
  match p with
  | PVar x => (x, a) :: ae
  | PPair p1 p2 =>
      let '(a1, a2) := match a with LP a1 a2 => (a1, a2) | L1 l => (L1 (only (is_bare l)), L1 (only (is_bare l))) end in
      abind_pat p2 a2 (abind_pat p1 a1 ae)
  end.

Section GL.
  Variable nl : bool -> nt -> ab.

  (** The level of what a parser returns and whether the heads in there are right.
      [m]: the restriction is on. *)
  Fixpoint gl (m : bool) (ae : aenv) (x : g) {struct x} : ab * bool :=
    match x with
    | GTok _ _ | GPoint | GNested _ _ => (L1 LBare, true)
    | GNT n => (nl m n, true)
    | GSeq steps b =>
        (fix go (ae : aenv) (s : list (pat * g)) : ab * bool :=
           match s with
           | [] => (bl ae b, bc ae b)
           | (p, y) :: s' =>
               let r := gl m ae y in
               let r' := go (abind_pat p (fst r) ae) s' in (fst r', snd r && snd r')
           end) ae steps
    | GAlt gs =>
        (fix go (s : list g) : ab * bool :=
           match s with
           | [] => (L1 LBot, true)
           | y :: s' => let r := gl m ae y in let r' := go s' in (ajoin (fst r) (fst r'), snd r && snd r')
           end) gs
    | GOpt y | GMany y => let r := gl m ae y in (L1 (only (bare (fst r))), snd r)
    | GTailed app sep f =>
        let r := gl m ae f in
        (L1 (only (bare (fst r) && bare (bl ae app))), snd r && snd (gl m ae sep) && bc ae app)
    | GTailed1 sep f | GResume sep f | GImplicit sep f =>
        let r := gl m ae f in (L1 (only (bare (fst r))), snd r && snd (gl m ae sep))
    | GExt y | GPeek y | GSimple y _ => (L1 LBare, snd (gl m ae y))
    | GMapErr y _ | GIfMax _ y => gl m ae y
    | GAmb l y => gl (is_ambiguous l) ae y
    | GIfAmb a b =>
        let r := gl m ae a in
        if m then r else let r' := gl m ae b in (ajoin (fst r) (fst r'), snd r && snd r')
    | GShunt _ =>
        (L1 (only (lle (flat (nl m N_expression_prefix_or_atom)) LPre && lle (flat (nl m N_expression_infix_or_postfix)) LWrap &&
                   lle (flat (nl m N_operator_postfix_limited)) LOp)), true)
    end.
End GL.

Definition nl_of (l : list (ab * ab)) (m : bool) (n : nt) : ab :=
  let r := lookup (L1 LOpen, L1 LOpen) l n in if m then fst r else snd r.
Definition nl_list : list (ab * ab) := Eval vm_compute in
  Nat.iter 20 (fun l => map (fun n => (fst (gl (nl_of l) true [] (table n)), fst (gl (nl_of l) false [] (table n)))) all_nts)
           (map (fun _ => (L1 LBot, L1 LBot)) all_nts).
Definition nl : bool -> nt -> ab := nl_of nl_list.

Lemma table_heads n m : snd (gl nl m [] (table n)) = true /\ ale (fst (gl nl m [] (table n))) (nl m n) = true.
Proof.
  assert (forallb (fun n => forallb (fun m => snd (gl nl m [] (table n)) && ale (fst (gl nl m [] (table n))) (nl m n)) [true; false]) all_nts = true) as H
    by (vm_compute; reflexivity).
  rewrite forallb_forall in H. specialize (H n (all_nts_complete n)). rewrite forallb_forall in H.
  apply andb_true_iff. apply H. destruct m; cbn; auto.
Qed.
