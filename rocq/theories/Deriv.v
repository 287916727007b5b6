(** Derivations: what a successful run of the parser consists of, without fuel,
    failures and ambiguity levels.  [der x e p q v]: the parser [x] in the
    environment [e] can read from [p] to [q] and return [v].  The relation is
    looser than the parser (it forgets why a list ends where it does), every
    successful run has a derivation, and properties of all results are proved by
    induction on derivations. *)

From Coq Require Import String List NArith Arith Bool Lia.
From Verif Require Import Base Peresil Token Schema Value Nt Grammar Points Table Static Typing Safety Yard RunOk Layout.
From Verif Require First.
Import ListNotations.
Local Open Scope string_scope.
Local Open Scope list_scope.
Local Open Scope nat_scope.

(** * Parsers that fail where they start *)

Section Fip.
  Variable nfip : nt -> bool.

  Definition nofail (x : g) : bool :=
    match x with
    | GPoint | GOpt _ | GMany _ | GTailed _ _ _ | GImplicit _ _ | GResume _ _ | GNested _ _ => true
    | _ => false
    end.

  Section Steps.
    Variable fip : g -> bool.
    Fixpoint fip_steps (steps : list (pat * g)) : bool :=
      match steps with
      | [] => true
      | (_, GPoint) :: rest => fip_steps rest
      | (_, y) :: rest => fip y && forallb (fun s => nofail (snd s)) rest
      end.
  End Steps.

  Fixpoint fip (x : g) : bool :=
    match x with
    | GTok _ _ | GPoint | GOpt _ | GMany _ | GTailed _ _ _ | GImplicit _ _ | GResume _ _ | GNested _ _ | GPeek _ => true
    | GNT n => nfip n
    | GSeq steps _ => fip_steps fip steps
    | GAlt gs => forallb fip gs
    | GExt y | GMapErr y _ | GSimple y _ | GAmb _ y | GIfMax _ y => fip y
    | GIfAmb a b => fip a && fip b
    | GTailed1 _ _ | GShunt _ => false
    end.
End Fip.

Definition nfip_list : list bool := Eval vm_compute in iter_b fip.
Definition nfip : nt -> bool := lookup false nfip_list.
Definition tfip : g -> bool := fip nfip.

Lemma nfip_ok n : nfip n = true -> tfip (table n) = true.
Proof.
  assert (H : forallb (fun n => implb (nfip n) (tfip (table n))) all_nts = true) by (vm_compute; reflexivity).
  rewrite forallb_forall in H. specialize (H n (all_nts_complete n)). now destruct (nfip n).
Qed.

Section FipOk.
  Variable toks : list token.

  Lemma nofail_run n x e pm p pm' q er : nofail x = true -> run table toks n x e pm p = (pm', Failure q er) -> False.
  Proof.
    intros N R. destruct n as [|n]; [discriminate|].
    destruct x as [m err|nn| |steps b|gs|y|y|app sep f|sep f|sep f|sep f|o c'|y|y|y err|y err|l y|err y|a b|stmt];
      cbn [nofail] in N; try discriminate; cbn [run] in R.
    - unfold map_p, optional in R. destruct (run table toks n y e pm p) as [pm1 [r u|r er'|w]]; try discriminate.
    - unfold map_p in R. destruct (zero_or_more pt_lt recov n (run table toks n y e) pm p) as [pm1 [r u|r er'|w]] eqn:Z; try discriminate.
      clear R. revert pm p pm1 Z. generalize n at 1. induction n0 as [|n0 IH]; intros pm p pm1 Z; [discriminate|].
      cbn [zero_or_more] in Z. destruct (run table toks n y e pm p) as [pm2 [r2 u2|r2 er2|w]]; try discriminate.
      destruct (zero_or_more pt_lt recov n0 (run table toks n y e) pm2 r2) as [pm3 [r3 u3|r3 er3|w]] eqn:Z'; try discriminate.
      injection Z as -> -> ->. eapply IH; eauto.
    - destruct (beval toks p e app) as [[]|]; try discriminate.
      revert R. generalize l 0 false. generalize n at 1. intros k. revert pm p.
      induction k as [|k IH]; intros pm p l0 n0 b R; [discriminate|]. cbn [tailed_loop] in R.
      destruct (run table toks n f e pm p) as [pm2 [r2 u2|r2 er2|w]]; try discriminate.
      destruct (run table toks n sep e pm2 r2) as [pm3 [r3 u3|r3 er3|w]]; try discriminate. eapply IH; eauto.
    - unfold resume in R. destruct (run table toks n sep e pm p) as [pm2 [r2 u2|r2 er2|w]]; try discriminate.
      destruct (tailed1 _ _ _ pm2 r2) as [pm3 [r3 []|r3 er3|w]]; discriminate.
    - revert R. generalize (@nil val) 0 false. generalize n at 1. intros k. revert pm p.
      induction k as [|k IH]; intros pm p l0 n0 b R; [discriminate|]. cbn [implicit_loop] in R.
      destruct (run table toks n f e pm p) as [pm2 [r2 u2|r2 er2|w]]; try discriminate.
      destruct (run table toks n sep e pm2 r2) as [pm3 [r3 u3|r3 er3|w]]; try discriminate; [eapply IH; eauto|].
      destruct (is_implicit_separator u2); [eapply IH; eauto|discriminate].
    - unfold nested in R. destruct (ex toks p _); discriminate.
  Qed.

  Lemma nofail_steps n b steps : forallb (fun s => nofail (snd s)) steps = true -> forall e pm p pm' q er,
    run_steps toks (run table toks n) steps b e pm p = (pm', Failure q er) -> False.
  Proof.
    induction steps as [|[pt y] steps IH]; intros N e pm p pm' q er R; cbn [run_steps] in R.
    - destruct (beval toks p e b); discriminate.
    - cbn [forallb snd] in N. apply andb_true_iff in N as [N1 N2].
      destruct (run table toks n y e pm p) as [pm1 [r u|r er'|w]] eqn:R1; try discriminate.
      + destruct (bind_pat pt u e); [|discriminate]. eapply IH; eauto.
      + eapply nofail_run; eauto.
  Qed.

  Theorem fip_ok n : forall x e pm p pm' q er, tfip x = true ->
    run table toks n x e pm p = (pm', Failure q er) -> q = p.
  Proof.
    induction n as [|n IH]; intros x e pm p pm' q er F R; [discriminate|].
    destruct (nofail x) eqn:NF; [exfalso; eapply nofail_run; eauto|].
    destruct x as [m err|nn| |steps b|gs|y|y|app sep f|sep f|sep f|sep f|o c'|y|y|y err|y err|l y|err y|a b|stmt];
      cbn [nofail] in NF; try discriminate; unfold tfip in F; cbn [fip] in F; fold tfip in F; cbn [run] in R; try discriminate.
    - unfold tok in R. destruct (nth_error toks (off p)); [|congruence].
      match type of R with match ?c with _ => _ end = _ => destruct c; [|discriminate] end.
      match type of R with match ?c with _ => _ end = _ => destruct c; [discriminate|] end.
      match type of R with match ?c with _ => _ end = _ => destruct c as [[]|]; [|congruence] end.
      match type of R with match ?c with _ => _ end = _ => destruct c; [discriminate|congruence] end.
    - apply (IH _ _ _ _ _ _ _ (nfip_ok _ F) R).
    - fold tfip in F. revert e pm R. induction steps as [|[pt y] steps IHs]; intros e pm R; cbn [run_steps] in R.
      + destruct (beval toks p e b); discriminate.
      + assert (y = GPoint \/ tfip y = true /\ forallb (fun s => nofail (snd s)) steps = true) as [->|[F1 F2]].
        { cbn [fip_steps] in F. destruct y; auto; right; apply andb_true_iff in F; auto. }
        * destruct n as [|n]; [discriminate|]. cbn [run] in R. destruct (bind_pat pt (VPoint p) e); [|discriminate].
          eapply IHs; eauto.
        * destruct (run table toks n y e pm p) as [pm1 [r u|r er'|w]] eqn:R1; try discriminate.
          -- destruct (bind_pat pt u e); [|discriminate]. exfalso. eapply nofail_steps; eauto.
          -- injection R as <- <- <-. eapply IH; eauto.
    - assert (forall y, In y gs -> tfip y = true) as F' by (rewrite forallb_forall in F; exact F). clear F.
      destruct gs as [|y gs]; [discriminate|]. cbn [map alternate] in R.
      destruct (run table toks n y e pm p) as [pm1 r] eqn:R1.
      assert (forall q er, r = Failure q er -> q = p) as Hr.
      { intros q0 er0 ->. eapply IH; [|exact R1]. apply F'. now left. }
      assert (forall y, In y gs -> tfip y = true) as F2 by (intros z Hz; apply F'; now right). clear F' R1.
      revert r Hr pm1 R. induction gs as [|z gs IHg]; intros r Hr pm1 R; cbn [map alternate_from] in R.
      + injection R as <- ->. eapply Hr; eauto.
      + destruct r as [q' v'|q' e'|w]; try discriminate. cbn [recov] in R.
        destruct (run table toks n z e pm1 p) as [pm2 r2] eqn:R2.
        eapply IHg; [| |exact R].
        * intros w Hw. apply F2. now right.
        * intros q0 er0 ->. eapply IH; [|exact R2]. apply F2. now left.
    - destruct (run table toks n y e pm p) as [pm1 [r u|r er'|w]] eqn:R1; try discriminate.
      + destruct (ex toks p r); discriminate.
      + injection R as <- <- <-. eapply IH; eauto.
    - unfold map_p, peek in R. destruct (run table toks n y e pm p) as [pm1 [r u|r er'|w]] eqn:R1; try discriminate. congruence.
    - destruct (run table toks n y e pm p) as [pm1 [r u|r er'|w]] eqn:R1; try discriminate.
      injection R as <- <- <-. eapply IH; eauto.
    - destruct (run table toks n y e pm p) as [pm1 [r u|r er'|w]] eqn:R1; try discriminate.
      + destruct u; try discriminate. destruct (into_simple _); congruence.
      + injection R as <- <- <-. eapply IH; eauto.
    - unfold with_amb in R. destruct (run table toks n y e (set_amb pm l) p) as [pm1 [r u|r er'|w]] eqn:R1; try discriminate.
      injection R as <- <- <-. eapply IH; eauto.
    - destruct (is_maximum (m_state pm)); [congruence|]. eapply IH; eauto.
    - apply andb_true_iff in F as [F1 F2]. destruct (is_ambiguous (m_state pm)); [eapply (IH a)|eapply (IH b)]; eauto.
  Qed.
End FipOk.

(** * Parsers that move to another token *)

(** The first halves of split tokens that a sequence reads itself. *)
Fixpoint halves (steps : list (pat * g)) : list tkind :=
  match steps with
  | [] => []
  | (_, GTok (MK k) _) :: rest => if splits_off k then k :: halves rest else halves rest
  | _ :: rest => halves rest
  end.

Definition two_halves (l : list tkind) : bool :=
  existsb (fun k => existsb (fun k' => negb (tkind_eqb k k')) l) l.

(** Success moves to another token; unlike [Static.adv], an expression counts,
    and so do halves of two different tokens. *)
Section DAdv.
  Variable na : nt -> bool.
  Fixpoint dadv (x : g) : bool :=
    match x with
    | GTok m _ => whole_matcher m
    | GNT n => na n
    | GSeq steps _ => existsb (fun s => dadv (snd s)) steps || two_halves (halves steps)
    | GAlt gs => forallb dadv gs
    | GTailed1 _ f => dadv f
    | GExt y | GMapErr y _ | GSimple y _ | GAmb _ y | GIfMax _ y => dadv y
    | GIfAmb a b => dadv a && dadv b
    | GShunt _ => true
    | _ => false
    end.
End DAdv.

Definition dna_list : list bool := Eval vm_compute in iter_b dadv.
Definition dna : nt -> bool := lookup false dna_list.
Definition tdadv : g -> bool := dadv dna.

(** The same if the value is an [Atom]. *)
Definition is_atom_build (b : bexp) : bool :=
  match b with BVariant _ v _ => String.eqb v "Atom" | _ => true end.

Fixpoint aadv (x : g) : bool :=
  match x with
  | GSeq steps b => negb (is_atom_build b) || tdadv x
  | GAlt gs => forallb aadv gs
  | _ => tdadv x
  end.

(** Success stays in place or moves to another token ([sadv]); failure is
    reported where the parser started or at another token ([fos]). *)
Section Still.
  Variable ns nf : nt -> bool.

  Section Steps.
    Variable fos sadv : g -> bool.
    Fixpoint fos_steps (steps : list (pat * g)) : bool :=
      match steps with
      | [] => true
      | (_, y) :: rest => fos y && (tdadv y || (sadv y && fos_steps rest))
      end.
  End Steps.

  Fixpoint sadv (x : g) : bool :=
    match x with
    | GTok m _ => whole_matcher m
    | GNT n => ns n
    | GPoint | GNested _ _ | GPeek _ | GShunt _ => true
    | GSeq steps _ => tdadv x || forallb (fun s => sadv (snd s)) steps
    | GAlt gs => forallb sadv gs
    | GOpt y | GMany y | GExt y | GMapErr y _ | GSimple y _ | GAmb _ y | GIfMax _ y => sadv y
    | GTailed _ sep f | GTailed1 sep f | GResume sep f | GImplicit sep f =>
        tfip sep && sadv sep && sadv f && (tfip f || fos f)
    | GIfAmb a b => sadv a && sadv b
    end
  with fos (x : g) : bool :=
    match x with
    | GTok _ _ | GPeek _ | GPoint | GOpt _ | GMany _ | GTailed _ _ _ | GImplicit _ _ | GResume _ _ | GNested _ _ => true
    | GNT n => nf n
    | GSeq steps _ => fos_steps fos sadv steps
    | GAlt gs => forallb fos gs
    | GExt y | GMapErr y _ | GSimple y _ | GAmb _ y | GIfMax _ y => fos y
    | GIfAmb a b => fos a && fos b
    | GTailed1 _ f => fos f
    | GShunt _ => false
    end.
End Still.

Definition still_lists : list bool * list bool :=
  Eval vm_compute in
    Nat.iter 20 (fun l =>
        let ns := lookup false (fst l) in
        let nf := lookup false (snd l) in
        (map (fun n => ns n && sadv ns nf (table n)) all_nts, map (fun n => nf n && fos ns nf (table n)) all_nts))
      (map (fun _ => true) all_nts, map (fun _ => true) all_nts).
Definition nsadv : nt -> bool := lookup false (fst still_lists).
Definition nfos : nt -> bool := lookup false (snd still_lists).
Definition tsadv : g -> bool := sadv nsadv nfos.
Definition tfos : g -> bool := fos nsadv nfos.

Lemma dna_ok n : dna n = true -> tdadv (table n) = true.
Proof.
  assert (H : forallb (fun n => implb (dna n) (tdadv (table n))) all_nts = true) by (vm_compute; reflexivity).
  rewrite forallb_forall in H. specialize (H n (all_nts_complete n)). now destruct (dna n).
Qed.

Lemma nsadv_ok n : nsadv n = true -> tsadv (table n) = true.
Proof.
  assert (H : forallb (fun n => implb (nsadv n) (tsadv (table n))) all_nts = true) by (vm_compute; reflexivity).
  rewrite forallb_forall in H. specialize (H n (all_nts_complete n)). now destruct (nsadv n).
Qed.

Lemma nfos_ok n : nfos n = true -> tfos (table n) = true.
Proof.
  assert (H : forallb (fun n => implb (nfos n) (tfos (table n))) all_nts = true) by (vm_compute; reflexivity).
  rewrite forallb_forall in H. specialize (H n (all_nts_complete n)). now destruct (nfos n).
Qed.

(** * Derivations *)

(** The elements of a list, read one after another from [p] on: [D] reads an
    element, [S] what stands between it and the next one. *)
Inductive chain (D : point -> point -> val -> Prop) (S : val -> point -> point -> Prop) : point -> list val -> Prop :=
| ch_nil p : chain D S p []
| ch_one p q v : D p q v -> chain D S p [v]
| ch_cons p q r v w vs : D p q v -> S v q r -> chain D S r (w :: vs) -> chain D S p (v :: w :: vs).

(** The parser can begin with the token at the point. *)
Definition begins (toks : list token) (f : g) (p : point) : Prop := N.land (First.firstg f) (First.offered toks p) <> 0%N.

Section Deriv.
  Variable toks : list token.
  Notation valid := (valid toks).

  Inductive der : g -> env -> point -> point -> val -> Prop :=
  | D_Tok m err e p q v (pm : pm_t) : not_eof_matcher m = true ->
      tok toks m err pm p = (pm, Success q v) -> der (GTok m err) e p q v
  | D_NT n e p q v : der (table n) [] p q v -> der (GNT n) e p q v
  | D_Point e p : der GPoint e p p (VPoint p)
  | D_Seq steps b e e' p q v : ders steps e p e' q -> beval toks q e' b = BOk v -> der (GSeq steps b) e p q v
  | D_Alt gs x e p q v : In x gs -> der x e p q v -> der (GAlt gs) e p q v
  | D_Some x e p q v : der x e p q v -> der (GOpt x) e p q (VSome v)
  | D_None x e p : der (GOpt x) e p p VNone
  | D_Many x e p q l : items None x e p q l -> der (GMany x) e p q (VList l)
  | D_Tailed app sep f e p q l vs n b : beval toks p e app = BOk (VList l) -> items (Some sep) f e p q vs ->
      chain (fun a b v => der f e a b v) (fun _ a b => exists d, der sep e a b d) p vs ->
      der (GTailed app sep f) e p q (vtailed (l ++ vs) n b)
  | D_Tailed1 sep f e p q vs n b : items (Some sep) f e p q vs -> vs <> [] ->
      chain (fun a b v => der f e a b v) (fun _ a b => exists d, der sep e a b d) p vs ->
      der (GTailed1 sep f) e p q (vtailed vs n b)
  | D_Resume sep f e p p1 q vs : between (Some sep) e p p1 -> items (Some sep) f e p1 q vs ->
      chain (fun a b v => der f e a b v) (fun _ a b => exists d, der sep e a b d) p1 vs ->
      der (GResume sep f) e p q (VList vs)
  | D_Resume0 sep f e p : der (GResume sep f) e p p (VList [])
  | D_Implicit sep f e p q vs n b : items (Some sep) f e p q vs ->
      chain (fun a b v => der f e a b v) (fun v a b => (exists d, der sep e a b d) \/ (is_implicit_separator v = true /\ valid b /\ pos a <= pos b)) p vs ->
      der (GImplicit sep f) e p q (vtailed vs n b)
  | D_Nested o c e p q v (pm : pm_t) : sub p = None -> nested toks o c pm p = (pm, Success q v) ->
      der (GNested o c) e p q v
  | D_Ext x e p q v r : der x e p q v -> ex toks p q = BOk r -> der (GExt x) e p q (VExt r)
  | D_Peek x e p q v : der x e p q v -> der (GPeek x) e p p VUnit
  | D_MapErr x err e p q v : der x e p q v -> der (GMapErr x err) e p q v
  | D_Simple x err e p q n r : der x e p q (VNum n) -> into_simple n = Some r -> der (GSimple x err) e p q (VExt r)
  | D_Amb l x e p q v : der x e p q v -> der (GAmb l x) e p q v
  | D_IfMax err x e p q v : der x e p q v -> der (GIfMax err x) e p q v
  | D_IfAmbL a b e p q v : der a e p q v -> der (GIfAmb a b) e p q v
  | D_IfAmbR a b e p q v : der b e p q v -> der (GIfAmb a b) e p q v
  | D_Shunt stmt e c : etree c -> der (GShunt stmt) e (c_spt c) (c_ept c) (c_val c)

  (** The steps of a sequence. *)
  with ders : list (pat * g) -> env -> point -> env -> point -> Prop :=
  | DS_nil e p : ders [] e p e p
  | DS_cons pt x steps e p q v e1 e' r : der x e p q v -> bind_pat pt v e = Some e1 ->
      ders steps e1 q e' r -> ders ((pt, x) :: steps) e p e' r

  (** The elements of a list, with a separator or not.  A list with a separator
      ends, and goes on without a separator, where the parser of an element or of
      the separator fails: tokens are skipped unless these fail in place.  What is
      skipped begins as an element does. *)
  with items : option g -> g -> env -> point -> point -> list val -> Prop :=
  | I_nil so f e p q : valid q -> pos p <= pos q -> (so = None \/ tfip f = true -> q = p) ->
      (tfos f = true -> q = p \/ off p < off q) /\ (q = p \/ begins toks f p) -> items so f e p q []
  | I_cons so f e p p1 p2 q v vs : der f e p p1 v -> between so e p1 p2 ->
      items so f e p2 q vs -> items so f e p q (v :: vs)

  with between : option g -> env -> point -> point -> Prop :=
  | B_none so e p : between so e p p
  | B_sep sep e p q v : der sep e p q v -> between (Some sep) e p q
  | B_gap sep e p q : tfip sep = false -> valid q -> pos p <= pos q -> between (Some sep) e p q

  (** Expressions put together by the shunting yard. *)
  with etree : car val -> Prop :=
  | E_Atom p q en v : der (GNT N_expression_prefix_or_atom) [] p q (VVar en "Atom" v) -> pos p < pos q ->
      etree (mkCar v p q)
  | E_Prefix en op s c c' res : der (GNT N_expression_prefix_or_atom) [] s (c_spt c) (VVar en "Prefix" op) ->
      pos s < pos (c_spt c) -> etree c ->
      apply_one toks (c :: res) (OpPrefix op) s (c_spt c) = AOk (c' :: res) -> c_spt c' = s -> c_ept c' = c_ept c ->
      etree c'
  | E_Prefix0 en op s e c' : der (GNT N_expression_prefix_or_atom) [] s e (VVar en "Prefix" op) ->
      pos s < pos e ->
      apply_one toks [] (OpPrefix op) s e = AOk [c'] -> c_spt c' = s -> c_ept c' = e ->
      etree c'
  | E_Infix en op l r c' : etree l -> etree r ->
      der (GNT N_expression_infix_or_postfix) [] (c_ept l) (c_spt r) (VVar en "Infix" op) ->
      pos (c_ept l) < pos (c_spt r) ->
      apply_one toks [r; l] (OpInfix op) (c_ept l) (c_spt r) = AOk [c'] -> c_spt c' = c_spt l -> c_ept c' = c_ept r ->
      etree c'
  | E_Infix0 en op l e c' : etree l ->
      der (GNT N_expression_infix_or_postfix) [] (c_ept l) e (VVar en "Infix" op) ->
      pos (c_ept l) < pos e ->
      apply_one toks [l] (OpInfix op) (c_ept l) e = AOk [c'] -> c_spt c' = c_spt l -> c_ept c' = e ->
      etree c'
  | E_Postfix en op c e c' : etree c ->
      der (GNT N_expression_infix_or_postfix) [] (c_ept c) e (VVar en "Postfix" op) ->
      pos (c_ept c) < pos e ->
      apply_one toks [c] (OpPostfix op) (c_ept c) e = AOk [c'] -> c_spt c' = c_spt c -> c_ept c' = e ->
      etree c'
  | E_PostfixL op c e c' : etree c ->
      der (GNT N_operator_postfix_limited) [] (c_ept c) e op ->
      pos (c_ept c) < pos e ->
      apply_one toks [c] (OpPostfix op) (c_ept c) e = AOk [c'] -> c_spt c' = c_spt c -> c_ept c' = e ->
      etree c'.

  Scheme der_min := Minimality for der Sort Prop
    with ders_min := Minimality for ders Sort Prop
    with items_min := Minimality for items Sort Prop
    with between_min := Minimality for between Sort Prop
    with etree_min := Minimality for etree Sort Prop.
  Combined Scheme der_all from der_min, ders_min, items_min, between_min, etree_min.

  (** Inversion. *)
  Lemma inv_tok m err e p q v : der (GTok m err) e p q v ->
    not_eof_matcher m = true /\ exists pm : pm_t, tok toks m err pm p = (pm, Success q v).
  Proof. intros D. inversion D; subst. eauto. Qed.

  Lemma inv_nt n e p q v : der (GNT n) e p q v -> der (table n) [] p q v.
  Proof. intros D. inversion D; subst. auto. Qed.

  Lemma inv_point e p q v : der GPoint e p q v -> q = p /\ v = VPoint p.
  Proof. intros D. inversion D; subst. auto. Qed.

  Lemma inv_seq steps b e p q v : der (GSeq steps b) e p q v ->
    exists e', ders steps e p e' q /\ beval toks q e' b = BOk v.
  Proof. intros D. inversion D; subst. eauto. Qed.

  Lemma inv_alt gs e p q v : der (GAlt gs) e p q v -> exists x, In x gs /\ der x e p q v.
  Proof. intros D. inversion D; subst. eauto. Qed.

  Lemma inv_steps pt x steps e p e' r : ders ((pt, x) :: steps) e p e' r ->
    exists q v e1, der x e p q v /\ bind_pat pt v e = Some e1 /\ ders steps e1 q e' r.
  Proof. intros D. inversion D; subst. eauto 8. Qed.

  Lemma inv_nil e p e' r : ders [] e p e' r -> e' = e /\ r = p.
  Proof. intros D. inversion D; subst. auto. Qed.
End Deriv.
