(** Where nodes come from: a node of a kind that only one rule of the grammar makes
    was read by that rule. *)

From Coq Require Import String List Arith Bool Lia.
From Verif Require Import Base Peresil Token Schema Value Nt Grammar Points Table Static Typing FileToks Split SpanSpec MarkSpec LandSpec Deriv DerivMono.
From Verif Require Import Marks MarksOk Spans SpansOk SpansDer Expect CoverSpec Cover CoverOk CoverTidy.
Import ListNotations.
Local Open Scope string_scope.
Local Open Scope list_scope.
Local Open Scope nat_scope.

(** The kinds of node that a builder, a parser makes itself. *)
Fixpoint bkinds (b : bexp) : list string :=
  match b with
  | BMk k fs => k :: flat_map (fun f => bkinds (snd f)) fs
  | BSome b | BSingle b | BIntoAppend b | BUnwrapNil b | BVariant _ _ b | BFst b | BSnd b | BField _ b | BIsSome b | BExtentOf b | BOptFst b | BOptSnd b => bkinds b
  | BNumber b => ["Number"; "NumberBinary"; "NumberDecimal"; "NumberHexadecimal"; "NumberOctal"] ++ bkinds b
  | BParen a b => ["Parenthetical"; "Tuple"] ++ bkinds a ++ bkinds b
  | BUnwrapOr a b | BPair a b | BStmts a b | BTrailing a b => bkinds a ++ bkinds b
  | _ => []
  end.
Fixpoint gkinds (x : g) : list string :=
  match x with
  | GSeq steps b => flat_map (fun s => gkinds (snd s)) steps ++ bkinds b
  | GAlt gs => flat_map gkinds gs
  | GOpt y | GMany y | GMapErr y _ | GAmb _ y | GIfMax _ y | GExt y | GPeek y | GSimple y _ => gkinds y
  | GTailed app sep f => bkinds app ++ gkinds sep ++ gkinds f
  | GTailed1 sep f | GResume sep f | GImplicit sep f | GIfAmb sep f => gkinds sep ++ gkinds f
  | _ => []
  end.

(** The kinds made by one rule, as its result, and nowhere else. *)
Definition by_shunt : list string :=
  ["Attributed<Expression>"; "Dereference"; "Reference"; "ExpressionBox"; "RangeInclusive"; "Range"; "Unary"; "Binary"; "FieldAccess"; "Call"; "Slice"; "AsType"; "Ascription"; "TryOperator"].
Definition all_built : list string := by_shunt ++ flat_map (fun n => gkinds (table n)) all_nts.
Definition made : list (string * nt) := Eval vm_compute in
  flat_map (fun n => match table n with
    | GSeq _ (BMk k _) => if Nat.eqb (length (filter (String.eqb k) all_built)) 1 then [(k, n)] else []
    | _ => [] end) all_nts.
Definition is_made (k : string) : bool := existsb (fun x => String.eqb k (fst x)) made.

(** * Values *)

Definition fresh (l : list string) : bool := forallb (fun k => negb (is_made k)) l.
Lemma fresh_app a b : fresh (a ++ b) = true -> fresh a = true /\ fresh b = true.
Proof. unfold fresh. rewrite forallb_app. apply andb_true_iff. Qed.

(** A rule makes nothing of these kinds, but for its result if they say so. *)
Definition rule_fresh (n : nt) : bool :=
  match table n with
  | GSeq steps (BMk k fs) =>
      fresh (flat_map (fun s => gkinds (snd s)) steps ++ flat_map (fun f => bkinds (snd f)) fs) &&
      forallb (fun x => implb (String.eqb k (fst x)) (Nat.eqb (nt_index n) (nt_index (snd x)))) made
  | x => fresh (gkinds x)
  end.
Lemma rules_fresh n : rule_fresh n = true.
Proof. revert n. assert (forallb rule_fresh all_nts = true) as H by (vm_compute; reflexivity). rewrite forallb_forall in H. intros n. apply H, all_nts_complete. Qed.

Section Origin.
  Variable toks : list token.
  Hypothesis WF : wf_toks toks.
  Notation valid := (valid toks).

  Definition origin (k : string) (fs : list val) : Prop := forall n, In (k, n) made -> exists p q, valid p /\ der toks (GNT n) [] p q (VNode k fs).

  Fixpoint orig (v : val) : Prop :=
    match v with
    | VSome v | VVar _ _ v => orig v
    | VPair a b => orig a /\ orig b
    | VList l => fold_right (fun x P => orig x /\ P) True l
    | VNode k fs => fold_right (fun x P => orig x /\ P) True fs /\ origin k fs
    | _ => True
    end.
  Definition eorig (e : env) : Prop := Forall (fun b => orig (snd b)) e.

  Lemma orig_fold l : fold_right (fun x P => orig x /\ P) True l <-> Forall orig l.
  Proof.
    induction l as [|v l IH]; cbn [fold_right]; [split; [constructor|auto]|]. rewrite IH. split.
    - intros []. now constructor.
    - intros H. inversion H; auto.
  Qed.
  Lemma orig_list l : orig (VList l) <-> Forall orig l.
  Proof. apply orig_fold. Qed.
  Lemma orig_node k fs : orig (VNode k fs) <-> Forall orig fs /\ origin k fs.
  Proof. cbn [orig]. now rewrite orig_fold. Qed.
  Lemma plain_orig k fs : is_made k = false -> Forall orig fs -> orig (VNode k fs).
  Proof.
    intros N F. apply orig_node. split; [auto|]. intros n I. exfalso. unfold is_made in N. enough (existsb (fun x => String.eqb k (fst x)) made = true) by congruence.
    apply existsb_exists. exists (k, n). split; [auto|apply String.eqb_refl].
  Qed.

  Lemma orig_field f v w : orig v -> get_field f v = Some w -> orig w.
  Proof. intros L G. apply get_field_in in G as (k & fs & -> & J). apply orig_node in L as [L _]. rewrite Forall_forall in L. auto. Qed.
  Lemma assoc_orig e x v : eorig e -> assoc x e = Some v -> orig v.
  Proof. intros E A. apply SpansOk.assoc_in in A. unfold eorig in E. rewrite Forall_forall in E. exact (E _ A). Qed.
  Lemma bind_orig pt : forall v e e1, orig v -> eorig e -> bind_pat pt v e = Some e1 -> eorig e1.
  Proof.
    induction pt as [x|p1 IH1 p2 IH2]; intros v e e1 L E B; cbn [bind_pat] in B.
    - injection B as <-. constructor; auto.
    - destruct v; try discriminate. destruct (bind_pat p1 v1 e) as [e2|] eqn:B1; [|discriminate]. destruct L as [L1 L2]. eauto.
  Qed.
  Lemma block_orig l b : Forall orig l -> Forall orig (fst (block_split l b)) /\ orig (snd (block_split l b)).
  Proof.
    intros F. destruct (block_cases l b) as [E|(en & l' & v & L & E)]; rewrite E; cbn [fst snd]; [split; [auto|exact I]|].
    subst l. apply Forall_app in F as [F1 F2]. inversion F2; subst. split; [auto|]. assumption.
  Qed.

  Ltac fields := repeat apply Forall_cons; try apply Forall_nil; try exact I; auto.

  Section Build.
    Variables (e : env) (q : point) (E : eorig e).
    Notation bev := (beval toks q e).

    Lemma borig_ok b : fresh (bkinds b) = true -> forall v, bev b = BOk v -> orig v.
    Proof.
      induction b as [y|y|y z| | | |b IH|b IH|b IH|b IH|b d IH IHd|k fs IH|en vn b IH|a b IHa IHb|b IH|b IH
                   |f b IH|b IH|b IH|b IH|b IH|s t IHs IHu|s t IHs IHu|s t IHs IHu|b IH] using bexp_ind'; intros C v B; cbn [bkinds] in C; cbn [beval] in B.
      - destruct (assoc y e) as [w|] eqn:A; [|discriminate]. injection B as <-. eapply assoc_orig; eauto.
      - destruct (as_point (assoc y e)); cbn [bbind] in B; [|discriminate]. destruct (ex toks _ _); cbn [bbind] in B; [|discriminate]. injection B as <-. exact I.
      - destruct (as_point (assoc y e)); cbn [bbind] in B; [|discriminate]. destruct (as_point (assoc z e)); cbn [bbind] in B; [|discriminate].
        destruct (ex toks _ _); cbn [bbind] in B; [|discriminate]. injection B as <-. exact I.
      - injection B as <-. exact I.
      - injection B as <-. exact I.
      - injection B as <-. exact I.
      - destruct (bev b) as [w|] eqn:U; cbn [bbind] in B; [|discriminate]. injection B as <-. exact (IH C _ eq_refl).
      - destruct (bev b) as [w|] eqn:U; cbn [bbind] in B; [|discriminate]. injection B as <-. split; [exact (IH C _ eq_refl)|exact I].
      - destruct (bev b) as [w|] eqn:U; cbn [bbind] in B; [|discriminate]. specialize (IH C _ eq_refl).
        destruct w; try discriminate; injection B as <-; [exact I|split; [exact IH|exact I]|exact IH].
      - destruct (bev b) as [w|] eqn:U; cbn [bbind] in B; [|discriminate]. specialize (IH C _ eq_refl).
        destruct w; try discriminate; injection B as <-; [exact I|exact IH].
      - apply fresh_app in C as [C1 C2].
        destruct (bev b) as [w|] eqn:U; cbn [bbind] in B; [|discriminate]. specialize (IH C1 _ eq_refl).
        destruct w; try discriminate; [exact (IHd C2 _ B)|]. injection B as <-. exact IH.
      - match type of B with bbind ?r _ = _ => destruct r as [vs|] eqn:G; cbn [bbind] in B; [|discriminate] end. injection B as <-.
        apply fields_eval in G. change (negb (is_made k) && fresh (flat_map (fun f : string * bexp => bkinds (snd f)) fs) = true) in C. apply andb_true_iff in C as [C1 C2]. apply plain_orig; [now apply negb_true_iff in C1|].
        clear C1. induction G as [|f v fs vs G1 G2 IHg]; [constructor|]. apply Forall_cons_iff in IH as [IH1 IH2]. cbn [flat_map] in C2. apply fresh_app in C2 as [C2 C2']. constructor; auto.
      - destruct (bev b) as [w|] eqn:U; cbn [bbind] in B; [|discriminate]. injection B as <-. exact (IH C _ eq_refl).
      - apply fresh_app in C as [C1 C2].
        destruct (bev a) as [w|] eqn:U; cbn [bbind] in B; [|discriminate].
        destruct (bev b) as [w'|] eqn:U'; cbn [bbind] in B; [|discriminate]. injection B as <-. split; auto.
      - destruct (bev b) as [w|] eqn:U; cbn [bbind] in B; [|discriminate]. specialize (IH C _ eq_refl).
        destruct w; try discriminate. injection B as <-. apply IH.
      - destruct (bev b) as [w|] eqn:U; cbn [bbind] in B; [|discriminate]. specialize (IH C _ eq_refl).
        destruct w; try discriminate. injection B as <-. apply IH.
      - destruct (bev b) as [w|] eqn:U; cbn [bbind] in B; [|discriminate]. specialize (IH C _ eq_refl).
        destruct (get_field f w) as [u|] eqn:U'; [|discriminate]. injection B as <-. eapply orig_field; eauto.
      - destruct (bev b) as [w|] eqn:U; cbn [bbind] in B; [|discriminate].
        destruct (extent_of w); [|discriminate]. injection B as <-. exact I.
      - destruct (bev b) as [w|] eqn:U; cbn [bbind] in B; [|discriminate].
        destruct w; try discriminate; injection B as <-; exact I.
      - destruct (bev b) as [w|] eqn:U; cbn [bbind] in B; [|discriminate]. specialize (IH C _ eq_refl).
        destruct w as [| | | | | | |w| | | |]; try discriminate; [injection B as <-; exact I|]. destruct w; try discriminate. injection B as <-. apply IH.
      - destruct (bev b) as [w|] eqn:U; cbn [bbind] in B; [|discriminate]. specialize (IH C _ eq_refl).
        destruct w as [| | | | | | |w| | | |]; try discriminate; [injection B as <-; exact I|]. destruct w; try discriminate. injection B as <-. apply IH.
      - apply fresh_app in C as [C1 C2].
        destruct (bev s) as [w|] eqn:U; cbn [bbind] in B; [|discriminate].
        destruct (bev t) as [w'|] eqn:U'; cbn [bbind] in B; [|discriminate].
        destruct w as [| | | | | | | |l| | |]; try discriminate. destruct w'; try discriminate. injection B as <-.
        apply orig_list. apply block_orig. apply orig_list. auto.
      - apply fresh_app in C as [C1 C2].
        destruct (bev s) as [w|] eqn:U; cbn [bbind] in B; [|discriminate].
        destruct (bev t) as [w'|] eqn:U'; cbn [bbind] in B; [|discriminate].
        destruct w as [| | | | | | | |l| | |]; try discriminate. destruct w'; try discriminate. injection B as <-.
        apply block_orig. apply orig_list. auto.
      - apply fresh_app in C as [_ C]. apply fresh_app in C as [C1 C2].
        destruct (bev s) as [w|] eqn:U; cbn [bbind] in B; [|discriminate].
        destruct (bev t) as [w'|] eqn:U'; cbn [bbind] in B; [|discriminate]. specialize (IHu C2 _ eq_refl).
        destruct w as [x| | | | | | | | | | |]; try discriminate. destruct w' as [| | | | | | | | |w1 w2| |]; try discriminate.
        destruct w1 as [| | | | | | | |l| | |]; try discriminate. destruct w2 as [| | | | | | | | |w3 w4| |]; try discriminate. destruct w3 as [| |nn| | | | | | | | |]; try discriminate.
        injection B as <-. destruct IHu as [IHl _]. pose proof IHl as IHl'. apply orig_list in IHl'.
        unfold paren_or_tuple. destruct l as [|v [|w l]]; [|destruct nn|]; (apply plain_orig; [vm_compute; reflexivity|fields]); apply Forall_cons_iff in IHl' as [IHv _]; auto.
      - apply fresh_app in C as [_ C]. destruct (bev b) as [w|] eqn:U; cbn [bbind] in B; [|discriminate]. destruct w as [| | | |n| | | | | | |]; try discriminate. injection B as <-.
        unfold convert_number. destruct n as [rd x y f ee ss u]. cbn [convert_number]. destruct rd, f, ee, ss; cbn [vopt]; (apply plain_orig; [vm_compute; reflexivity|fields]);
          cbn [orig]; try (apply plain_orig; [vm_compute; reflexivity|fields]).
    Qed.
  End Build.

  (** * Derivations *)

  Definition der_o (x : g) (e : env) (p q : point) (v : val) : Prop := valid p -> eorig e ->
    (fresh (gkinds x) = true -> orig v) /\
    (forall steps k fs, x = GSeq steps (BMk k fs) -> fresh (flat_map (fun s => gkinds (snd s)) steps ++ flat_map (fun f => bkinds (snd f)) fs) = true ->
      exists vs, v = VNode k vs /\ Forall orig vs).
  Definition ders_o (steps : list (pat * g)) (e : env) (p : point) (e' : env) (q : point) : Prop :=
    valid p -> eorig e -> fresh (flat_map (fun s => gkinds (snd s)) steps) = true -> eorig e'.
  Definition items_o (so : option g) (f : g) (e : env) (p q : point) (vs : list val) : Prop := valid p -> eorig e -> fresh (gkinds f) = true -> Forall orig vs.
  Definition etree_o (c : car val) : Prop := valid (c_spt c) -> orig (c_val c).

  Lemma gnt_o n p q v : der_o (GNT n) [] p q v -> valid p -> orig v.
  Proof. intros H V. apply H; [auto|constructor|reflexivity]. Qed.

  Lemma fields_orig e q fs vs : eorig e -> Forall2 (fun (f : string * bexp) v => beval toks q e (snd f) = BOk v) fs vs -> fresh (flat_map (fun f => bkinds (snd f)) fs) = true -> Forall orig vs.
  Proof.
    intros E G. induction G as [|f v fs vs G1 G2 IHg]; [constructor|]. cbn [flat_map]. intros C. apply fresh_app in C as [C1 C2]. constructor; [|auto].
    exact (borig_ok e q E _ C1 _ G1).
  Qed.

  Lemma rule_orig n p q v : valid p -> der toks (table n) [] p q v -> der_o (table n) [] p q v -> orig v.
  Proof.
    intros V D H. destruct (H V (Forall_nil _)) as [H1 H2]. pose proof (rules_fresh n) as R. unfold rule_fresh in R. pose proof (D_NT toks n [] p q v D) as DN.
    destruct (table n) as [| | |steps b| | | | | | | | | | | | | | | |] eqn:T; auto.
    destruct b as [| | | | | | | | | | |k fs| | | | | | | | | | | | |]; auto.
    apply andb_true_iff in R as [R1 R2]. destruct (H2 _ _ _ eq_refl R1) as (vs & -> & F). apply orig_node. split; [auto|].
    intros n' J. rewrite forallb_forall in R2. specialize (R2 _ J). cbn [fst snd] in R2. rewrite String.eqb_refl in R2. cbn [implb] in R2.
    apply Nat.eqb_eq in R2. pose proof (all_nts_nth n) as N. rewrite R2, all_nts_nth in N. injection N as ->. exists p, q. auto.
  Qed.

  Lemma postfix_o c e op c' : orig (c_val c) -> orig op -> apply_one toks [c] (OpPostfix op) (c_ept c) e = AOk [c'] -> orig (c_val c').
  Proof.
    intros Mc Mo A. destruct op as [| | | | | | | | | | |en' k w]; cbn [apply_one] in A; try discriminate. cbn [orig] in Mo.
    repeat match type of A with (if ?b then _ else _) = _ => destruct b eqn:? end; try discriminate;
      apply apply_postfix_val in A as (x & X & ->); unfold into_attributed, expr_node; (apply plain_orig; [vm_compute; reflexivity|]); fields; cbn [orig snd fst];
      (apply plain_orig; [vm_compute; reflexivity|fields]).
  Qed.

  Theorem orig_all :
    (forall x e p q v, der toks x e p q v -> der_o x e p q v) /\
    (forall steps e p e' q, ders toks steps e p e' q -> ders_o steps e p e' q) /\
    (forall so f e p q vs, items toks so f e p q vs -> items_o so f e p q vs) /\
    (forall so e p q, between toks so e p q -> True) /\
    (forall c, etree toks c -> etree_o c).
  Proof.
    apply (der_all toks der_o ders_o items_o (fun so e p q => True) etree_o); auto.
    - intros m err e p q v pm N K V E. split; [|discriminate]. intros C. destruct m as [k|].
      + destruct (tok_ext _ WF _ _ _ _ _ _ V N K) as (x & -> & _); exact I.
      + destruct (tk_number _ _ _ _ _ _ V K) as (n & -> & _); exact I.
    - intros n e p q v D IH V E. split; [|discriminate]. intros C. exact (rule_orig n p q v V D IH).
    - intros e p V E. split; [|discriminate]. intros C. exact I.
    - intros steps b e e' p q v D IH B V E. split.
      + intros C. cbn [gkinds] in C. apply fresh_app in C as [C1 C2]. exact (borig_ok e' q (IH V E C1) b C2 v B).
      + intros steps' k fs [= <- ->] C. apply fresh_app in C as [C1 C2]. cbn [beval] in B.
        match type of B with bbind ?r _ = _ => destruct r as [vs|] eqn:G; cbn [bbind] in B; [|discriminate] end. injection B as <-. apply fields_eval in G.
        exists vs. split; [auto|]. exact (fields_orig _ _ _ _ (IH V E C1) G C2).
    - intros gs x e p q v J D IH V E. split; [|discriminate]. intros C. apply (IH V E). cbn [gkinds] in C. unfold fresh in *. rewrite forallb_forall in *. intros k K. apply C.
      apply in_flat_map. exists x. auto.
    - intros x e p q v D IH V E. split; [|discriminate]. intros C. exact (proj1 (IH V E) C).
    - intros x e p V E. split; [|discriminate]. intros C. exact I.
    - intros x e p q l D IH V E. split; [|discriminate]. intros C. apply orig_list. exact (IH V E C).
    - intros app sep f e p q l vs n b B D IH Ch V E. split; [|discriminate]. intros C. cbn [gkinds] in C. apply fresh_app in C as [C1 C2]. apply fresh_app in C2 as [C2 C3].
      unfold vtailed. split; [|split; exact I]. apply orig_list. apply Forall_app. split; [|exact (IH V E C3)].
      apply orig_list. exact (borig_ok e p E app C1 _ B).
    - intros sep f e p q vs n b D IH NE Ch V E. split; [|discriminate]. intros C. cbn [gkinds] in C. apply fresh_app in C as [C1 C2]. split; [|split; exact I]. apply orig_list. exact (IH V E C2).
    - intros sep f e p p1 q vs Bt _ D IH Ch V E. split; [|discriminate]. intros C. cbn [gkinds] in C. apply fresh_app in C as [C1 C2]. destruct (between_mono _ WF _ _ _ _ Bt V) as [V1 L1].
      apply orig_list. exact (IH V1 E C2).
    - intros sep f e p V E. split; [|discriminate]. intros C. exact I.
    - intros sep f e p q vs n b D IH Ch V E. split; [|discriminate]. intros C. cbn [gkinds] in C. apply fresh_app in C as [C1 C2]. split; [|split; exact I]. apply orig_list. exact (IH V E C2).
    - intros o c e p q v pm S K V E. split; [|discriminate]. intros C. unfold nested in K. destruct (ex toks p _) as [x|]; [|discriminate]. injection K as <- <-. exact I.
    - intros x e p q v r D IH X V E. split; [|discriminate]. intros C. exact I.
    - intros x e p q v D IH V E. split; [|discriminate]. intros C. exact I.
    - intros x er e p q v D IH V E. split; [|discriminate]. intros C. exact (proj1 (IH V E) C).
    - intros x er e p q n r D IH X V E. split; [|discriminate]. intros C. exact I.
    - intros l x e p q v D IH V E. split; [|discriminate]. intros C. exact (proj1 (IH V E) C).
    - intros er x e p q v D IH V E. split; [|discriminate]. intros C. exact (proj1 (IH V E) C).
    - intros a b e p q v D IH V E. split; [|discriminate]. intros C. cbn [gkinds] in C. apply fresh_app in C as [C1 C2]. apply IH; auto.
    - intros a b e p q v D IH V E. split; [|discriminate]. intros C. cbn [gkinds] in C. apply fresh_app in C as [C1 C2]. apply IH; auto.
    - intros stmt e c T IH V E. split; [|discriminate]. intros C. exact (IH V).
    - intros e p V E C. exact E.
    - intros pt x steps e p q v e1 e' r D IH B DS IHs V E C. cbn [flat_map snd] in C. apply fresh_app in C as [C1 C2].
      destruct (der_mono _ WF _ _ _ _ _ D V) as [V1 L1]. apply (IHs V1); [|auto]. eapply bind_orig; [|exact E|exact B]. apply (IH V E). auto.
    - intros so f e p q Vq L _ _ V E C. constructor.
    - intros so f e p p1 p2 q v vs D IH Bt _ DI IHi V E C. destruct (der_mono _ WF _ _ _ _ _ D V) as [V1 L1]. destruct (between_mono _ WF _ _ _ _ Bt V1) as [V2 L2].
      constructor; [apply (IH V E); auto|]. apply (IHi V2); auto.
    - (* an atom *) intros p q en v D IH L V. cbn [c_spt c_val] in *. exact (gnt_o _ _ _ _ IH V).
    - (* a prefix operator *) intros en op s c c' res D IH L T IHt A E1 E2 V. rewrite E1 in V.
      destruct (der_mono _ WF _ _ _ _ _ D V) as [V1 L1]. pose proof (IHt V1) as Mc. pose proof (gnt_o _ _ _ _ IH V) as Mo. cbn [orig] in Mo.
      apply inv_prefix in D as (m & x & l & w & -> & X & _).
      apply orig_node in Mo as [Mo _]. apply Forall_cons_iff in Mo as [_ Mo]. apply Forall_cons_iff in Mo as [Ml Mo]. apply Forall_cons_iff in Mo as [Mq _].
      destruct w as [| | | | | | | | | | |en' k w]; cbn [apply_one] in A; try discriminate. cbn [orig] in Mq.
      repeat match type of A with (if ?b then _ else _) = _ => destruct b end; unfold apply_maybe_prefix in A;
        apply apply_prefix_val in A as (y & Y & ->); unfold expr_node;
        (apply plain_orig; [vm_compute; reflexivity|]); fields; cbn [orig]; (apply plain_orig; [vm_compute; reflexivity|fields]).
    - intros en op s e c' D IH L A E1 E2 V. rewrite E1 in V. pose proof (gnt_o _ _ _ _ IH V) as Mo. cbn [orig] in Mo.
      apply inv_prefix in D as (m & x & l & w & -> & X & _).
      apply orig_node in Mo as [Mo _]. apply Forall_cons_iff in Mo as [_ Mo]. apply Forall_cons_iff in Mo as [Ml Mo]. apply Forall_cons_iff in Mo as [Mq _].
      destruct w as [| | | | | | | | | | |en' k w]; cbn [apply_one] in A; try discriminate. cbn [orig] in Mq.
      repeat match type of A with (if ?b then _ else _) = _ => destruct b; [try discriminate|] end; try discriminate;
        unfold apply_maybe_prefix in A; rewrite X in A; cbn [a_of_b abind] in A; injection A as <-; cbn [c_val];
        unfold expr_node; (apply plain_orig; [vm_compute; reflexivity|]); fields; cbn [orig]; (apply plain_orig; [vm_compute; reflexivity|fields]).
    - (* an infix operator *) intros en op l r c' Tl IHl Tr IHr D IH L A E1 E2 V. rewrite E1 in V.
      pose proof (IHl V) as Ml. destruct (etree_mono _ WF _ Tl V) as [V1 L1]. destruct (der_mono _ WF _ _ _ _ _ D V1) as [V2 L2]. pose proof (IHr V2) as Mr.
      pose proof (gnt_o _ _ _ _ IH V1) as Mo. destruct op as [| | | | | | | | | | |en' k w]; cbn [apply_one] in A; try discriminate. cbn [orig] in Mo.
      repeat match type of A with (if ?b then _ else _) = _ => destruct b end; unfold apply_maybe_infix in A; cbn [length Nat.leb] in A;
        apply apply_infix_val in A as (x & X & ->); unfold into_attributed, expr_node;
        (apply plain_orig; [vm_compute; reflexivity|]); fields; cbn [orig]; (apply plain_orig; [vm_compute; reflexivity|fields]).
    - intros en op l e c' Tl IHl D IH L A E1 E2 V. rewrite E1 in V. pose proof (IHl V) as Ml. destruct (etree_mono _ WF _ Tl V) as [V1 L1].
      pose proof (gnt_o _ _ _ _ IH V1) as Mo. destruct op as [| | | | | | | | | | |en' k w]; cbn [apply_one] in A; try discriminate. cbn [orig] in Mo.
      repeat match type of A with (if ?b then _ else _) = _ => destruct b; [try discriminate|] end; try discriminate;
        unfold apply_maybe_infix in A; cbn [length Nat.leb pop_expression abind] in A;
        (destruct (ex toks (c_spt l) e) as [y|]; cbn [a_of_b abind] in A; [|discriminate]); injection A as <-; cbn [c_val];
        unfold into_attributed, expr_node; (apply plain_orig; [vm_compute; reflexivity|]); fields; cbn [orig]; (apply plain_orig; [vm_compute; reflexivity|fields]).
    - (* a postfix operator *) intros en op c e c' T IHt D IH L A E1 E2 V. rewrite E1 in V. destruct (etree_mono _ WF _ T V) as [V1 L1].
      pose proof (gnt_o _ _ _ _ IH V1) as Mo. cbn [orig] in Mo. exact (postfix_o _ _ _ _ (IHt V) Mo A).
    - intros op c e c' T IHt D IH L A E1 E2 V. rewrite E1 in V. destruct (etree_mono _ WF _ T V) as [V1 L1].
      exact (postfix_o _ _ _ _ (IHt V) (gnt_o _ _ _ _ IH V1) A).
  Qed.

  Lemma orig_part w v : part_of w v -> orig v -> orig w.
  Proof.
    assert (forall (x : val) l, In x l -> fold_right (fun x P => orig x /\ P) True l -> orig x) as G.
    { intros x l. induction l as [|y l IH]; [intros []|]. cbn [fold_right]. intros [->|I] [A B]; auto. }
    induction 1 as [|v P IH|e t v P IH|a b P IH|a b P IH|v l I P IH|v k fs I P IH]; auto; cbn [orig].
    - intros [A _]. auto.
    - intros [_ A]. auto.
    - intros L. apply IH. eapply G; eauto.
    - intros (L & _). apply IH. eapply G; eauto.
  Qed.
End Origin.
