(** No [if let] and no [while let] node: induction on runs of the parser. *)

From Coq Require Import String List Arith Bool Lia.
From Verif Require Import Base Peresil Token Schema Value Nt Grammar Points Table Static Amb Typing Inv Level Dead.
Import ListNotations.
Local Open Scope string_scope.
Local Open Scope list_scope.
Local Open Scope nat_scope.

(** The structs of a value, visited or not. *)
Fixpoint kinds (v : val) : list string :=
  match v with
  | VSome x => kinds x
  | VList l => flat_map kinds l
  | VPair a b => kinds a ++ kinds b
  | VVar _ _ p => kinds p
  | VNode k fs => k :: flat_map kinds fs
  | _ => []
  end.

Definition plain (k : string) : bool := negb (String.eqb k "IfLet") && negb (String.eqb k "WhileLet").

(** * Static check: which builders and nonterminals make these nodes *)
Fixpoint bplain (b : bexp) : bool :=
  match b with
  | BVar _ | BEx _ | BExTo _ _ | BUnit | BNil | BNone => true
  | BSome b | BSingle b | BIntoAppend b | BUnwrapNil b | BFst b | BSnd b | BField _ b | BExtentOf b
  | BIsSome b | BOptFst b | BOptSnd b | BNumber b | BVariant _ _ b => bplain b
  | BUnwrapOr a b | BPair a b | BStmts a b | BTrailing a b | BParen a b => bplain a && bplain b
  | BMk k fs => plain k && (fix go (fs : list (string * bexp)) : bool :=
                   match fs with [] => true | (_, b) :: fs' => bplain b && go fs' end) fs
  end.

Definition nplain (n : nt) : bool := match n with N_expr_if_let | N_expr_while_let => false | _ => true end.

Fixpoint gplain (x : g) : bool :=
  match x with
  | GTok _ _ | GPoint | GNested _ _ | GShunt _ => true
  | GNT n => nplain n
  | GSeq steps b => (fix go (s : list (pat * g)) : bool :=
                       match s with [] => true | (_, y) :: s' => gplain y && go s' end) steps && bplain b
  | GAlt gs => (fix go (s : list g) : bool :=
                  match s with [] => true | y :: s' => gplain y && go s' end) gs
  | GOpt y | GMany y | GExt y | GPeek y | GMapErr y _ | GSimple y _ | GAmb _ y | GIfMax _ y => gplain y
  | GTailed app sep f => bplain app && gplain sep && gplain f
  | GTailed1 sep f | GResume sep f | GImplicit sep f => gplain sep && gplain f
  | GIfAmb a b => gplain a && gplain b
  end.

(** Only the alternatives of an atom name them. *)
Lemma table_plain n : nplain n = true -> n = N_expression_atom \/ gplain (table n) = true.
Proof.
  assert (forallb (fun n => match n with N_expression_atom => true | _ => implb (nplain n) (gplain (table n)) end) all_nts = true) as H by (vm_compute; reflexivity).
  rewrite forallb_forall in H. specialize (H n (all_nts_complete n)). intros K.
  destruct n; auto; right; rewrite K in H; exact H.
Qed.

Section Kinds.
  Variable toks : list token.
  Notation run := (run table toks).

  Definition vok (v : val) : Prop := Forall (fun k => plain k = true) (kinds v).
  (** Nothing is asked of points and extents. *)
  Definition okpt (p : point) : Prop := True.
  Definition P (x : extent) : Prop := True.

  Lemma HEx s e x : okpt s -> okpt e -> ex toks s e = BOk x -> P x. Proof. intros; exact I. Qed.

  Lemma vok_list l : vok (VList l) <-> Forall vok l.
  Proof. unfold vok. cbn [kinds]. apply Forall_flat_map. Qed.

  Lemma vok_fields k fs : vok (VNode k fs) -> Forall vok fs.
  Proof. unfold vok. cbn [kinds]. intros H. inversion H; subst. now apply Forall_flat_map. Qed.

  Lemma vok_node k fs : plain k = true -> Forall vok fs -> vok (VNode k fs).
  Proof. unfold vok. cbn [kinds]. intros K H. constructor; [exact K|]. now apply Forall_flat_map. Qed.

  Lemma vok_pair a b : vok (VPair a b) <-> vok a /\ vok b.
  Proof. unfold vok. cbn [kinds]. apply Forall_app. Qed.

  Lemma vok_var e v p : vok p -> vok (VVar e v p).
  Proof. exact (fun H => H). Qed.

  Lemma vok_payload e v p : vok (VVar e v p) -> vok p.
  Proof. exact (fun H => H). Qed.

  Lemma vok_ext e : vok (VExt e).
  Proof. constructor. Qed.

  Lemma vok_point p : vok (VPoint p).
  Proof. constructor. Qed.

  Lemma vok_field f v x : vok v -> get_field f v = Some x -> vok x.
  Proof.
    unfold get_field. destruct v as [| | | | | | | | | |k fs|]; try discriminate. intros H.
    destruct (struct_fields k) as [fields|]; [|discriminate].
    destruct (field_index f fields) as [i|]; [|discriminate]. intros N. apply vok_fields in H.
    rewrite Forall_forall in H. apply H. eapply nth_error_In; eauto.
  Qed.

  Ltac trivial_vok := solve [constructor].

  Definition efree (e : env) : Prop := Forall (fun x => vok (snd x)) e.

  Lemma efree_assoc e x v : efree e -> assoc x e = Some v -> vok v.
  Proof. intros F A. apply assoc_in in A. unfold efree in F. rewrite Forall_forall in F. exact (F _ A). Qed.

  Lemma free_bind p : forall v e e', vok v -> efree e -> bind_pat p v e = Some e' -> efree e'.
  Proof.
    induction p as [x|a IHa b IHb]; intros v e e' V F B; cbn [bind_pat] in B.
    - injection B as <-. now constructor.
    - destruct v as [| | | | | | | | |va vb| |]; try discriminate. apply vok_pair in V. destruct V.
      destruct (bind_pat a va e) as [e1|] eqn:A; [|discriminate]. eauto.
  Qed.

  Lemma vok_none : vok VNone.
  Proof. trivial_vok. Qed.
  Lemma vok_unit : vok VUnit.
  Proof. trivial_vok. Qed.
  Lemma vok_bool b : vok (VBool b).
  Proof. trivial_vok. Qed.
  Lemma vok_nat n : vok (VNat n).
  Proof. trivial_vok. Qed.
  Lemma vok_nil : vok (VList []).
  Proof. trivial_vok. Qed.
  Hint Resolve vok_none vok_unit vok_bool vok_nat vok_nil : core.

  Lemma free_split l b : Forall vok l ->
    Forall vok (fst (block_split l b)) /\ vok (snd (block_split l b)).
  Proof.
    intros F.
    assert (Forall vok (rev l)) as R by (now apply Forall_rev).
    assert (Forall vok (fst (l, VNone)) /\ vok (snd (l, VNone))) as D by (cbn [fst snd]; auto).
    unfold block_split.
    destruct (rev l) as [|x before]; [exact D|].
    inversion R as [|? ? Hx R']; subst.
    destruct x as [| | | | | | | | | | |e v p]; try exact D.
    apply vok_payload in Hx.
    repeat match goal with |- context [match ?s with _ => _ end] => destruct s; try exact D end.
    split; [now apply Forall_rev|exact Hx].
  Qed.

  Lemma free_number n : vok (convert_number n).
  Proof.
    assert (forall o, vok (vopt o)) as V by (intros [e|]; constructor).
    unfold convert_number. repeat first [apply vok_node; [reflexivity|]|apply Forall_cons|apply Forall_nil|apply vok_var|apply V|apply vok_ext|apply vok_nil].
  Qed.

  Lemma free_beval pt e b : efree e -> okpt pt -> bplain b = true -> forall v, beval toks pt e b = BOk v -> vok v.
  Proof.
    intros F PT.
    induction b using bexp_ind'; intros B w H'; cbn [bplain] in B; cbn [beval] in H'.
    all: repeat match goal with
         | H : _ && _ = true |- _ => apply andb_true_iff in H; destruct H
         end.
    all: repeat match type of H' with
         | context [beval ?t ?p ?e ?b] =>
             let v := fresh "v" in let E := fresh "E" in
             destruct (beval t p e b) as [v|] eqn:E; cbn [bbind] in H'; [|discriminate]
         end.
    all: repeat match goal with
         | IH : bplain ?b = true -> _, B : bplain ?b = true |- _ => specialize (IH B _ eq_refl)
         end.
    - destruct (assoc x e) as [v|] eqn:A; [|discriminate]. injection H' as <-. eapply efree_assoc; eauto.
    - destruct (as_point (assoc x e)) as [a|] eqn:A1; [|discriminate]. cbn [bbind] in H'.
      destruct (ex toks a pt) as [r|] eqn:X; [|discriminate]. injection H' as <-. apply vok_ext.
    - destruct (as_point (assoc x e)) as [a|] eqn:A1; [|discriminate]. cbn [bbind] in H'.
      destruct (as_point (assoc y e)) as [a0|] eqn:A2; [|discriminate]. cbn [bbind] in H'.
      destruct (ex toks a a0) as [r|] eqn:X; [|discriminate]. injection H' as <-. apply vok_ext.
    - injection H' as <-. auto.
    - injection H' as <-. auto.
    - injection H' as <-. auto.
    - injection H' as <-. exact IHb.
    - injection H' as <-. apply vok_list. auto.
    - destruct v; try discriminate; injection H' as <-; [auto| |exact IHb].
      apply vok_list. constructor; [exact IHb|constructor].
    - destruct v; try discriminate; injection H' as <-; [auto|exact IHb].
    - destruct v; try discriminate; [|injection H' as <-; exact IHb1]. eapply IHb2; eauto.
    - match type of H' with bbind ?c _ = _ => remember c as r eqn:R end.
      destruct r as [l|]; [|discriminate]. cbn [bbind] in H'. injection H' as <-. apply vok_node; [assumption|].
      symmetry in R. revert l R. induction H as [|[f b] fs Hb H IH]; intros l R; [injection R as <-; constructor|].
      cbn [snd] in Hb. apply andb_true_iff in H1. destruct H1 as [B1 B2].
      destruct (beval toks pt e b) as [v|] eqn:E; [|discriminate]. cbn [bbind] in R.
      match type of R with bbind ?c _ = _ => remember c as r eqn:R2 end.
      destruct r as [l2|]; [|discriminate]. cbn [bbind] in R. injection R as <-. constructor; [now apply Hb|].
      apply IH; auto.
    - injection H' as <-. apply vok_var. auto.
    - injection H' as <-. apply vok_pair. auto.
    - destruct v; try discriminate. apply vok_pair in IHb. destruct IHb. now injection H' as <-.
    - destruct v; try discriminate. apply vok_pair in IHb. destruct IHb. now injection H' as <-.
    - destruct (get_field f v) as [x|] eqn:G; [|discriminate]. injection H' as <-. eapply vok_field; eauto.
    - destruct (extent_of v) as [x|] eqn:X; [|discriminate]. injection H' as <-. apply vok_ext.
    - destruct v; try discriminate; injection H' as <-; auto.
    - destruct v; try discriminate; [injection H' as <-; auto|]. destruct v; try discriminate. injection H' as <-.
      apply (proj1 (vok_pair _ _)) in IHb. destruct IHb. exact H.
    - destruct v; try discriminate; [injection H' as <-; auto|]. destruct v; try discriminate. injection H' as <-.
      apply (proj1 (vok_pair _ _)) in IHb. tauto.
    - destruct v; try discriminate. destruct v0; try discriminate. injection H' as <-. apply vok_list.
      apply free_split. now apply vok_list.
    - destruct v; try discriminate. destruct v0; try discriminate. injection H' as <-.
      apply free_split. now apply vok_list.
    - destruct v; try discriminate. destruct v0 as [| | | | | | | | |va vb| |]; try discriminate.
      destruct va; try discriminate. destruct vb as [| | | | | | | | |vb1 vb2| |]; try discriminate.
      destruct vb1; try discriminate. injection H' as <-. apply vok_pair in IHb2. destruct IHb2 as [L _].
      pose proof L as L'. apply vok_list in L. unfold paren_or_tuple.
      destruct l as [|x [|y l]]; [|destruct n|];
        (apply vok_var; apply vok_node; [reflexivity|]; constructor; [exact IHb1|constructor; [|constructor; [auto|constructor]]]);
        auto.
      now inversion L.
    - destruct v; try discriminate. injection H' as <-. apply free_number.
  Qed.

  (** * Parsers *)

  (** What a parser returns, from a good point. *)
  Definition pfree (f : gparser val) : Prop := forall pm p, okpt p ->
    match f pm p with
    | (_, Success q v) => okpt q /\ vok v
    | (_, Failure q _) => okpt q
    | (_, Abort _) => True
    end.

  Lemma okpt_any p : okpt p.
  Proof. exact I. Qed.
  Hint Resolve okpt_any : core.

  Lemma free_convert m t v : convert m t = Some v -> vok v.
  Proof. destruct m, t; cbn [convert]; try discriminate; [destruct (tkind_eqb _ _); try discriminate|]; intros [= <-]; constructor. Qed.

  Lemma free_tok m err : pfree (tok toks m err).
  Proof.
    intros pm p OK. unfold tok. destruct (nth_error toks (off p)) as [t|]; [|auto].
    destruct (match sub p with Some n => _ | None => _ end) as [u|]; [|exact I].
    destruct (convert m u) eqn:C; [split; [auto|eapply free_convert; eauto]|].
    destruct (split t (sub_rank (sub p))) as [[x y]|]; [|auto].
    destruct (convert m x) eqn:C2; [split; [auto|eapply free_convert; eauto]|auto].
  Qed.

  Lemma free_vtailed l c b : Forall vok l -> vok (vtailed l c b).
  Proof. intros H. apply vok_pair. split; [now apply vok_list|]. apply vok_pair. auto. Qed.

  Lemma free_tailed_loop sep f : pfree sep -> pfree f -> forall k l c b, Forall vok l -> pfree (tailed_loop k sep f l c b).
  Proof.
    intros S F k. induction k as [|k IH]; intros l c b L pm p OK; cbn [tailed_loop]; [exact I|].
    pose proof (F pm p OK) as F1. destruct (f pm p) as [pm1 [r u|r er|w]]; [| |exact I].
    - destruct F1 as [Or U].
      assert (Forall vok (l ++ [u])) as L' by (apply Forall_app; auto).
      pose proof (S pm1 r Or) as S1. destruct (sep pm1 r) as [pm2 [r2 u2|r2 er2|w]]; [| |exact I].
      + destruct S1. apply IH; auto.
      + split; [auto|]. now apply free_vtailed.
    - split; [auto|]. now apply free_vtailed.
  Qed.

  Lemma free_tailed1 sep f k : pfree sep -> pfree f -> pfree (tailed1 k sep f).
  Proof.
    intros S F pm p OK. unfold tailed1.
    pose proof (F pm p OK) as F1. destruct (f pm p) as [pm1 [r u|r er|w]]; [|auto|exact I].
    destruct F1 as [Or U].
    pose proof (S pm1 r Or) as S1. destruct (sep pm1 r) as [pm2 [r2 u2|r2 er2|w]]; [| |exact I].
    - destruct S1. apply free_tailed_loop; auto.
    - split; [auto|]. apply free_vtailed. auto.
  Qed.

  Lemma free_resume sep f k : pfree sep -> pfree f -> pfree (resume k sep f).
  Proof.
    intros S F pm p OK. unfold resume.
    pose proof (S pm p OK) as S1. destruct (sep pm p) as [pm1 [r u|r er|w]]; [| |exact I].
    - destruct S1 as [Or _].
      pose proof (free_tailed1 sep f k S F pm1 r Or) as T.
      destruct (tailed1 k sep f pm1 r) as [pm2 [r2 u2|r2 er2|w]]; [| |exact I].
      + destruct T as [O2 T]. destruct u2; try exact I. apply vok_pair in T. tauto.
      + auto.
    - auto.
  Qed.

  Lemma free_implicit sep f : pfree sep -> pfree f -> forall k l c b, Forall vok l -> pfree (implicit_loop k sep f l c b).
  Proof.
    intros S F k. induction k as [|k IH]; intros l c b L pm p OK; cbn [implicit_loop]; [exact I|].
    pose proof (F pm p OK) as F1. destruct (f pm p) as [pm1 [r u|r er|w]]; [| |exact I].
    - destruct F1 as [Or U].
      assert (Forall vok (l ++ [u])) as L' by (apply Forall_app; auto).
      pose proof (S pm1 r Or) as S1. destruct (sep pm1 r) as [pm2 [r2 u2|r2 er2|w]]; [| |exact I].
      + destruct S1. apply IH; auto.
      + destruct (is_implicit_separator u); [apply IH; auto|]. split; [auto|]. now apply free_vtailed.
    - split; [auto|]. now apply free_vtailed.
  Qed.

  Lemma free_many f k : pfree f -> forall pm p, okpt p ->
    match zero_or_more pt_lt recov k f pm p with
    | (_, Success q l) => okpt q /\ Forall vok l
    | (_, Failure q _) => okpt q
    | (_, Abort _) => True
    end.
  Proof.
    intros F. induction k as [|k IH]; intros pm p OK; cbn [zero_or_more]; [exact I|].
    pose proof (F pm p OK) as F1. destruct (f pm p) as [pm1 [r u|r er|w]]; [| |exact I].
    - destruct F1 as [Or U]. specialize (IH pm1 r Or).
      destruct (zero_or_more pt_lt recov k f pm1 r) as [pm2 [r2 l2|r2 e2|w]]; [|auto|exact I].
      destruct IH. auto.
    - cbn [recov]. auto.
  Qed.

  Lemma free_alt (ps : list (gparser val)) p : okpt p -> Forall pfree ps ->
    forall cur (pm : pm_t), match cur with Success q v => okpt q /\ vok v | Failure q _ => okpt q | Abort _ => True end ->
    match alternate_from pt_lt recov cur ps pm p with
    | (_, Success q v) => okpt q /\ vok v
    | (_, Failure q _) => okpt q
    | (_, Abort _) => True
    end.
  Proof.
    intros OK H. induction H as [|f ps Hf H IH]; intros cur pm C; cbn [alternate_from]; [exact C|].
    destruct cur as [q' v'|q' er|w]; [exact C| |exact I].
    cbn [recov]. pose proof (Hf pm p OK) as F1. destruct (f pm p) as [pm1 r]. apply IH. exact F1.
  Qed.

  (** ** The shunting yard *)

  Definition ofree (o : opk) : Prop := match o with OpPrefix v | OpInfix v | OpPostfix v => vok v end.
  Definition cok {A} (Q : A -> Prop) (c : car A) : Prop := Q (c_val c) /\ okpt (c_spt c) /\ okpt (c_ept c).
  Definition rfree (res : list (car val)) : Prop := Forall (cok vok) res.
  Definition yfree (y : yard) : Prop := Forall (cok ofree) (y_ops y) /\ rfree (y_res y).

  (** Outcomes of a yard operation. *)
  Definition aok {A} (Q : A -> Prop) (r : ares A) : Prop :=
    match r with AOk a => Q a | AErr p _ => okpt p | AAbort _ => True end.

  Definition fun_free (f : extent -> val -> val) : Prop := forall x v, P x -> vok v -> vok (f x v).

  Lemma free_attr_node e attrs v : P e -> vok attrs -> vok v ->
    vok (VNode "Attributed<Expression>" [VExt e; attrs; v; VList []]).
  Proof. intros E A V. apply vok_node; [reflexivity|]. repeat apply Forall_cons; auto; apply vok_ext. Qed.

  Lemma free_apply_prefix res s e x attrs f : rfree res -> okpt s -> P x -> vok attrs -> fun_free f ->
    aok rfree (apply_prefix toks res s e x attrs f).
  Proof.
    intros R S X A F. unfold apply_prefix, pop_expression. destruct res as [|c res]; [exact S|]. cbn [abind].
    inversion R as [|? ? Rc R']; subst. destruct Rc as (C1 & C2 & C3).
    destruct (pt_lt (c_ept c) s); [exact S|]. destruct (ex toks s (c_ept c)) as [i|] eqn:EX; [|exact I].
    apply HEx in EX; auto. cbn [a_of_b abind aok]. constructor; [|auto]. split; [|auto].
    cbn [c_val]. apply free_attr_node; auto.
  Qed.

  Lemma free_apply_maybe_prefix res s e x attrs f : rfree res -> okpt s -> okpt e -> P x -> vok attrs ->
    fun_free f -> aok rfree (apply_maybe_prefix toks res s e x attrs f).
  Proof.
    intros R S E X A F. unfold apply_maybe_prefix. destruct res as [|c res].
    - destruct (ex toks s e) as [i|] eqn:EX; [|exact I]. apply HEx in EX; auto.
      cbn [a_of_b abind aok]. constructor; [|constructor]. split; [|auto]. cbn [c_val]. apply free_attr_node; auto.
    - apply free_apply_prefix; auto. intros y v Hy V. now apply F.
  Qed.

  Lemma free_into x v : P x -> vok v -> vok (into_attributed x v).
  Proof. intros X V. apply free_attr_node; auto. Qed.

  Lemma free_apply_infix res s e f : rfree res -> okpt s -> okpt e ->
    (forall x l r, P x -> vok l -> vok r -> vok (f x l r)) -> aok rfree (apply_infix toks res s e f).
  Proof.
    intros R S E F. unfold apply_infix, pop_expression. destruct res as [|r [|l res]]; [exact E|exact S|]. cbn [abind].
    inversion R as [|? ? Rr R']; subst. inversion R' as [|? ? Rl R'']; subst.
    destruct Rr as (A1 & A2 & A3). destruct Rl as (B1 & B2 & B3).
    destruct (ex toks (c_spt l) (c_ept r)) as [i|] eqn:EX; [|exact I]. apply HEx in EX; auto.
    cbn [a_of_b abind aok]. constructor; [|auto]. split; [|auto]. apply free_into; auto.
  Qed.

  Lemma free_apply_maybe_infix res s e f : rfree res -> okpt s -> okpt e ->
    (forall x l r, P x -> vok l -> vok r -> vok (f x l r)) -> aok rfree (apply_maybe_infix toks res s e f).
  Proof.
    intros R S E F. unfold apply_maybe_infix. destruct (length res <=? 1).
    - unfold pop_expression. destruct res as [|l res]; [exact E|]. cbn [abind].
      inversion R as [|? ? Rr R']; subst. destruct Rr as (A1 & A2 & A3).
      destruct (ex toks (c_spt l) e) as [i|] eqn:EX; [|exact I]. apply HEx in EX; auto.
      cbn [a_of_b abind aok]. constructor; [|auto]. split; [|auto]. apply free_into; auto.
    - apply free_apply_infix; [auto..|]. intros x l r X L R'. now apply F.
  Qed.

  Lemma free_apply_postfix res s e f : rfree res -> okpt s -> okpt e -> fun_free f ->
    aok rfree (apply_postfix toks res s e f).
  Proof.
    intros R S E F. unfold apply_postfix, pop_expression. destruct res as [|c res]; [exact S|]. cbn [abind].
    inversion R as [|? ? Rc R']; subst. destruct Rc as (A1 & A2 & A3).
    destruct (ex toks (c_spt c) e) as [i|] eqn:EX; [|exact I]. apply HEx in EX; auto.
    cbn [a_of_b abind aok]. constructor; [|auto]. split; [|auto]. apply free_into; auto.
  Qed.

  Lemma free_expr_node v k fs : plain k = true -> Forall vok fs -> vok (expr_node v k fs).
  Proof. intros K H. apply vok_var. now apply vok_node. Qed.

  Ltac fields := intros; apply free_expr_node; [reflexivity|]; repeat (apply Forall_cons || apply Forall_nil);
                 auto; try (apply vok_ext); try (apply vok_var; auto).

  Lemma free_apply_one res op s e : rfree res -> ofree op -> okpt s -> okpt e -> aok rfree (apply_one toks res op s e).
  Proof.
    intros R O S E. destruct op as [v|v|v]; cbn [ofree] in O; cbn [apply_one].
    - destruct v as [| | | | | | | | | |k fs|]; try exact I.
      destruct fs as [|x [|attrs [|op [|ws [|? ?]]]]]; try exact I; destruct x; try exact I;
        destruct op; try exact I.
      apply vok_fields in O. inversion O as [|? ? Ox O1]; subst. inversion O1 as [|? ? Oa O2]; subst.
      inversion O2 as [|? ? Op O3]; subst. inversion O3 as [|? ? Ow _]; subst. apply vok_payload in Op.
      assert (P e0) by exact I.
      repeat match goal with |- context [if ?b then _ else _] => destruct b end;
        first [apply free_apply_prefix|apply free_apply_maybe_prefix]; auto; unfold fun_free; fields.
    - destruct v; try exact I. apply vok_payload in O.
      repeat match goal with |- context [if ?b then _ else _] => destruct b end;
        first [apply free_apply_infix|apply free_apply_maybe_infix]; auto; fields.
    - destruct v; try exact I. apply vok_payload in O.
      repeat match goal with |- context [if ?b then _ else _] => destruct b end;
        apply free_apply_postfix; auto; unfold fun_free; fields.
  Qed.

  Lemma free_precedence o : forall ops res, Forall (cok ofree) ops -> rfree res ->
    aok yfree (apply_precedence toks ops res o).
  Proof.
    induction ops as [|top ops IH]; intros res O R; cbn [apply_precedence].
    - split; auto.
    - inversion O as [|? ? O1 O2]; subst. destruct (should_pop o (c_val top)); [|split; auto].
      destruct O1 as (A & B & C). pose proof (free_apply_one res _ _ _ R A B C) as H.
      destruct (apply_one toks res (c_val top) (c_spt top) (c_ept top)) as [res'| |]; cbn [abind aok] in *; auto.
  Qed.

  Lemma free_all : forall ops res, Forall (cok ofree) ops -> rfree res -> aok rfree (apply_all toks ops res).
  Proof.
    induction ops as [|top ops IH]; intros res O R; cbn [apply_all]; [exact R|].
    inversion O as [|? ? O1 O2]; subst.
    destruct O1 as (A & B & C). pose proof (free_apply_one res _ _ _ R A B C) as H.
    destruct (apply_one toks res (c_val top) (c_spt top) (c_ept top)) as [res'| |]; cbn [abind aok] in *; auto.
  Qed.

  Lemma free_finish y p : yfree y -> okpt p -> aok (cok vok) (finish_yard toks y p).
  Proof.
    intros [O R] OK. unfold finish_yard. pose proof (free_all _ _ O R) as H.
    destruct (apply_all toks (y_ops y) (y_res y)) as [res| |]; cbn [abind aok] in *; auto.
    destruct res as [|x [|]]; try exact I. now inversion H.
  Qed.

  Lemma free_add_op y o s e : yfree y -> ofree o -> okpt s -> okpt e -> aok yfree (add_op toks y o s e).
  Proof.
    intros [O R] Ho S E. unfold add_op. pose proof (free_precedence o _ _ O R) as H.
    destruct (apply_precedence toks (y_ops y) (y_res y) o) as [y1| |]; cbn [abind aok] in *; auto.
    destruct H. split; [constructor; [split; auto|auto]|auto].
  Qed.

  Lemma free_with_amb l f : pfree f -> pfree (with_amb l f).
  Proof.
    intros F pm p OK. unfold with_amb. pose proof (F (set_amb pm l) p OK) as H.
    destruct (f (set_amb pm l) p) as [pm1 r]. exact H.
  Qed.

  Lemma free_shunt pa ip pl stmt : pfree pa -> pfree ip -> pfree pl ->
    forall k y s, yfree y -> pfree (shunt_loop toks k pa ip pl stmt y s).
  Proof.
    intros PA IP PL k. induction k as [|k IH]; intros y s Y pm p OK; cbn [shunt_loop]; [exact I|].
    assert (forall pm o next pt, ofree o -> okpt pt ->
      match
        match add_op toks y o p pt with
        | AOk y' => shunt_loop toks k pa ip pl stmt y' (adapt_state stmt y' next) pm pt
        | AErr p e => (pm, Failure p e)
        | AAbort w => (pm, Abort w)
        end
      with (_, Success q v) => okpt q /\ vok v | (_, Failure q _) => okpt q | (_, Abort _) => True end) as ADD.
    { intros pm0 o next pt Ho Hpt. pose proof (free_add_op y o p pt Y Ho OK Hpt) as A.
      destruct (add_op toks y o p pt) as [y'| |]; cbn [aok] in A; auto. apply IH; auto. }
    assert (forall pm p0, okpt p0 ->
      match finish_progress pm (finish_yard toks y p0) with
      | (_, Success q v) => okpt q /\ vok v | (_, Failure q _) => okpt q | (_, Abort _) => True end) as FIN.
    { intros pm0 p0 O0. pose proof (free_finish y p0 Y O0) as A.
      destruct (finish_yard toks y p0) as [c| |]; cbn [aok finish_progress] in *; auto.
      destruct A as (A & B & C). auto. }
    assert (forall f : gparser val, pfree f ->
      match
        match f pm p with
        | (pm1, Success p0 (VVar _ "Prefix" op)) =>
            match add_op toks y (OpPrefix op) p p0 with
            | AOk y' => shunt_loop toks k pa ip pl stmt y' (adapt_state stmt y' SPrefix) pm1 p0
            | AErr p e => (pm1, Failure p e)
            | AAbort w => (pm1, Abort w)
            end
        | (pm1, Success p0 (VVar _ "Atom" v)) =>
            shunt_loop toks k pa ip pl stmt (add_expression y v p p0)
              (adapt_state stmt (add_expression y v p p0) SAtom) pm1 p0
        | (pm1, Success _ _) => (pm1, Abort IllTyped)
        | (pm1, Failure p _) => finish_progress pm1 (finish_yard toks y p)
        | (pm1, Abort w) => (pm1, Abort w)
        end
      with (_, Success q v) => okpt q /\ vok v | (_, Failure q _) => okpt q | (_, Abort _) => True end) as PRE.
    { intros f Ff. pose proof (Ff pm p OK) as F1. destruct (f pm p) as [pm1 [r u|r er|w]]; [|apply FIN; exact F1|exact I].
      destruct F1 as [Or U]. destruct u as [| | | | | | | | | | |e vn pl']; try exact I.
      apply vok_payload in U.
      repeat match goal with |- context [match ?s with _ => _ end] => is_var s; destruct s; try exact I end.
      - apply IH; [|exact Or]. destruct Y. split; [auto|]. constructor; [split; auto|auto].
      - apply ADD; auto. }
    assert (match
        match ip pm p with
        | (pm1, Success p0 (VVar _ "Infix" op)) =>
            match add_op toks y (OpInfix op) p p0 with
            | AOk y' => shunt_loop toks k pa ip pl stmt y' (adapt_state stmt y' (SInfix (is_range op))) pm1 p0
            | AErr p e => (pm1, Failure p e)
            | AAbort w => (pm1, Abort w)
            end
        | (pm1, Success p0 (VVar _ "Postfix" op)) =>
            match add_op toks y (OpPostfix op) p p0 with
            | AOk y' => shunt_loop toks k pa ip pl stmt y' (adapt_state stmt y' SPostfix) pm1 p0
            | AErr p e => (pm1, Failure p e)
            | AAbort w => (pm1, Abort w)
            end
        | (pm1, Success _ _) => (pm1, Abort IllTyped)
        | (pm1, Failure p _) => finish_progress pm1 (finish_yard toks y p)
        | (pm1, Abort w) => (pm1, Abort w)
        end
      with (_, Success q v) => okpt q /\ vok v | (_, Failure q _) => okpt q | (_, Abort _) => True end) as INF.
    { pose proof (IP pm p OK) as F1. destruct (ip pm p) as [pm1 [r u|r er|w]]; [|apply FIN; exact F1|exact I].
      destruct F1 as [Or U]. destruct u as [| | | | | | | | | | |e vn pl']; try exact I.
      apply vok_payload in U.
      repeat match goal with |- context [match ?s with _ => _ end] => is_var s; destruct s; try exact I end;
        (apply ADD; auto). }
    destruct s as [|b| | |].
    - apply (PRE pa PA).
    - destruct (is_ambiguous (m_state pm) && b).
      + apply (PRE (with_amb Maximum pa)). now apply free_with_amb.
      + apply (PRE pa PA).
    - exact INF.
    - exact INF.
    - pose proof (PL pm p OK) as F1. destruct (pl pm p) as [pm1 [r u|r er|w]]; [|apply FIN; exact F1|exact I].
      destruct F1 as [Or U]. apply ADD; auto.
  Qed.

  (** ** Atoms *)
  Hypothesis counts : forall p, count_at toks p -> forall m m' pm pm',
    ag (snd (run m (GNT N_expression) [] pm p)) (snd (run m' (GNT N_expression) [] pm' p)).

  Lemma one_fails k n b e pm p : fails (snd (run k (GSeq [(PVar "x", GNT n)] (BVariant "Expression" b (BVar "x"))) e pm p)) ->
    exists k', fails (snd (run k' (GNT n) [] pm p)).
  Proof.
    destruct k as [|k]; [intros (q & er & E); discriminate|]. cbn [Grammar.run run_steps]. intros (q & er & E). exists k. rewrite <- (nt_env toks k n e).
    destruct (run k (GNT n) e pm p) as [pm1 [r u|r er'|w]]; cbn [bind_pat snd] in *; [|unfold fails; eauto|discriminate].
    cbn [beval assoc String.eqb Ascii.eqb Bool.eqb bbind] in E. discriminate.
  Qed.

  Lemma one_inv k n b e pm p pm' q v : run k (GSeq [(PVar "x", GNT n)] (BVariant "Expression" b (BVar "x"))) e pm p = (pm', Success q v) ->
    exists k' v', run k' (GNT n) [] pm p = (pm', Success q v').
  Proof.
    intros R. apply seq_inv in R as (k1 & -> & R). apply steps_inv in R as (pm1 & q1 & v1 & e1 & R1 & _ & R).
    cbn [run_steps] in R. destruct (beval toks q1 e1 _); [|discriminate]. injection R as <- <- _. rewrite nt_env in R1. eauto.
  Qed.

  (** Neither alternative is ever the one that succeeds. *)
  Lemma atom_alternative k pm p pm' q v : run (S k) (table N_expression_atom) [] pm p = (pm', Success q v) ->
    exists x pm1 pm2, gplain x = true /\ run k x [] pm1 p = (pm2, Success q v).
  Proof.
    cbn [table]. intros R. apply alt_inv in R as (i & x & pm1 & pm2 & N & M & R & F). exists x, pm1, pm2. split; [|exact R].
    assert (i <> 1).
    { intros ->. injection N as <-. destruct (F 0 _ ltac:(lia) eq_refl) as (pm0 & M0 & F0).
      apply one_fails in F0 as [k' F0]. apply one_inv in R as (k2 & v' & R).
      refine (dead_if toks counts _ _ _ _ _ _ _ _ R _ F0). rewrite M0, M. reflexivity. }
    assert (i <> 5).
    { intros ->. injection N as <-. destruct (F 4 _ ltac:(lia) eq_refl) as (pm0 & M0 & F0).
      apply one_fails in F0 as [k' F0]. apply one_inv in R as (k2 & v' & R).
      refine (dead_while toks counts _ _ _ _ _ _ _ _ R _ F0). rewrite M0, M. reflexivity. }
    do 25 (destruct i as [|i]; [cbn [nth_error] in N; injection N as <-; try reflexivity; congruence|cbn [nth_error] in N]).
    destruct i; discriminate.
  Qed.

  Theorem run_plain n : forall x e, gplain x = true -> efree e -> pfree (run n x e).
  Proof.
    induction n as [n IHn] using lt_wf_ind; intros x e G E pm p OK. destruct n as [|n]; [exact I|].
    assert (IH : forall x e, gplain x = true -> efree e -> pfree (Grammar.run table toks n x e)) by (intros; apply IHn; auto).
    destruct x as [m err|nn| |steps b|gs|y|y|app sep f|sep f|sep f|sep f|o c'|y|y|y err|y err|l y|err y|a b|stmt];
      cbn [gplain] in G; cbn [Grammar.run];
      repeat match goal with H : _ && _ = true |- _ => apply andb_true_iff in H; destruct H end.
    - apply free_tok. exact OK.
    - destruct (table_plain nn G) as [->|T]; [|apply IH; [exact T|constructor|exact OK]].
      destruct n as [|n]; [exact I|]. destruct (Grammar.run table toks (S n) (table N_expression_atom) [] pm p) as [pm1 [q v|q er|w]] eqn:R; auto.
      split; [exact I|]. apply atom_alternative in R as (x & pm2 & pm3 & Gx & R).
      pose proof (IHn n ltac:(auto) x [] Gx ltac:(constructor) pm2 p OK) as H. rewrite R in H. apply H.
    - split; [auto|]. apply vok_point.
    - revert e E pm p OK H H0. induction steps as [|[pt y] steps IHs]; intros e E pm p OK G B; cbn [run_steps].
      + destruct (beval toks p e b) eqn:EB; [|exact I]. split; [auto|]. eapply free_beval; eauto.
      + apply andb_true_iff in G. destruct G as [G1 G2]. pose proof (IH y e G1 E pm p OK) as R1.
        destruct (run n y e pm p) as [pm1 [r u|r er|w]]; auto. destruct R1 as [Or U].
        destruct (bind_pat pt u e) as [e'|] eqn:BP; [|exact I].
        apply IHs; auto. eapply free_bind; eauto.
    - destruct gs as [|y gs]; [exact I|]. cbn [map alternate]. apply andb_true_iff in G. destruct G as [G1 G2].
      pose proof (IH y e G1 E pm p OK) as R1.
      destruct (run n y e pm p) as [pm1 r].
      apply free_alt; [exact OK| |exact R1].
      clear -G2 E IH. induction gs as [|y gs IHg]; cbn [map]; [constructor|].
      apply andb_true_iff in G2; destruct G2. constructor; auto.
    - unfold map_p, optional. pose proof (IH y e G E pm p OK) as R1.
      destruct (run n y e pm p) as [pm1 [r u|r er|w]]; auto. cbn [recov]. cbn. auto.
    - unfold map_p. pose proof (free_many _ n (IH y e G E) pm p OK) as R1.
      destruct (zero_or_more pt_lt recov n (run n y e) pm p) as [pm1 [r u|r er|w]]; auto.
      destruct R1. split; [auto|]. now apply vok_list.
    - destruct (beval toks p e app) as [u|] eqn:B; [|exact I]. destruct u; try exact I.
      apply free_tailed_loop; auto. apply vok_list. eapply free_beval; eauto.
    - apply free_tailed1; auto.
    - apply free_resume; auto.
    - apply free_implicit; auto.
    - unfold nested. destruct (ex toks p _) as [i|] eqn:EX; [|exact I]. split; [auto|]. apply vok_ext.
    - pose proof (IH y e G E pm p OK) as R1.
      destruct (run n y e pm p) as [pm1 [r u|r er|w]]; auto. destruct R1.
      destruct (ex toks p r) as [i|] eqn:EX; [|exact I]. split; [auto|]. apply vok_ext.
    - unfold map_p, peek. pose proof (IH y e G E pm p OK) as R1.
      destruct (run n y e pm p) as [pm1 [r u|r er|w]]; auto.
    - pose proof (IH y e G E pm p OK) as R1.
      destruct (run n y e pm p) as [pm1 [r u|r er|w]]; auto.
    - pose proof (IH y e G E pm p OK) as R1.
      destruct (run n y e pm p) as [pm1 [r u|r er|w]]; auto.
      destruct R1 as [Or U]. destruct u; try exact I. destruct (into_simple n0) eqn:IS; [|exact OK].
      split; [auto|]. apply vok_ext.
    - apply (free_with_amb l); auto.
    - destruct (is_maximum (m_state pm)); [exact OK|]. apply IH; auto.
    - destruct (is_ambiguous (m_state pm)); apply IH; auto.
    - apply free_shunt; [| | | |exact OK]; try (apply IH; [reflexivity|constructor]). split; constructor.
  Qed.
End Kinds.
