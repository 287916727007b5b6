(** Between brackets, and without any inside, an expression does not depend on the
    restriction of struct literals. *)

From Coq Require Import String List Arith Bool Lia.
From Verif Require Import Base Peresil Token Schema Value Nt Grammar Points Table Static Amb Layout Sem NestedOk Inv Level RustSpec DelimSpec Delims LetSpec.
Import ListNotations.
Local Open Scope string_scope.
Local Open Scope list_scope.
Local Open Scope nat_scope.

(** * Static check: no closing delimiter is read before an opening one *)
Definition opens (y : g) : bool := match y with GTok (MK k) _ => match closer k with Some _ => true | None => false end | _ => false end.

Section Inside.
  Variable gin : g -> bool.
  Fixpoint inside (steps : list (pat * g)) : bool :=
    match steps with [] => true | (_, y) :: rest => opens y || gin y && inside rest end.
End Inside.

(** Blocks and struct literals depend on the restriction. *)
Definition granted_nt (n : nt) : bool := match n with N_expr_block | N_expr_value => true | _ => false end.

Fixpoint gin (x : g) : bool :=
  match x with
  | GTok (MK k) _ => negb (is_closer k)
  | GTok MNumber _ | GNT _ | GPoint | GShunt _ => true
  | GSeq steps _ => inside gin steps
  | GAlt gs => forallb gin gs
  | GOpt y | GMany y | GExt y | GPeek y | GMapErr y _ | GSimple y _ | GAmb _ y => gin y
  | GTailed _ s f | GTailed1 s f | GResume s f | GImplicit s f => gin s && gin f
  | GIfMax _ _ | GIfAmb _ _ | GNested _ _ => false
  end.

Lemma gin_table n : granted_nt n = true \/ gin (table n) = true.
Proof.
  assert (forallb (fun n => granted_nt n || gin (table n)) all_nts = true) as H by (vm_compute; reflexivity).
  rewrite forallb_forall in H. apply orb_true_iff, H, all_nts_complete.
Qed.

Section Region.
  Variable toks : list token.
  Notation run := (run table toks).

  (** From [a] on there is no delimiter until the [\]] at [r]. *)
  Variable a r : nat.
  Variable sq : extent.
  Hypothesis inner : forall i t, a <= i < r -> nth_error toks i = Some t -> bracket t = false.
  Hypothesis edge : nth_error toks r = Some (Tk KRightSquare sq).

  Definition G (p : point) : Prop := a <= off p <= r.

  (** Outcomes that agree, and stay there. *)
  Definition rag {A} (x x' : progress point A perror) : Prop :=
    match x, x' with
    | Abort _, _ | _, Abort _ => True
    | Success q v, Success q' v' => q = q' /\ v = v' /\ G q
    | Failure q _, Failure q' _ => q = q' /\ G q
    | _, _ => False
    end.

  Lemma rag_abort {A} (x : progress point A perror) w : rag x (Abort w).
  Proof. destruct x; exact I. Qed.

  Definition rp {A} (f f' : gparser A) : Prop := forall pm pm' p, G p -> rag (snd (f pm p)) (snd (f' pm' p)).

  Ltac both f f' H pm pm' p Gp :=
    let q := fresh "q" in let v := fresh "v" in let er := fresh "er" in let w := fresh "w" in let pm1 := fresh "pm1" in
    let q' := fresh "q'" in let v' := fresh "v'" in let er' := fresh "er'" in let w' := fresh "w'" in let pm1' := fresh "pm1'" in
    let E := fresh "E" in let E' := fresh "E'" in let Gq := fresh "Gq" in
    specialize (H pm pm' p Gp); destruct (f pm p) as [pm1 [q v|q er|w]] eqn:E; destruct (f' pm' p) as [pm1' [q' v'|q' er'|w']] eqn:E';
    cbn [snd rag] in H; cbn [snd]; try exact I; try contradiction; try apply rag_abort;
    try match type of H with _ /\ G _ => destruct H as (<- & Gq) | _ /\ _ /\ _ => destruct H as (<- & <- & Gq) end; try solve [cbn; auto].

  Lemma edge_kind m err pm p : off p = r -> match m with MK k => is_closer k = false | MNumber => True end ->
    match snd (tok toks m err pm p) with Success _ _ => False | _ => True end.
  Proof.
    intros O K. unfold tok. rewrite O, edge. destruct (sub p) as [n|]; [exact I|].
    assert (C : convert m (Tk KRightSquare sq) = None) by (destruct m as [k|]; [|reflexivity]; destruct k; try reflexivity; discriminate K).
    rewrite C. exact I.
  Qed.

  Lemma tok_off m err pm p pm' q v : tok toks m err pm p = (pm', Success q v) -> off p <= off q <= off p + 1.
  Proof.
    unfold tok. intros T.
    repeat match type of T with
    | (match ?s with _ => _ end) = _ => destruct s; try discriminate
    end; injection T as _ <- _; cbn; lia.
  Qed.

  Lemma tok_same m err pm pm' p : ag (snd (tok toks m err pm p)) (snd (tok toks m err pm' p)).
  Proof. apply pag_tok. Qed.

  Lemma rp_tok m err : match m with MK k => is_closer k = false | MNumber => True end -> rp (tok toks m err) (tok toks m err).
  Proof.
    intros K pm pm' p Gp. pose proof (tok_same m err pm pm' p) as S. pose proof (edge_kind m err pm p) as D.
    destruct (tok toks m err pm p) as [pm1 [q v|q er|w]] eqn:E, (tok toks m err pm' p) as [pm1' [q' v'|q' er'|w']] eqn:E';
      cbn [snd ag rag] in *; try exact I; try contradiction.
    - destruct S as [<- <-]. apply tok_off in E. unfold G in *.
      assert (off p <> r) by (intros O; exact (D O K)). repeat split; lia.
    - apply tok_fail in E. subst. auto.
  Qed.

  (** An opening delimiter is not found. *)
  Lemma no_opener n x e pm p : opens x = true -> G p ->
    match snd (run n x e pm p) with Success _ _ => False | Failure q _ => q = p | Abort _ => True end.
  Proof.
    intros O Gp. destruct x as [[k|] err| | | | | | | | | | | | | | | | | | |]; try discriminate O. destruct n as [|n]; [exact I|].
    change (run (S n) (GTok (MK k) err) e pm p) with (tok toks (MK k) err pm p).
    destruct (tok toks (MK k) err pm p) as [pm1 [q v|q er|w]] eqn:E; cbn [snd]; [|apply tok_fail in E; exact E|exact I].
    assert (B : bracket_kind k = true) by (cbn [opens] in O; destruct k; try discriminate O; reflexivity).
    apply (tok_delim _ _ _ _ _ _ _ _ B) in E as (_ & _ & x & N). unfold G in Gp.
    destruct (Nat.eq_dec (off p) r) as [Q|Q].
    - rewrite Q, edge in N. injection N as <- _. discriminate O.
    - apply inner in N; [|lia]. cbn [opens] in O. destruct k; discriminate.
  Qed.

  Lemma no_group n e pm p e1 x rest b : opens x = true -> G p ->
    match snd (run n (GSeq ((e1, GPoint) :: (PVar "_", x) :: rest) b) e pm p) with Success _ _ => False | Failure q _ => q = p | Abort _ => True end.
  Proof.
    intros O Gp. destruct n as [|n]; [exact I|]. cbn [Grammar.run run_steps].
    destruct n as [|n]; [exact I|]. change (Grammar.run table toks (S n) GPoint e pm p) with (pm, Success (E := perror) p (VPoint p)). cbv iota.
    destruct (bind_pat e1 (VPoint p) e) as [e'|]; [|exact I].
    pose proof (no_opener (S n) x e' pm p O Gp) as H. destruct (run (S n) x e' pm p) as [pm1 [q v|q er|w]]; [destruct H|exact H|exact I].
  Qed.

  (** ** Sequences, alternatives, lists *)
  Lemma rp_steps n n' b : (forall x e, gin x = true -> rp (run n x e) (run n' x e)) -> forall steps e, inside gin steps = true ->
    rp (run_steps toks (run n) steps b e) (run_steps toks (run n') steps b e).
  Proof.
    intros IH. induction steps as [|[pt x] steps IHs]; intros e K pm pm' p Gp; cbn [run_steps].
    - destruct (beval toks p e b); cbn; auto.
    - cbn [inside] in K. destruct (opens x) eqn:O; cbn [orb] in K.
      + pose proof (no_opener n x e pm p O Gp) as H. pose proof (no_opener n' x e pm' p O Gp) as H'.
        destruct (run n x e pm p) as [pm1 [q v|q er|w]]; [destruct H| |exact I].
        destruct (run n' x e pm' p) as [pm1' [q' v'|q' er'|w']]; [destruct H'| |apply rag_abort]. cbn in *. subst. auto.
      + apply andb_true_iff in K as [K1 K2]. pose proof (IH x e K1) as H. both (run n x e) (run n' x e) H pm pm' p Gp.
        destruct (bind_pat pt v e) as [e'|]; [|exact I]. now apply IHs.
  Qed.

  Lemma rp_alternate_from (fs fs' : list (gparser val)) : Forall2 rp fs fs' -> forall cur cur' pm pm' p, G p -> rag cur cur' ->
    rag (snd (alternate_from pt_lt recov cur fs pm p)) (snd (alternate_from pt_lt recov cur' fs' pm' p)).
  Proof.
    induction 1 as [|f f' fs fs' H F IH]; intros cur cur' pm pm' p Gp C; cbn [alternate_from]; [exact C|].
    destruct cur as [q v|q er|w], cur' as [q' v'|q' er'|w']; cbn [rag] in C; try contradiction; cbn [recov snd]; try exact I; try exact C;
      try apply rag_abort.
    destruct (f pm p) as [pm1 x] eqn:E, (f' pm' p) as [pm1' x'] eqn:E'. apply IH; [exact Gp|].
    specialize (H pm pm' p Gp). rewrite E, E' in H. exact H.
  Qed.

  Lemma rp_alternate (fs fs' : list (gparser val)) : Forall2 rp fs fs' -> rp (alternate pt_lt recov fs) (alternate pt_lt recov fs').
  Proof.
    intros F pm pm' p Gp. destruct F as [|f f' fs fs' H F]; [exact I|]. cbn [alternate].
    destruct (f pm p) as [pm1 x] eqn:E, (f' pm' p) as [pm1' x'] eqn:E'. apply rp_alternate_from; [exact F|exact Gp|].
    specialize (H pm pm' p Gp). rewrite E, E' in H. exact H.
  Qed.

  Lemma rp_map {A B} (f f' : gparser A) (h : A -> B) : rp f f' -> rp (map_p f h) (map_p f' h).
  Proof. intros H pm pm' p Gp. unfold map_p. both f f' H pm pm' p Gp; cbn; auto. Qed.

  Lemma rp_optional (f f' : gparser val) : rp f f' -> rp (optional pt_lt recov f) (optional pt_lt recov f').
  Proof. intros H pm pm' p Gp. unfold optional. both f f' H pm pm' p Gp; cbn; auto. Qed.

  Lemma rp_peek (f f' : gparser val) : rp f f' -> rp (peek f) (peek f').
  Proof. intros H pm pm' p Gp. unfold peek. both f f' H pm pm' p Gp; cbn; auto. Qed.

  Lemma rp_many (f f' : gparser val) : rp f f' -> forall n n', rp (zero_or_more pt_lt recov n f) (zero_or_more pt_lt recov n' f').
  Proof.
    intros K. induction n as [|n IH]; intros [|n'] pm pm' p Gp; cbn [zero_or_more]; try exact I.
    - apply rag_abort.
    - pose proof K as H. both f f' H pm pm' p Gp.
      specialize (IH n'). pose proof IH as X. both (zero_or_more pt_lt recov n f) (zero_or_more pt_lt recov n' f') X pm1 pm1' q Gq; auto.
  Qed.

  Lemma rp_tailed (sep sep' f f' : gparser val) : rp sep sep' -> rp f f' ->
    forall n n' vs c l, rp (tailed_loop n sep f vs c l) (tailed_loop n' sep' f' vs c l).
  Proof.
    intros K1 K2. induction n as [|n IH]; intros [|n'] vs c l pm pm' p Gp; cbn [tailed_loop]; try exact I; [apply rag_abort|].
    pose proof K2 as H. both f f' H pm pm' p Gp.
    pose proof K1 as X. both sep sep' X pm1 pm1' q Gq. now apply IH.
  Qed.

  Lemma rp_tailed1 (sep sep' f f' : gparser val) n n' : rp sep sep' -> rp f f' -> rp (tailed1 n sep f) (tailed1 n' sep' f').
  Proof.
    intros K1 K2 pm pm' p Gp. unfold tailed1.
    pose proof K2 as H. both f f' H pm pm' p Gp.
    pose proof K1 as X. both sep sep' X pm1 pm1' q Gq. now apply rp_tailed.
  Qed.

  Lemma rp_resume (sep sep' f f' : gparser val) n n' : rp sep sep' -> rp f f' -> rp (resume n sep f) (resume n' sep' f').
  Proof.
    intros K1 K2 pm pm' p Gp. unfold resume.
    pose proof K1 as X. both sep sep' X pm pm' p Gp.
    pose proof (rp_tailed1 sep sep' f f' n n' K1 K2) as H. both (tailed1 n sep f) (tailed1 n' sep' f') H pm1 pm1' q Gq.
    destruct v0; cbn; auto.
  Qed.

  Lemma rp_implicit (sep sep' f f' : gparser val) : rp sep sep' -> rp f f' ->
    forall n n' vs c l, rp (implicit_loop n sep f vs c l) (implicit_loop n' sep' f' vs c l).
  Proof.
    intros K1 K2. induction n as [|n IH]; intros [|n'] vs c l pm pm' p Gp; cbn [implicit_loop]; try exact I; [apply rag_abort|].
    pose proof K2 as H. both f f' H pm pm' p Gp.
    pose proof K1 as X. both sep sep' X pm1 pm1' q Gq.
    - now apply IH.
    - destruct (is_implicit_separator v); [now apply IH|cbn; auto].
  Qed.

  Lemma rp_amb (f f' : gparser val) l : rp f f' -> rp (with_amb l f) (with_amb l f').
  Proof.
    intros H pm pm' p Gp. unfold with_amb. specialize (H (set_amb pm l) (set_amb pm' l) p Gp).
    destruct (f (set_amb pm l) p), (f' (set_amb pm' l) p). exact H.
  Qed.

  Lemma rp_amb_left (f f' : gparser val) l : rp f f' -> rp (with_amb l f) f'.
  Proof.
    intros H pm pm' p Gp. unfold with_amb. specialize (H (set_amb pm l) pm' p Gp).
    destruct (f (set_amb pm l) p), (f' pm' p). exact H.
  Qed.

  Lemma rp_amb_right (f f' : gparser val) l : rp f f' -> rp f (with_amb l f').
  Proof.
    intros H pm pm' p Gp. unfold with_amb. specialize (H pm (set_amb pm' l) p Gp).
    destruct (f pm p), (f' (set_amb pm' l) p). exact H.
  Qed.

  (** ** The shunting yard *)
  Lemma rp_shunt (pa pa' ip ip' pl pl' : gparser val) stmt : rp pa pa' -> rp ip ip' -> rp pl pl' ->
    forall k k' y s pm pm' p, yg G y -> G p ->
    rag (snd (shunt_loop toks k pa ip pl stmt y s pm p)) (snd (shunt_loop toks k' pa' ip' pl' stmt y s pm' p)).
  Proof.
    intros PA IP PL k. induction k as [|k IH]; intros [|k'] y s pm pm' p Y Gp; cbn [shunt_loop]; try exact I; [apply rag_abort|].
    assert (ADD : forall (pm pm' : pm_t) o next q, G q ->
      rag (snd (match add_op toks y o p q with
        | AOk y' => shunt_loop toks k pa ip pl stmt y' (adapt_state stmt y' next) pm q
        | AErr p e => (pm, Failure p e)
        | AAbort w => (pm, Abort w)
        end))
          (snd (match add_op toks y o p q with
        | AOk y' => shunt_loop toks k' pa' ip' pl' stmt y' (adapt_state stmt y' next) pm' q
        | AErr p e => (pm', Failure p e)
        | AAbort w => (pm', Abort w)
        end))).
    { intros pm0 pm0' o next q Gq. pose proof (g_add toks G y o p q Y Gp Gq) as A.
      destruct (add_op toks y o p q) as [y'| |]; cbn [ag_] in A; [apply IH; auto|cbn; auto|exact I]. }
    assert (FIN : forall (pm pm' : pm_t) q, G q ->
      rag (snd (finish_progress pm (finish_yard toks y q))) (snd (finish_progress pm' (finish_yard toks y q)))).
    { intros pm0 pm0' q Gq. pose proof (g_finish toks G y q Y Gq) as A.
      destruct (finish_yard toks y q) as [c| |]; cbn [ag_ finish_progress] in *; cbn; auto. destruct A; auto. }
    assert (PRE : forall f f' : gparser val, rp f f' ->
      rag (snd (match f pm p with
        | (pm1, Success p0 (VVar _ "Prefix" op)) =>
            match add_op toks y (OpPrefix op) p p0 with
            | AOk y' => shunt_loop toks k pa ip pl stmt y' (adapt_state stmt y' SPrefix) pm1 p0
            | AErr p e => (pm1, Failure p e)
            | AAbort w => (pm1, Abort w)
            end
        | (pm1, Success p0 (VVar _ "Atom" v)) =>
            shunt_loop toks k pa ip pl stmt (add_expression y v p p0)
              (adapt_state stmt (add_expression y v p p0) SAtom) pm1 p0
        | (pm1, Success _ _) => (pm1, Abort IllTyped)
        | (pm1, Failure p _) => finish_progress pm1 (finish_yard toks y p)
        | (pm1, Abort w) => (pm1, Abort w)
        end))
          (snd (match f' pm' p with
        | (pm1, Success p0 (VVar _ "Prefix" op)) =>
            match add_op toks y (OpPrefix op) p p0 with
            | AOk y' => shunt_loop toks k' pa' ip' pl' stmt y' (adapt_state stmt y' SPrefix) pm1 p0
            | AErr p e => (pm1, Failure p e)
            | AAbort w => (pm1, Abort w)
            end
        | (pm1, Success p0 (VVar _ "Atom" v)) =>
            shunt_loop toks k' pa' ip' pl' stmt (add_expression y v p p0)
              (adapt_state stmt (add_expression y v p p0) SAtom) pm1 p0
        | (pm1, Success _ _) => (pm1, Abort IllTyped)
        | (pm1, Failure p _) => finish_progress pm1 (finish_yard toks y p)
        | (pm1, Abort w) => (pm1, Abort w)
        end))).
    { intros f f' F. specialize (F pm pm' p Gp).
      destruct (f pm p) as [pm1 [q v|q er|w]], (f' pm' p) as [pm1' [q' v'|q' er'|w']]; cbn [snd rag] in F; try exact I; try contradiction; try apply rag_abort.
      - destruct F as (<- & <- & Gq). destruct v as [| | | | | | | | | | |en vn pv]; try exact I.
        repeat match goal with |- context [match ?s with _ => _ end] => is_var s; destruct s; try exact I end.
        + apply IH; [|exact Gq]. destruct Y. split; [auto|]. constructor; [split; auto|auto].
        + apply ADD. exact Gq.
      - destruct F as (<- & Gq). now apply FIN. }
    assert (INF : 
      rag (snd (match ip pm p with
        | (pm1, Success p0 (VVar _ "Infix" op)) =>
            match add_op toks y (OpInfix op) p p0 with
            | AOk y' => shunt_loop toks k pa ip pl stmt y' (adapt_state stmt y' (SInfix (is_range op))) pm1 p0
            | AErr p e => (pm1, Failure p e)
            | AAbort w => (pm1, Abort w)
            end
        | (pm1, Success p0 (VVar _ "Postfix" op)) =>
            match add_op toks y (OpPostfix op) p p0 with
            | AOk y' => shunt_loop toks k pa ip pl stmt y' (adapt_state stmt y' SPostfix) pm1 p0
            | AErr p e => (pm1, Failure p e)
            | AAbort w => (pm1, Abort w)
            end
        | (pm1, Success _ _) => (pm1, Abort IllTyped)
        | (pm1, Failure p _) => finish_progress pm1 (finish_yard toks y p)
        | (pm1, Abort w) => (pm1, Abort w)
        end))
          (snd (match ip' pm' p with
        | (pm1, Success p0 (VVar _ "Infix" op)) =>
            match add_op toks y (OpInfix op) p p0 with
            | AOk y' => shunt_loop toks k' pa' ip' pl' stmt y' (adapt_state stmt y' (SInfix (is_range op))) pm1 p0
            | AErr p e => (pm1, Failure p e)
            | AAbort w => (pm1, Abort w)
            end
        | (pm1, Success p0 (VVar _ "Postfix" op)) =>
            match add_op toks y (OpPostfix op) p p0 with
            | AOk y' => shunt_loop toks k' pa' ip' pl' stmt y' (adapt_state stmt y' SPostfix) pm1 p0
            | AErr p e => (pm1, Failure p e)
            | AAbort w => (pm1, Abort w)
            end
        | (pm1, Success _ _) => (pm1, Abort IllTyped)
        | (pm1, Failure p _) => finish_progress pm1 (finish_yard toks y p)
        | (pm1, Abort w) => (pm1, Abort w)
        end))).
    { pose proof (IP pm pm' p Gp) as F.
      destruct (ip pm p) as [pm1 [q v|q er|w]], (ip' pm' p) as [pm1' [q' v'|q' er'|w']]; cbn [snd rag] in F; try exact I; try contradiction; try apply rag_abort.
      - destruct F as (<- & <- & Gq). destruct v as [| | | | | | | | | | |en vn pv]; try exact I.
        repeat match goal with |- context [match ?s with _ => _ end] => is_var s; destruct s; try exact I end; (apply ADD; exact Gq).
      - destruct F as (<- & Gq). now apply FIN. }
    destruct s as [|b| | |].
    - apply (PRE pa pa' PA).
    - destruct (is_ambiguous (m_state pm) && b), (is_ambiguous (m_state pm') && b).
      + apply (PRE (with_amb Maximum pa) (with_amb Maximum pa')). now apply rp_amb.
      + apply (PRE (with_amb Maximum pa) pa'). now apply rp_amb_left.
      + apply (PRE pa (with_amb Maximum pa')). now apply rp_amb_right.
      + apply (PRE pa pa' PA).
    - exact INF.
    - exact INF.
    - pose proof (PL pm pm' p Gp) as F.
      destruct (pl pm p) as [pm1 [q v|q er|w]], (pl' pm' p) as [pm1' [q' v'|q' er'|w']]; cbn [snd rag] in F; try exact I; try contradiction; try apply rag_abort.
      + destruct F as (<- & <- & Gq). now apply ADD.
      + destruct F as (<- & Gq). now apply FIN.
  Qed.

  (** ** Blocks and struct literals do not start here *)
  Lemma no_block n e pm p : G p -> match snd (run n (GNT N_block) e pm p) with Success _ _ => False | Failure q _ => q = p | Abort _ => True end.
  Proof. intros Gp. destruct n as [|n]; [exact I|]. change (run (S n) (GNT N_block) e pm p) with (run n (table N_block) [] pm p). now apply no_group. Qed.

  Lemma no_literal n e pm p : G p ->
    (exists pm', run n (GOpt (GNT N_expr_value_struct_literal)) e pm p = (pm', Success p VNone)) \/
    (exists pm' w, run n (GOpt (GNT N_expr_value_struct_literal)) e pm p = (pm', Abort w)).
  Proof.
    intros Gp. destruct n as [|n]; [right; do 2 eexists; reflexivity|].
    assert (H : match snd (run n (GNT N_expr_value_struct_literal) e pm p) with Success _ _ => False | Failure q _ => q = p | Abort _ => True end).
    { destruct n as [|n]; [exact I|].
      change (run (S n) (GNT N_expr_value_struct_literal) e pm p) with (run n (table N_expr_value_struct_literal) [] pm p). now apply no_group. }
    cbn [Grammar.run]. unfold map_p, optional.
    destruct (run n (GNT N_expr_value_struct_literal) e pm p) as [pm1 [q v|q er|w]]; cbn [snd] in H; [destruct H| |right; do 2 eexists; reflexivity].
    cbn [recov]. left. eexists. reflexivity.
  Qed.

  Lemma rp_expr_block n n' e : rp (run n (GNT N_expr_block) e) (run n' (GNT N_expr_block) e).
  Proof.
    intros pm pm' p Gp.
    assert (H : forall n pm, match snd (run n (GNT N_expr_block) e pm p) with Success _ _ => False | Failure q _ => q = p | Abort _ => True end).
    { clear - Gp inner edge. intros n pm. destruct n as [|[|n]]; try exact I.
      change (run (S (S n)) (GNT N_expr_block) e pm p) with
        (if is_maximum (m_state pm) then (pm, Failure p BlockNotAllowedHere) else run n (GNT N_block) [] pm p).
      destruct (is_maximum (m_state pm)); [reflexivity|now apply no_block]. }
    pose proof (H n pm) as H1. pose proof (H n' pm') as H2.
    destruct (run n (GNT N_expr_block) e pm p) as [pm1 [q v|q er|w]], (run n' (GNT N_expr_block) e pm' p) as [pm1' [q' v'|q' er'|w']];
      cbn [snd rag] in *; try exact I; try contradiction. subst. auto.
  Qed.

  Lemma rp_value m m' pm pm' p (l l' : bool) : (forall x e, gin x = true -> rp (run m x e) (run m' x e)) -> G p ->
    let plain := [(PVar "spt", GPoint); (PVar "name", GNT N_pathed_ident)] in
    let full := [(PVar "spt", GPoint); (PVar "name", GNT N_pathed_ident); (PVar "literal", GOpt (GNT N_expr_value_struct_literal))] in
    let made b := BMk "Value" [("extent", BEx "spt"); ("name", BVar "name"); ("literal", b); ("whitespace", BNil)] in
    rag (snd (if l then run_steps toks (run m) plain (made BNone) [] pm p else run_steps toks (run m) full (made (BVar "literal")) [] pm p))
        (snd (if l' then run_steps toks (run m') plain (made BNone) [] pm' p else run_steps toks (run m') full (made (BVar "literal")) [] pm' p)).
  Proof.
    intros IH Gp plain full made.
    set (fin := fun (q : point) (v v0 : val) => match ex toks p q with
      | BOk x => Success (E := perror) q (VNode "Value" [VExt x; v; VNone; VList []]) | BAbort w => Abort w end).
    assert (H : forall (l : bool) m pm,
      let out := snd (if l then run_steps toks (run m) plain (made BNone) [] pm p else run_steps toks (run m) full (made (BVar "literal")) [] pm p) in
      (forall q v pm1, G q -> run m (GNT N_pathed_ident) [] pm p = (pm1, Success q v) -> (exists w, out = Abort w) \/ out = fin q v v) /\
      (forall q er pm1, run m (GNT N_pathed_ident) [] pm p = (pm1, Failure q er) -> out = Failure q er \/ exists w, out = Abort w) /\
      (forall w pm1, run m (GNT N_pathed_ident) [] pm p = (pm1, Abort w) -> exists w, out = Abort w)).
    { clear - inner edge Gp. intros l m pm out. subst out plain full made. cbn [run_steps].
      destruct m as [|m]; [repeat split; intros; destruct l; cbn; eauto|].
      change (run (S m) GPoint [] pm p) with (pm, Success (E := perror) p (VPoint p)). cbv iota. cbn [bind_pat].
      rewrite ?(nt_env toks (S m) N_pathed_ident [("spt", VPoint p)]). repeat split.
      - intros q v pm1 Gq R. destruct l; cbn [run_steps]; rewrite R; cbn [bind_pat run_steps].
        + right. unfold fin. cbn. destruct (ex toks p q); reflexivity.
        + destruct (no_literal (S m) [("name", v); ("spt", VPoint p)] pm1 q Gq) as [[pm2 L]|(pm2 & w & L)]; rewrite L; [|left; eexists; reflexivity].
          right. unfold fin. cbn. destruct (ex toks p q); reflexivity.
      - intros q er pm1 R. destruct l; cbn [run_steps]; rewrite R; auto.
      - intros w pm1 R. destruct l; cbn [run_steps]; rewrite R; cbn; eauto. }
    pose proof (H l m pm) as (H1 & H2 & H3). pose proof (H l' m' pm') as (K1 & K2 & K3). clear H. cbv zeta in *.
    set (o1 := snd (if l then _ else _)) in *. set (o2 := snd (if l' then _ else _)) in *. clearbody o1 o2.
    pose proof (IH (GNT N_pathed_ident) [] eq_refl pm pm' p Gp) as X.
    destruct (run m (GNT N_pathed_ident) [] pm p) as [pm1 [q v|q er|w]] eqn:E;
      [| |destruct (H3 _ _ eq_refl) as [? ->]; exact I];
    destruct (run m' (GNT N_pathed_ident) [] pm' p) as [pm1' [q' v'|q' er'|w']] eqn:E'; cbn [snd rag] in X; try contradiction;
      try (destruct (K3 _ _ eq_refl) as [? ->]; apply rag_abort).
    - destruct X as (<- & <- & Gq). destruct (H1 q v pm1 Gq eq_refl) as [[? ->]| ->]; [exact I|].
      destruct (K1 q v pm1' Gq eq_refl) as [[? ->]| ->]; [apply rag_abort|]. unfold fin. destruct (ex toks p q); cbn; auto.
    - destruct X as (<- & Gq). destruct (H2 _ _ _ eq_refl) as [->|[? ->]]; [|exact I].
      destruct (K2 _ _ _ eq_refl) as [->|[? ->]]; [|exact I]. cbn. auto.
  Qed.

  Theorem region_agrees : forall n n' x e, gin x = true -> rp (run n x e) (run n' x e).
  Proof.
    induction n as [n IHn] using lt_wf_ind. intros n' x e K.
    destruct n as [|n]; [intros pm pm' p _; exact I|]. destruct n' as [|n']; [intros pm pm' p _; apply rag_abort|].
    assert (IH : forall x e, gin x = true -> rp (run n x e) (run n' x e)) by (intros; apply IHn; auto).
    destruct x as [m err|nn| |steps b|gs|y|y|app sep f|sep f|sep f|sep f|o c|y|y|y err|y err|l y|err y|y z|stmt];
      try discriminate K.
    - apply rp_tok. destruct m; [|exact I]. cbn [gin] in K. now apply negb_true_iff in K.
    - destruct (gin_table nn) as [Gr|Gt]; [|exact (IH (table nn) [] Gt)].
      assert (N : nn = N_expr_block \/ nn = N_expr_value) by (destruct nn; try discriminate Gr; auto).
      destruct N as [->| ->]; [apply rp_expr_block|].
      change (rp (run n (table N_expr_value) []) (run n' (table N_expr_value) [])).
      destruct n as [|[|n]]; [intros pm pm' p _; exact I|intros pm pm' p _; cbn; destruct (is_ambiguous _); exact I|].
      destruct n' as [|[|n']]; [intros pm pm' p _; apply rag_abort|intros pm pm' p _; cbn [Grammar.run table]; destruct (is_ambiguous (m_state pm')); apply rag_abort|].
      intros pm pm' p Gp. 
      apply (rp_value n n' pm pm' p (is_ambiguous (m_state pm)) (is_ambiguous (m_state pm'))); [|exact Gp].
      intros; apply IHn; auto; lia.
    - intros pm pm' p Gp. cbn. auto.
    - change (rp (run_steps toks (run n) steps b e) (run_steps toks (run n') steps b e)). now apply rp_steps.
    - change (rp (alternate pt_lt recov (map (fun x => run n x e) gs)) (alternate pt_lt recov (map (fun x => run n' x e) gs))).
      apply rp_alternate. cbn [gin] in K. rewrite forallb_forall in K.
      induction gs as [|y gs IHg]; cbn [map]; constructor; [apply IH, K; now left|apply IHg; intros z J; apply K; now right].
    - apply (rp_map (optional pt_lt recov (run n y e)) (optional pt_lt recov (run n' y e))), rp_optional, IH, K.
    - apply (rp_map (zero_or_more pt_lt recov n (run n y e)) (zero_or_more pt_lt recov n' (run n' y e))), rp_many, IH, K.
    - cbn [gin] in K. apply andb_true_iff in K as [G1 G2]. intros pm pm' p Gp. cbn [Grammar.run].
      destruct (beval toks p e app) as [v|]; [|exact I]. destruct v; try exact I. apply rp_tailed; auto.
    - cbn [gin] in K. apply andb_true_iff in K as [G1 G2]. apply (rp_tailed1 (run n sep e) (run n' sep e)); auto.
    - cbn [gin] in K. apply andb_true_iff in K as [G1 G2]. apply (rp_resume (run n sep e) (run n' sep e)); auto.
    - cbn [gin] in K. apply andb_true_iff in K as [G1 G2]. apply (rp_implicit (run n sep e) (run n' sep e)); auto.
    - intros pm pm' p Gp. cbn [Grammar.run]. pose proof (IH y e K) as H. both (run n y e) (run n' y e) H pm pm' p Gp.
      destruct (ex toks p q); cbn; auto.
    - apply (rp_map (peek (run n y e)) (peek (run n' y e))), rp_peek, IH, K.
    - intros pm pm' p Gp. cbn [Grammar.run]. pose proof (IH y e K) as H. both (run n y e) (run n' y e) H pm pm' p Gp.
    - intros pm pm' p Gp. cbn [Grammar.run]. pose proof (IH y e K) as H. both (run n y e) (run n' y e) H pm pm' p Gp.
      destruct v; try exact I. destruct (into_simple n0); cbn; auto.
    - apply (rp_amb (run n y e) (run n' y e)), IH, K.
    - intros pm pm' p Gp. apply (rp_shunt (run n (GNT N_expression_prefix_or_atom) []) (run n' (GNT N_expression_prefix_or_atom) [])); auto.
      split; constructor.
  Qed.
End Region.

(** * Lengths of array types *)

Lemma plain_lengths_at toks : plain_lengths toks -> forall i j x y, i < j ->
  nth_error toks i = Some (Tk KLeftSquare x) -> nth_error toks j = Some (Tk KSemicolon y) -> paired (sl toks (i + 1) j) ->
  exists r z, j < r /\ nth_error toks r = Some (Tk KRightSquare z) /\ forall k t, j < k < r -> nth_error toks k = Some t -> bracket t = false.
Proof.
  intros H i j x y L Ni Nj P.
  destruct (nth_error_split _ _ Nj) as (l1 & l2 & -> & E1).
  assert (Li : nth_error l1 i = Some (Tk KLeftSquare x)) by (rewrite nth_error_app1 in Ni by lia; exact Ni).
  destruct (nth_error_split _ _ Li) as (l0 & typ & -> & E0).
  assert (T : sl ((l0 ++ Tk KLeftSquare x :: typ) ++ Tk KSemicolon y :: l2) (i + 1) j = typ).
  { unfold sl. rewrite app_length in E1. cbn [List.length] in E1. rewrite <- app_assoc. cbn [app].
    replace (i + 1) with (List.length (l0 ++ [Tk KLeftSquare x])) by (rewrite app_length; cbn; lia).
    change (l0 ++ Tk KLeftSquare x :: typ ++ Tk KSemicolon y :: l2) with (l0 ++ [Tk KLeftSquare x] ++ typ ++ Tk KSemicolon y :: l2).
    rewrite (app_assoc l0), skipn_app, skipn_all, Nat.sub_diag. cbn [skipn app].
    replace (j - List.length (l0 ++ [Tk KLeftSquare x])) with (List.length typ + 0) by (rewrite app_length; cbn; lia).
    rewrite firstn_app_2. cbn [firstn]. apply app_nil_r. }
  rewrite T in P.
  destruct (H l0 (Tk KLeftSquare x) typ (Tk KSemicolon y) l2) as (count & close & rest & -> & B & C); auto; [now rewrite <- app_assoc|].
  destruct close as [k z|]; [|discriminate]. cbn [token_is] in C. apply tkind_eqb_eq in C. subst k.
  exists (j + 1 + List.length count), z. split; [lia|]. split.
  - rewrite nth_error_app2, E1 by lia. replace (j + 1 + List.length count - j) with (S (List.length count)) by lia. cbn [nth_error].
    rewrite nth_error_app2, Nat.sub_diag by lia. reflexivity.
  - intros k t K N. rewrite nth_error_app2, E1 in N by lia. destruct (k - j) as [|d] eqn:D; [lia|]. cbn [nth_error] in N.
    rewrite nth_error_app1 in N by lia. rewrite Forall_forall in B. apply B. eapply nth_error_In; eauto.
Qed.

Lemma plain_counts toks : plain_lengths toks -> forall p, count_at toks p -> forall m m' pm pm',
  ag (snd (run table toks m (GNT N_expression) [] pm p)) (snd (run table toks m' (GNT N_expression) [] pm' p)).
Proof.
  intros H p (i & j & x & y & v & m0 & pm0 & pm0' & Ni & R & Nj & ->) m m' pm pm'.
  pose proof (run_pairs toks m0 (GNT N_typ) [] PAll ltac:(vm_compute; reflexivity) pm0 (at_ (i + 1))) as C. rewrite R in C.
  destruct C as [L C]. cbn [off at_] in L, C.
  destruct (plain_lengths_at toks H i j x y ltac:(lia) Ni Nj C) as (r & z & Lr & Nr & B).
  pose proof (region_agrees toks (j + 1) r z (fun k t Hk => B k t ltac:(lia)) Nr m m' (GNT N_expression) [] eq_refl pm pm' (at_ (j + 1))
    ltac:(unfold G; cbn; lia)) as A.
  destruct (snd (run table toks m (GNT N_expression) [] pm (at_ (j + 1)))), (snd (run table toks m' (GNT N_expression) [] pm' (at_ (j + 1))));
    cbn in *; try exact I; try contradiction; tauto.
Qed.
