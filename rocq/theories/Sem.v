(** Reasoning about the parser by rules: [sem a x e p r] says that the parser
    [x], started at [p] with ambiguity level [a], has the outcome [r] unless it
    aborts.  Aborts are excluded once and for all by [RunOk.run_ok]; so the
    rules need no fuel and no argument about extents being computable. *)

From Coq Require Import String List Arith Bool Lia.
From Verif Require Import Base Peresil Token Schema Value Nt Grammar Table Amb.
Import ListNotations.
Local Open Scope string_scope.
Local Open Scope list_scope.
Local Open Scope nat_scope.

(** Outcomes: where the parser stops and, on success, the value. *)
Inductive sres : Type := SOk (q : point) (v : val) | SFail (q : point).

Definition agrees (r : presult) (s : sres) : Prop :=
  match r with
  | Success q v => s = SOk q v
  | Failure q _ => s = SFail q
  | Abort _ => True
  end.

(** The point before token [i]. *)
Definition at_ (i : nat) : point := mkPt i None.

Section Sem.
  Variable toks : list token.
  Notation run := (run table toks).

  Definition psem (a : ambiguity) (f : gparser val) (p : point) (r : sres) : Prop :=
    forall pm, m_state pm = a -> agrees (snd (f pm p)) r.

  Definition sem (a : ambiguity) (x : g) (e : env) (p : point) (r : sres) : Prop :=
    forall m, psem a (run m x e) p r.

  (** The extent between two points, when there is one. *)
  Definition exv (p q : point) : extent := match ex toks p q with BOk x => x | BAbort _ => (0, 0) end.

  Definition bval (p : point) (e : env) (b : bexp) (v : val) : Prop :=
    match beval toks p e b with BOk w => w = v | BAbort _ => True end.

  Lemma sem_keep m x e pm p pm' r : run m x e pm p = (pm', r) -> m_state pm' = m_state pm.
  Proof. apply keeps_eq, run_keeps. Qed.

  (** ** Tokens *)
  Lemma sem_tok a m err e p r :
    (forall pm, agrees (snd (tok toks m err pm p)) r) -> sem a (GTok m err) e p r.
  Proof. intros H [|n] pm _; [exact I|]. apply H. Qed.

  Lemma sem_tok_ok a m err e i t v :
    nth_error toks i = Some t -> convert m t = Some v -> sem a (GTok m err) e (at_ i) (SOk (at_ (i + 1)) v).
  Proof.
    intros N C. apply sem_tok. intros pm. unfold tok, at_. cbn [off sub]. rewrite N, C. reflexivity.
  Qed.

  Lemma sem_tok_fail a m err e i t :
    nth_error toks i = Some t -> convert m t = None ->
    (forall b c, split t 0 = Some (b, c) -> convert m b = None) ->
    sem a (GTok m err) e (at_ i) (SFail (at_ i)).
  Proof.
    intros N C S. apply sem_tok. intros pm. unfold tok, at_. cbn [off sub sub_rank]. rewrite N, C.
    destruct (split t 0) as [[b c]|] eqn:E; [|reflexivity]. rewrite (S b c); reflexivity.
  Qed.

  (** The first piece of a compound token. *)
  Lemma sem_tok_split a m err e i t b c v :
    nth_error toks i = Some t -> convert m t = None -> split t 0 = Some (b, c) -> convert m b = Some v ->
    sem a (GTok m err) e (at_ i) (SOk (mkPt i (Some 0)) v).
  Proof.
    intros N C S D. apply sem_tok. intros pm. unfold tok, at_. cbn [off sub sub_rank]. rewrite N, C, S, D. reflexivity.
  Qed.

  (** What is left of a compound token. *)
  Lemma sem_tok_rest a m err e i n t b c v :
    nth_error toks i = Some t -> split t n = Some (b, c) -> convert m c = Some v ->
    sem a (GTok m err) e (mkPt i (Some n)) (SOk (at_ (i + 1)) v).
  Proof.
    intros N S C. apply sem_tok. intros pm. unfold tok, at_. cbn [off sub sub_rank]. rewrite N, S, C. reflexivity.
  Qed.

  Lemma sem_tok_rest_split a m err e i n t b c b' c' v :
    nth_error toks i = Some t -> split t n = Some (b, c) -> convert m c = None ->
    split t (S n) = Some (b', c') -> convert m b' = Some v ->
    sem a (GTok m err) e (mkPt i (Some n)) (SOk (mkPt i (Some (S n))) v).
  Proof.
    intros N S C S' D. apply sem_tok. intros pm. unfold tok, at_. cbn [off sub sub_rank]. rewrite N, S, C, S', D. reflexivity.
  Qed.

  Lemma sem_tok_rest_fail a m err e i n t b c :
    nth_error toks i = Some t -> split t n = Some (b, c) -> convert m c = None ->
    (forall b c, split t (S n) = Some (b, c) -> convert m b = None) ->
    sem a (GTok m err) e (mkPt i (Some n)) (SFail (mkPt i (Some n))).
  Proof.
    intros N S C D. apply sem_tok. intros pm. unfold tok, at_. cbn [off sub sub_rank]. rewrite N, S, C.
    destruct (split t (Datatypes.S n)) as [[b' c']|] eqn:E; [|reflexivity]. rewrite (D b' c'); reflexivity.
  Qed.

  (** ** Nonterminals, points *)
  Lemma sem_nt a n e p r : sem a (table n) [] p r -> sem a (GNT n) e p r.
  Proof. intros H [|m] pm Ha; [exact I|]. now apply H. Qed.

  Lemma sem_point a e p : sem a GPoint e p (SOk p (VPoint p)).
  Proof. intros [|m] pm Ha; [exact I|]. reflexivity. Qed.

  (** ** Sequences *)
  Definition sems (a : ambiguity) (steps : list (pat * g)) (b : bexp) (e : env) (p : point) (r : sres) : Prop :=
    forall m, psem a (run_steps toks (run m) steps b e) p r.

  Lemma sem_seq a steps b e p r : sems a steps b e p r -> sem a (GSeq steps b) e p r.
  Proof. intros H [|m] pm Ha; [exact I|]. now apply H. Qed.

  Lemma sems_nil a b e p v : bval p e b v -> sems a [] b e p (SOk p v).
  Proof.
    intros H m pm _. cbn [run_steps]. unfold bval in H. destruct (beval toks p e b); [|exact I]. cbn. congruence.
  Qed.

  Lemma sems_cons a pt x steps b e p q v e' r :
    sem a x e p (SOk q v) -> bind_pat pt v e = Some e' -> sems a steps b e' q r ->
    sems a ((pt, x) :: steps) b e p r.
  Proof.
    intros H B K m pm Ha. cbn [run_steps]. specialize (H m pm Ha).
    destruct (run m x e pm p) as [pm1 [q1 v1|q1 er|w]] eqn:E; cbn [snd agrees] in H; [|discriminate|exact I].
    injection H as <- <-. rewrite B. apply K. rewrite (sem_keep _ _ _ _ _ _ _ E). exact Ha.
  Qed.

  Lemma sems_fail a pt x steps b e p q :
    sem a x e p (SFail q) -> sems a ((pt, x) :: steps) b e p (SFail q).
  Proof.
    intros H m pm Ha. cbn [run_steps]. specialize (H m pm Ha).
    destruct (run m x e pm p) as [pm1 [q1 v1|q1 er|w]] eqn:E; cbn [snd agrees] in *; [discriminate|exact H|exact I].
  Qed.

  (** ** Alternatives *)
  Inductive alts (a : ambiguity) (e : env) (p : point) : list g -> sres -> Prop :=
  | alts_last x r : sem a x e p r -> alts a e p [x] r
  | alts_hit x gs q v : sem a x e p (SOk q v) -> alts a e p (x :: gs) (SOk q v)
  | alts_skip x gs q r : sem a x e p (SFail q) -> alts a e p gs r -> alts a e p (x :: gs) r.

  Lemma alternate_hit gs q v pm p : alternate_from (A := val) (S := ambiguity) pt_lt recov (Success q v) gs pm p = (pm, Success q v).
  Proof. destruct gs; reflexivity. Qed.

  Lemma alternate_abort gs w pm p : alternate_from (A := val) (S := ambiguity) pt_lt recov (Abort w) gs pm p = (pm, Abort w).
  Proof. destruct gs; reflexivity. Qed.

  Lemma alts_from a e p gs r m : alts a e p gs r -> forall q er pm, m_state pm = a ->
    agrees (snd (alternate_from pt_lt recov (Failure q er) (map (fun x => run m x e) gs) pm p)) r.
  Proof.
    induction 1 as [x r H|x gs q' v H|x gs q' r H K IH]; intros q er pm Ha; cbn [map alternate_from recov];
      specialize (H m pm Ha); destruct (run m x e pm p) as [pm1 [q1 v1|q1 er1|w]] eqn:E; cbn [snd agrees] in H;
      try discriminate H; try (cbn [alternate_from]; exact H);
      try (rewrite alternate_hit; exact H); try (rewrite alternate_abort; exact I).
    apply IH. rewrite record_state, (sem_keep _ _ _ _ _ _ _ E). exact Ha.
  Qed.

  Lemma sem_alt a gs e p r : alts a e p gs r -> sem a (GAlt gs) e p r.
  Proof.
    intros A [|m] pm Ha; [exact I|]. cbn [Grammar.run]. unfold alternate.
    destruct A as [x r H|x gs q' v H|x gs q' r H K]; cbn [map];
      specialize (H m pm Ha); destruct (run m x e pm p) as [pm1 [q1 v1|q1 er1|w]] eqn:E; cbn [snd agrees] in H;
      try discriminate H; try (cbn [alternate_from]; exact H);
      try (rewrite alternate_hit; exact H); try (rewrite alternate_abort; exact I).
    apply alts_from with (a := a); [exact K|]. rewrite (sem_keep _ _ _ _ _ _ _ E). exact Ha.
  Qed.

  (** ** Options *)
  Lemma sem_opt_some a x e p q v : sem a x e p (SOk q v) -> sem a (GOpt x) e p (SOk q (VSome v)).
  Proof.
    intros H [|m] pm Ha; [exact I|]. cbn [Grammar.run]. unfold map_p, optional. specialize (H m pm Ha).
    destruct (run m x e pm p) as [pm1 [q1 v1|q1 er1|w]]; cbn [snd agrees] in H; [|discriminate|exact I].
    injection H as <- <-. reflexivity.
  Qed.

  Lemma sem_opt_none a x e p q : sem a x e p (SFail q) -> sem a (GOpt x) e p (SOk p VNone).
  Proof.
    intros H [|m] pm Ha; [exact I|]. cbn [Grammar.run]. unfold map_p, optional. specialize (H m pm Ha).
    destruct (run m x e pm p) as [pm1 [q1 v1|q1 er1|w]]; cbn [snd agrees] in H; [discriminate| |exact I].
    reflexivity.
  Qed.

  (** ** Repetition *)
  Inductive manys (a : ambiguity) (x : g) (e : env) : point -> point -> list val -> Prop :=
  | manys_nil p q : sem a x e p (SFail q) -> manys a x e p p []
  | manys_cons p q r v l : sem a x e p (SOk q v) -> manys a x e q r l -> manys a x e p r (v :: l).

  Lemma sem_many a x e p q l : manys a x e p q l -> sem a (GMany x) e p (SOk q (VList l)).
  Proof.
    intros H [|m] pm Ha; [exact I|]. cbn [Grammar.run]. unfold map_p.
    assert (Z : forall n pm, m_state pm = a ->
      match snd (zero_or_more pt_lt recov n (run m x e) pm p) with
      | Success q' l' => q' = q /\ l' = l | Failure _ _ => False | Abort _ => True end).
    { clear pm Ha. induction H as [p q0 H|p q0 r v l H K IH]; intros [|n] pm Ha; try exact I;
        cbn [zero_or_more]; specialize (H m pm Ha);
        destruct (run m x e pm p) as [pm1 [q1 v1|q1 er1|w]] eqn:E; cbn [snd agrees] in H; try discriminate H; try exact I.
      - cbn [recov snd]. auto.
      - injection H as <- <-. specialize (IH n pm1). rewrite (sem_keep _ _ _ _ _ _ _ E) in IH. specialize (IH Ha).
        destruct (zero_or_more _ _ n _ pm1 _) as [pm2 [q2 l2|q2 er2|w2]]; cbn [snd] in *; auto. destruct IH as [-> ->]. auto. }
    specialize (Z m pm Ha). destruct (zero_or_more _ _ m _ pm p) as [pm2 [q2 l2|q2 er2|w2]]; cbn [snd] in *; auto.
    - destruct Z as [-> ->]. reflexivity.
    - contradiction.
  Qed.

  (** ** Separated lists *)
  Inductive tails (a : ambiguity) (sep f : g) (e : env) : list val -> nat -> bool -> point -> point -> val -> Prop :=
  | tails_end vs c b p q : sem a f e p (SFail q) -> tails a sep f e vs c b p q (vtailed vs c b)
  | tails_last vs c b p q r v w : sem a f e p (SOk q v) -> sem a sep e q (SFail r) -> w = vtailed (vs ++ [v]) c false ->
      tails a sep f e vs c b p r w
  | tails_more vs c b p q r s v w u : sem a f e p (SOk q v) -> sem a sep e q (SOk r w) ->
      tails a sep f e (vs ++ [v]) (S c) true r s u -> tails a sep f e vs c b p s u.

  Lemma tails_loop a sep f e vs c b p q v : tails a sep f e vs c b p q v ->
    forall n m, psem a (tailed_loop n (run m sep e) (run m f e) vs c b) p (SOk q v).
  Proof.
    induction 1 as [vs c b p q F|vs c b p q r v w F G ->|vs c b p q r s v w u F G K IH]; intros [|n] m pm Ha; try exact I;
      cbn [tailed_loop]; specialize (F m pm Ha); destruct (run m f e pm p) as [pm1 [q1 v1|q1 er1|w1]] eqn:E;
      cbn [snd agrees] in F; try discriminate F; try exact I.
    - injection F as <-. reflexivity.
    - injection F as <- <-. specialize (G m pm1). rewrite (sem_keep _ _ _ _ _ _ _ E) in G. specialize (G Ha).
      destruct (run m sep e pm1 _) as [pm2 [q2 v2|q2 er2|w2]]; cbn [snd agrees] in G; try discriminate G; try exact I.
      injection G as <-. reflexivity.
    - injection F as <- <-. specialize (G m pm1). rewrite (sem_keep _ _ _ _ _ _ _ E) in G. specialize (G Ha).
      destruct (run m sep e pm1 _) as [pm2 [q2 v2|q2 er2|w2]] eqn:E2; cbn [snd agrees] in G; try discriminate G; try exact I.
      injection G as <- <-. apply IH. rewrite (sem_keep _ _ _ _ _ _ _ E2), (sem_keep _ _ _ _ _ _ _ E). exact Ha.
  Qed.

  Lemma sem_tailed a app sep f e p q l v : bval p e app (VList l) ->
    tails a sep f e l 0 false p q v -> sem a (GTailed app sep f) e p (SOk q v).
  Proof.
    intros B T [|m] pm Ha; [exact I|]. cbn [Grammar.run]. unfold bval in B.
    destruct (beval toks p e app); [|exact I]. subst a0. exact (tails_loop _ _ _ _ _ _ _ _ _ _ T m m pm Ha).
  Qed.

  Inductive tails1 (a : ambiguity) (sep f : g) (e : env) (p : point) : sres -> Prop :=
  | tails1_fail q : sem a f e p (SFail q) -> tails1 a sep f e p (SFail q)
  | tails1_one q r v : sem a f e p (SOk q v) -> sem a sep e q (SFail r) -> tails1 a sep f e p (SOk r (vtailed [v] 0 false))
  | tails1_more q r s v w u : sem a f e p (SOk q v) -> sem a sep e q (SOk r w) ->
      tails a sep f e [v] 1 false r s u -> tails1 a sep f e p (SOk s u).

  Lemma tails1_loop a sep f e p r : tails1 a sep f e p r -> forall n m, psem a (tailed1 n (run m sep e) (run m f e)) p r.
  Proof.
    destruct 1 as [q F|q r v F G|q r s v w u F G T]; intros n m pm Ha; unfold tailed1;
      specialize (F m pm Ha); destruct (run m f e pm p) as [pm1 [q1 v1|q1 er1|w1]] eqn:E;
      cbn [snd agrees] in F; try discriminate F; try exact I.
    - exact F.
    - injection F as <- <-. specialize (G m pm1). rewrite (sem_keep _ _ _ _ _ _ _ E) in G. specialize (G Ha).
      destruct (run m sep e pm1 _) as [pm2 [q2 v2|q2 er2|w2]]; cbn [snd agrees] in G; try discriminate G; try exact I.
      injection G as <-. reflexivity.
    - injection F as <- <-. specialize (G m pm1). rewrite (sem_keep _ _ _ _ _ _ _ E) in G. specialize (G Ha).
      destruct (run m sep e pm1 _) as [pm2 [q2 v2|q2 er2|w2]] eqn:E2; cbn [snd agrees] in G; try discriminate G; try exact I.
      injection G as <- <-. eapply tails_loop; [exact T|]. rewrite (sem_keep _ _ _ _ _ _ _ E2), (sem_keep _ _ _ _ _ _ _ E). exact Ha.
  Qed.

  Lemma sem_tailed1 a sep f e p r : tails1 a sep f e p r -> sem a (GTailed1 sep f) e p r.
  Proof. intros T [|m] pm Ha; [exact I|]. exact (tails1_loop _ _ _ _ _ _ T m m pm Ha). Qed.

  Lemma sem_resume_none a sep f e p q : sem a sep e p (SFail q) -> sem a (GResume sep f) e p (SOk q (VList [])).
  Proof.
    intros G [|m] pm Ha; [exact I|]. cbn [Grammar.run]. unfold resume. specialize (G m pm Ha).
    destruct (run m sep e pm p) as [pm1 [q1 v1|q1 er1|w1]]; cbn [snd agrees] in *; [discriminate| |exact I].
    injection G as <-. reflexivity.
  Qed.

  Lemma sem_resume_back a sep f e p q v r : sem a sep e p (SOk q v) -> tails1 a sep f e q (SFail r) ->
    sem a (GResume sep f) e p (SOk p (VList [])).
  Proof.
    intros G T [|m] pm Ha; [exact I|]. cbn [Grammar.run]. unfold resume. specialize (G m pm Ha).
    destruct (run m sep e pm p) as [pm1 [q1 v1|q1 er1|w1]] eqn:E; cbn [snd agrees] in *; [|discriminate|exact I].
    injection G as <- <-. pose proof (tails1_loop _ _ _ _ _ _ T m m pm1) as L.
    rewrite (sem_keep _ _ _ _ _ _ _ E) in L. specialize (L Ha).
    destruct (tailed1 _ _ _ pm1 _) as [pm2 [q2 v2|q2 er2|w2]]; cbn [snd agrees] in L; [discriminate| |exact I]. reflexivity.
  Qed.

  Lemma sem_resume_some a sep f e p q v r l w : sem a sep e p (SOk q v) -> tails1 a sep f e q (SOk r (VPair l w)) ->
    sem a (GResume sep f) e p (SOk r l).
  Proof.
    intros G T [|m] pm Ha; [exact I|]. cbn [Grammar.run]. unfold resume. specialize (G m pm Ha).
    destruct (run m sep e pm p) as [pm1 [q1 v1|q1 er1|w1]] eqn:E; cbn [snd agrees] in *; [|discriminate|exact I].
    injection G as <- <-. pose proof (tails1_loop _ _ _ _ _ _ T m m pm1) as L.
    rewrite (sem_keep _ _ _ _ _ _ _ E) in L. specialize (L Ha).
    destruct (tailed1 _ _ _ pm1 _) as [pm2 [q2 v2|q2 er2|w2]]; cbn [snd agrees] in L; [|discriminate|exact I].
    injection L as <- <-. reflexivity.
  Qed.

  Inductive impls (a : ambiguity) (sep f : g) (e : env) : list val -> nat -> bool -> point -> point -> val -> Prop :=
  | impls_end vs c b p q : sem a f e p (SFail q) -> impls a sep f e vs c b p q (vtailed vs c b)
  | impls_last vs c b p q r v : sem a f e p (SOk q v) -> sem a sep e q (SFail r) -> is_implicit_separator v = false ->
      impls a sep f e vs c b p r (vtailed (vs ++ [v]) c b)
  | impls_implicit vs c b p q r s v u : sem a f e p (SOk q v) -> sem a sep e q (SFail r) -> is_implicit_separator v = true ->
      impls a sep f e (vs ++ [v]) (S c) false r s u -> impls a sep f e vs c b p s u
  | impls_more vs c b p q r s v w u : sem a f e p (SOk q v) -> sem a sep e q (SOk r w) ->
      impls a sep f e (vs ++ [v]) (S c) true r s u -> impls a sep f e vs c b p s u.

  Lemma impls_loop a sep f e vs c b p q v : impls a sep f e vs c b p q v ->
    forall n m, psem a (implicit_loop n (run m sep e) (run m f e) vs c b) p (SOk q v).
  Proof.
    induction 1 as [vs c b p q F|vs c b p q r v F G S|vs c b p q r s v u F G S K IH|vs c b p q r s v w u F G K IH];
      intros [|n] m pm Ha; try exact I;
      cbn [implicit_loop]; specialize (F m pm Ha); destruct (run m f e pm p) as [pm1 [q1 v1|q1 er1|w1]] eqn:E;
      cbn [snd agrees] in F; try discriminate F; try exact I.
    1: injection F as <-; reflexivity.
    all: injection F as <- <-; specialize (G m pm1); rewrite (sem_keep _ _ _ _ _ _ _ E) in G; specialize (G Ha);
      destruct (run m sep e pm1 _) as [pm2 [q2 v2|q2 er2|w2]] eqn:E2; cbn [snd agrees] in G; try discriminate G; try exact I.
    - injection G as <-. rewrite S. reflexivity.
    - injection G as <-. rewrite S. apply IH. rewrite (sem_keep _ _ _ _ _ _ _ E2), (sem_keep _ _ _ _ _ _ _ E). exact Ha.
    - injection G as <- <-. apply IH. rewrite (sem_keep _ _ _ _ _ _ _ E2), (sem_keep _ _ _ _ _ _ _ E). exact Ha.
  Qed.

  Lemma sem_implicit a sep f e p q v : impls a sep f e [] 0 false p q v -> sem a (GImplicit sep f) e p (SOk q v).
  Proof. intros T [|m] pm Ha; [exact I|]. exact (impls_loop _ _ _ _ _ _ _ _ _ _ T m m pm Ha). Qed.

  (** ** Nested brackets *)
  Lemma sem_nested a o c e p : 
    sem a (GNested o c) e p (SOk (at_ (off p + nested_skip o c 0 (skipn (off p) toks)))
      (VExt (exv p (at_ (off p + nested_skip o c 0 (skipn (off p) toks)))))).
  Proof.
    intros [|m] pm Ha; [exact I|]. cbn [Grammar.run]. unfold nested, exv. fold (at_ (off p + nested_skip o c 0 (skipn (off p) toks))).
    destruct (ex toks p (at_ (off p + nested_skip o c 0 (skipn (off p) toks)))); [reflexivity|exact I].
  Qed.

  (** ** Small wrappers *)
  Lemma sem_ext a x e p q v : sem a x e p (SOk q v) -> sem a (GExt x) e p (SOk q (VExt (exv p q))).
  Proof.
    intros H [|m] pm Ha; [exact I|]. cbn [Grammar.run]. specialize (H m pm Ha). unfold exv.
    destruct (run m x e pm p) as [pm1 [q1 v1|q1 er1|w]]; cbn [snd agrees] in H; [|discriminate|exact I].
    injection H as <- <-. destruct (ex toks p _); [reflexivity|exact I].
  Qed.

  Lemma sem_ext_fail a x e p q : sem a x e p (SFail q) -> sem a (GExt x) e p (SFail q).
  Proof.
    intros H [|m] pm Ha; [exact I|]. cbn [Grammar.run]. specialize (H m pm Ha).
    destruct (run m x e pm p) as [pm1 [q1 v1|q1 er1|w]]; cbn [snd agrees] in *; [discriminate|exact H|exact I].
  Qed.

  Lemma sem_peek a x e p q v : sem a x e p (SOk q v) -> sem a (GPeek x) e p (SOk p VUnit).
  Proof.
    intros H [|m] pm Ha; [exact I|]. cbn [Grammar.run]. unfold map_p, peek. specialize (H m pm Ha).
    destruct (run m x e pm p) as [pm1 [q1 v1|q1 er1|w]]; cbn [snd agrees] in *; [reflexivity|discriminate|exact I].
  Qed.

  Lemma sem_peek_fail a x e p q : sem a x e p (SFail q) -> sem a (GPeek x) e p (SFail p).
  Proof.
    intros H [|m] pm Ha; [exact I|]. cbn [Grammar.run]. unfold map_p, peek. specialize (H m pm Ha).
    destruct (run m x e pm p) as [pm1 [q1 v1|q1 er1|w]]; cbn [snd agrees] in *; [discriminate|reflexivity|exact I].
  Qed.

  Lemma sem_maperr a x err e p r : sem a x e p r -> sem a (GMapErr x err) e p r.
  Proof.
    intros H [|m] pm Ha; [exact I|]. cbn [Grammar.run]. specialize (H m pm Ha).
    destruct (run m x e pm p) as [pm1 [q1 v1|q1 er1|w]]; exact H.
  Qed.

  Lemma sem_amb a l x e p r : sem l x e p r -> sem a (GAmb l x) e p r.
  Proof.
    intros H [|m] pm Ha; [exact I|]. cbn [Grammar.run]. unfold with_amb. specialize (H m (set_amb pm l) eq_refl).
    destruct (run m x e (set_amb pm l) p) as [pm1 r1]. exact H.
  Qed.

  Lemma sem_ifmax a err x e p r : is_maximum a = false -> sem a x e p r -> sem a (GIfMax err x) e p r.
  Proof. intros A H [|m] pm Ha; [exact I|]. cbn [Grammar.run]. rewrite Ha, A. now apply H. Qed.

  Lemma sem_ifmax_fail a err x e p : is_maximum a = true -> sem a (GIfMax err x) e p (SFail p).
  Proof. intros A [|m] pm Ha; [exact I|]. cbn [Grammar.run]. rewrite Ha, A. reflexivity. Qed.

  Lemma sem_ifamb a x y e p r : sem a (if is_ambiguous a then x else y) e p r -> sem a (GIfAmb x y) e p r.
  Proof.
    intros H [|m] pm Ha; [exact I|]. cbn [Grammar.run]. rewrite Ha. destruct (is_ambiguous a); now apply H.
  Qed.

  (** ** The shunting yard *)
  Definition ayields {A} (r : ares A) (a : A) : Prop :=
    match r with AOk b => b = a | AErr _ _ => False | AAbort _ => True end.

  Definition shunts (a : ambiguity) (stmt : bool) (y : yard) (s : estate) (p : point) (r : sres) : Prop :=
    forall n m, psem a (shunt_loop toks n (run m (GNT N_expression_prefix_or_atom) [])
      (run m (GNT N_expression_infix_or_postfix) []) (run m (GNT N_operator_postfix_limited) []) stmt y s) p r.

  Lemma sem_shunt a stmt e p r : shunts a stmt (mkYard [] []) SPrefix p r -> sem a (GShunt stmt) e p r.
  Proof. intros H [|m] pm Ha; [exact I|]. cbn [Grammar.run]. now apply H. Qed.

  (** The level at which an operand is parsed. *)
  Definition operand_level (a : ambiguity) (s : estate) : ambiguity :=
    match s with SInfix was_range => if is_ambiguous a && was_range then Maximum else a | _ => a end.

  Definition operand_state (s : estate) : Prop := match s with SPrefix | SInfix _ => True | _ => False end.
  Definition operator_state (s : estate) : Prop := match s with SPostfix | SAtom => True | _ => False end.

  Lemma operand_run a s m p r : operand_state s ->
    sem (operand_level a s) (GNT N_expression_prefix_or_atom) [] p r -> forall pm, m_state pm = a ->
    let f := (if match s with SInfix was_range => is_ambiguous (m_state pm) && was_range | _ => false end
      then with_amb Maximum (run m (GNT N_expression_prefix_or_atom) []) else run m (GNT N_expression_prefix_or_atom) []) in
    agrees (snd (f pm p)) r /\ m_state (fst (f pm p)) = a.
  Proof.
    intros S H pm Ha. cbv zeta. destruct s as [|w| | |]; try contradiction; cbn [operand_level] in H.
    - split; [now apply H|]. rewrite run_keeps. exact Ha.
    - rewrite Ha. destruct (is_ambiguous a && w).
      + split.
        * unfold with_amb. specialize (H m (set_amb pm Maximum) eq_refl).
          destruct (run m _ _ (set_amb pm Maximum) p) as [pm1 r1]. exact H.
        * unfold with_amb. destruct (run m _ _ (set_amb pm Maximum) p) as [pm1 r1]. exact Ha.
      + split; [now apply H|]. rewrite run_keeps. exact Ha.
  Qed.

  Lemma shunts_atom a stmt y s p q en v r : operand_state s ->
    sem (operand_level a s) (GNT N_expression_prefix_or_atom) [] p (SOk q (VVar en "Atom" v)) ->
    shunts a stmt (add_expression y v p q) (adapt_state stmt (add_expression y v p q) SAtom) q r ->
    shunts a stmt y s p r.
  Proof.
    intros S H K [|n] m pm Ha; [exact I|].
    pose proof (operand_run a s m p _ S H pm Ha) as [O M]. cbv zeta in O, M.
    destruct s as [|w| | |]; try contradiction; cbn [shunt_loop].
    - try match goal with |- context [if false then ?a else ?b] => change (if false then a else b) with b end.
      destruct (run m (GNT N_expression_prefix_or_atom) [] pm p) as [pm1 [q1 v1|q1 er1|w1]]; cbn [fst snd agrees] in *; [|discriminate|exact I].
      injection O as <- <-. now apply K.
    - match type of O with agrees (snd ?X) _ => destruct X as [pm1 [q1 v1|q1 er1|w1]] end; cbn [fst snd agrees] in *; [|discriminate|exact I].
      injection O as <- <-. now apply K.
  Qed.

  Lemma shunts_prefix a stmt y s p q en op y' r : operand_state s ->
    sem (operand_level a s) (GNT N_expression_prefix_or_atom) [] p (SOk q (VVar en "Prefix" op)) ->
    ayields (add_op toks y (OpPrefix op) p q) y' ->
    shunts a stmt y' SPrefix q r -> shunts a stmt y s p r.
  Proof.
    intros S H A K [|n] m pm Ha; [exact I|].
    pose proof (operand_run a s m p _ S H pm Ha) as [O M]. cbv zeta in O, M.
    destruct s as [|w| | |]; try contradiction; cbn [shunt_loop].
    - try match goal with |- context [if false then ?a else ?b] => change (if false then a else b) with b end.
      destruct (run m (GNT N_expression_prefix_or_atom) [] pm p) as [pm1 [q1 v1|q1 er1|w1]]; cbn [fst snd agrees] in *; [|discriminate|exact I].
      injection O as <- <-. destruct (add_op toks y (OpPrefix op) p _); [|contradiction|exact I]. cbn in A. subst a0. now apply K.
    - match type of O with agrees (snd ?X) _ => destruct X as [pm1 [q1 v1|q1 er1|w1]] end; cbn [fst snd agrees] in *; [|discriminate|exact I].
      injection O as <- <-. destruct (add_op toks y (OpPrefix op) p _); [|contradiction|exact I]. cbn in A. subst a0. now apply K.
  Qed.

  Lemma shunts_infix a stmt y s p q en op y' r : operator_state s ->
    sem a (GNT N_expression_infix_or_postfix) [] p (SOk q (VVar en "Infix" op)) ->
    ayields (add_op toks y (OpInfix op) p q) y' ->
    shunts a stmt y' (SInfix (is_range op)) q r -> shunts a stmt y s p r.
  Proof.
    intros S H A K [|n] m pm Ha; [exact I|]. specialize (H m pm Ha).
    pose proof (run_keeps toks table m (GNT N_expression_infix_or_postfix) [] pm p) as M. rewrite Ha in M.
    destruct s as [|w| | |]; try contradiction; cbn [shunt_loop];
      destruct (run m (GNT N_expression_infix_or_postfix) [] pm p) as [pm1 [q1 v1|q1 er1|w1]]; cbn [fst snd agrees] in *; try discriminate; try exact I;
      injection H as <- <-; destruct (add_op toks y (OpInfix op) p _); try contradiction; try exact I; cbn in A; subst a0; now apply K.
  Qed.

  Lemma shunts_postfix a stmt y s p q en op y' r : operator_state s ->
    sem a (GNT N_expression_infix_or_postfix) [] p (SOk q (VVar en "Postfix" op)) ->
    ayields (add_op toks y (OpPostfix op) p q) y' ->
    shunts a stmt y' SPostfix q r -> shunts a stmt y s p r.
  Proof.
    intros S H A K [|n] m pm Ha; [exact I|]. specialize (H m pm Ha).
    pose proof (run_keeps toks table m (GNT N_expression_infix_or_postfix) [] pm p) as M. rewrite Ha in M.
    destruct s as [|w| | |]; try contradiction; cbn [shunt_loop];
      destruct (run m (GNT N_expression_infix_or_postfix) [] pm p) as [pm1 [q1 v1|q1 er1|w1]]; cbn [fst snd agrees] in *; try discriminate; try exact I;
      injection H as <- <-; destruct (add_op toks y (OpPostfix op) p _); try contradiction; try exact I; cbn in A; subst a0; now apply K.
  Qed.

  (** Nothing more to add: the yard is emptied. *)
  Lemma shunts_stop a stmt y s p q c : operator_state s ->
    sem a (GNT N_expression_infix_or_postfix) [] p (SFail q) ->
    ayields (finish_yard toks y q) c -> shunts a stmt y s p (SOk (c_ept c) (c_val c)).
  Proof.
    intros S H A [|n] m pm Ha; [exact I|]. specialize (H m pm Ha).
    destruct s as [|w| | |]; try contradiction; cbn [shunt_loop];
      destruct (run m (GNT N_expression_infix_or_postfix) [] pm p) as [pm1 [q1 v1|q1 er1|w1]]; cbn [fst snd agrees] in *; try discriminate; try exact I;
      injection H as <-; unfold finish_progress; destruct (finish_yard toks y _); try contradiction; try exact I; cbn in A; subst a0; reflexivity.
  Qed.

  Lemma shunts_stop_operand a stmt y s p q c : operand_state s ->
    sem (operand_level a s) (GNT N_expression_prefix_or_atom) [] p (SFail q) ->
    ayields (finish_yard toks y q) c -> shunts a stmt y s p (SOk (c_ept c) (c_val c)).
  Proof.
    intros S H A [|n] m pm Ha; [exact I|].
    pose proof (operand_run a s m p _ S H pm Ha) as [O M]. cbv zeta in O, M.
    destruct s as [|w| | |]; try contradiction; cbn [shunt_loop].
    - try match goal with |- context [if false then ?a else ?b] => change (if false then a else b) with b end.
      destruct (run m (GNT N_expression_prefix_or_atom) [] pm p) as [pm1 [q1 v1|q1 er1|w1]]; cbn [fst snd agrees] in *; [discriminate| |exact I].
      injection O as <-. unfold finish_progress. destruct (finish_yard toks y _); [|contradiction|exact I]. cbn in A. subst a0. reflexivity.
    - match type of O with agrees (snd ?X) _ => destruct X as [pm1 [q1 v1|q1 er1|w1]] end; cbn [fst snd agrees] in *; [discriminate| |exact I].
      injection O as <-. unfold finish_progress. destruct (finish_yard toks y _); [|contradiction|exact I]. cbn in A. subst a0. reflexivity.
  Qed.

  Lemma shunts_limited a stmt y p q op y' r :
    sem a (GNT N_operator_postfix_limited) [] p (SOk q op) ->
    ayields (add_op toks y (OpPostfix op) p q) y' ->
    shunts a stmt y' SPostfix q r -> shunts a stmt y SAtomLimited p r.
  Proof.
    intros H A K [|n] m pm Ha; [exact I|]. specialize (H m pm Ha).
    pose proof (run_keeps toks table m (GNT N_operator_postfix_limited) [] pm p) as M. rewrite Ha in M. cbn [shunt_loop].
    destruct (run m (GNT N_operator_postfix_limited) [] pm p) as [pm1 [q1 v1|q1 er1|w1]]; cbn [fst snd agrees] in *; [|discriminate|exact I].
    injection H as <- <-; destruct (add_op toks y (OpPostfix op) p _); try contradiction; try exact I; cbn in A; subst a0; now apply K.
  Qed.

  Lemma shunts_limited_stop a stmt y p q c :
    sem a (GNT N_operator_postfix_limited) [] p (SFail q) ->
    ayields (finish_yard toks y q) c -> shunts a stmt y SAtomLimited p (SOk (c_ept c) (c_val c)).
  Proof.
    intros H A [|n] m pm Ha; [exact I|]. specialize (H m pm Ha). cbn [shunt_loop].
    destruct (run m (GNT N_operator_postfix_limited) [] pm p) as [pm1 [q1 v1|q1 er1|w1]]; cbn [fst snd agrees] in *; [discriminate| |exact I].
    injection H as <-; unfold finish_progress; destruct (finish_yard toks y _); try contradiction; try exact I; cbn in A; subst a0; reflexivity.
  Qed.
End Sem.
