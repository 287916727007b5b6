(** [visit_mut] does what MutSpec.v says. *)

From Coq Require Import String List Bool Arith Lia.
From Verif Require Import Base Peresil Token Schema Value Grammar Visit VisitSpec VisitMut MutSpec.
Import ListNotations.
Local Open Scope string_scope.
Local Open Scope list_scope.
Local Open Scope nat_scope.

Scheme mutation_mut := Induction for mutation Sort Prop
  with mutations_mut := Induction for mutations Sort Prop.
Combined Scheme mutation_both from mutation_mut, mutations_mut.

Lemma bbind_ok {A B} (r : bres A) (k : A -> bres B) b : bbind r k = BOk b -> exists a, r = BOk a /\ k a = BOk b.
Proof. destruct r; cbn; [eauto|discriminate]. Qed.

Ltac unbind H := let a := fresh "a" in let E := fresh "E" in apply bbind_ok in H as (a & E & H).

Section Mut.
  Variable S : Type.
  Variable enter : S -> string -> val -> bres (S * val * control).
  Variable leave : S -> string -> val -> bres (S * val).
  Notation vm := (visit_mut S enter leave).
  Notation ob := (obeys enter leave).

  Lemma obeys_app s1 l1 s2 l2 s3 : ob s1 l1 s2 -> ob s2 l2 s3 -> ob s1 (l1 ++ l2) s3.
  Proof. induction 1; intros; cbn [app]; auto; econstructor; eauto. Qed.
  Lemma obeys_split l1 : forall s1 l2 s3, ob s1 (l1 ++ l2) s3 -> exists s2, ob s1 l1 s2 /\ ob s2 l2 s3.
  Proof.
    induction l1 as [|c l1 IH]; intros s1 l2 s3 H; [exists s1; split; [constructor|exact H]|].
    cbn [app] in H. inversion H as [|? ? ? k v v' a ? E O|? ? ? k v v' ? E O]; subst;
      destruct (IH _ _ _ O) as (s2 & A & B); exists s2; (split; [econstructor; eauto|exact B]).
  Qed.

  Lemma flags k fields : struct_fields k = Some fields -> map snd fields = open_fields k.
  Proof.
    intros E. unfold open_fields. rewrite E. pose proof (flag_skipped k fields E) as F. clear E.
    induction F as [|f fields H _ IH]; [reflexivity|]. cbn [map]. now rewrite H, IH.
  Qed.

  (** ** What is computed is a mutation *)
  Definition sound (g : val -> S -> bres (val * S)) : Prop :=
    forall v s v' s', g v s = BOk (v', s') -> exists log, mutation v log v' /\ ob s log s'.

  Lemma elements_sound g : sound g -> forall l s l' s', visit_elements S g l s = BOk (l', s') ->
    exists log, mutations (map (fun _ => true) l) l log l' /\ ob s log s'.
  Proof.
    intros G. induction l as [|x l IH]; intros s l' s' H; cbn [visit_elements] in H.
    - injection H as <- <-. exists []. split; constructor.
    - unbind H. destruct a as [x1 s1]. unbind H. destruct a as [r s2]. injection H as <- <-.
      destruct (G _ _ _ _ E) as (l1 & A & B). destruct (IH _ _ _ E0) as (l2 & C & D).
      exists (l1 ++ l2). split; [now constructor|eapply obeys_app; eauto].
  Qed.

  Lemma fields_sound g : sound g -> forall fs fields s fs' s', visit_fields S g fs fields s = BOk (fs', s') ->
    exists log, mutations (map snd fields) fs log fs' /\ ob s log s'.
  Proof.
    intros G. induction fs as [|x fs IH]; intros [|[[f t] b] fields] s fs' s' H; cbn [visit_fields] in H; try discriminate.
    - injection H as <- <-. exists []. split; constructor.
    - unbind H. destruct a as [x1 s1]. unbind H. destruct a as [r s2]. injection H as <- <-.
      destruct (IH _ _ _ _ E0) as (l2 & C & D). cbn [map snd]. destruct b.
      + destruct (G _ _ _ _ E) as (l1 & A & B). exists (l1 ++ l2). split; [now constructor|eapply obeys_app; eauto].
      + injection E as <- <-. exists l2. split; [now constructor|exact D].
  Qed.

  Theorem visit_mut_sound n : sound (vm n).
  Proof.
    induction n as [|n IH]; intros v s v' s' H; [discriminate|]. cbn [visit_mut] in H. unfold visit_value in H.
    destruct v; try (injection H as <- <-; exists []; split; [now constructor|constructor]).
    - unbind H. destruct a as [x' s1]. injection H as <- <-. destruct (IH _ _ _ _ E) as (log & A & B). exists log. split; [now constructor|exact B].
    - unbind H. destruct a as [l' s1]. injection H as <- <-. destruct (elements_sound _ IH _ _ _ _ E) as (log & A & B). exists log. split; [now constructor|exact B].
    - unbind H. destruct a as [[s1 v1] c]. unbind H. destruct a as [v2 s2]. unbind H. destruct a as [s3 v3]. injection H as <- <-.
      destruct v1; try discriminate. destruct (String.eqb_spec k0 k) as [->|]; [|discriminate].
      destruct (is_attributed k || match c with Continue => true | Break => false end) eqn:G.
      + destruct (struct_fields k) as [fields|] eqn:F; [|discriminate]. unbind E0. destruct a as [fs2 s4]. injection E0 as <- <-.
        destruct (fields_sound _ IH _ _ _ _ _ E2) as (log & A & B). rewrite (flags _ _ F) in A.
        eexists. split; [eapply Mu_struct with (c := c); eauto|].
        * intros N. rewrite N in G. cbn in G. now destruct c.
        * econstructor; [exact E|]. eapply obeys_app; [exact B|]. econstructor; [exact E1|constructor].
      + injection E0 as <- <-. apply orb_false_iff in G as [G1 G2]. destruct c; [discriminate|].
        eexists. split; [eapply Mu_struct_break; eauto|]. econstructor; [exact E|]. econstructor; [exact E1|constructor].
    - unbind H. destruct a as [[s1 v1] c]. unbind H. destruct a as [v2 s2]. unbind H. destruct a as [s3 v3]. injection H as <- <-.
      destruct v1; try discriminate. match type of E0 with (if String.eqb ?a ?b then _ else _) = _ => destruct (String.eqb_spec a b) as [->|]; [|discriminate] end.
      destruct c.
      + unbind E0. destruct a as [p2 s4]. injection E0 as <- <-. destruct (IH _ _ _ _ E2) as (log & A & B).
        eexists. split; [eapply Mu_enum; eauto|]. econstructor; [exact E|]. eapply obeys_app; [exact B|]. econstructor; [exact E1|constructor].
      + injection E0 as <- <-. eexists. split; [eapply Mu_enum_break; eauto|]. econstructor; [exact E|]. econstructor; [exact E1|constructor].
  Qed.

  (** ** More fuel does not matter *)
  Lemma bbind_mono {A B} (r r' : bres A) (k k' : A -> bres B) :
    (r <> BAbort OutOfFuel -> r' = r) -> (forall a, r = BOk a -> k a <> BAbort OutOfFuel -> k' a = k a) ->
    bbind r k <> BAbort OutOfFuel -> bbind r' k' = bbind r k.
  Proof.
    intros H1 H2 N. destruct r as [a|w]; cbn in *.
    - rewrite H1 by discriminate. cbn. auto.
    - rewrite H1; [reflexivity|]. intros E. injection E as ->. now apply N.
  Qed.

  Definition grows (g h : val -> S -> bres (val * S)) : Prop := forall v s, g v s <> BAbort OutOfFuel -> h v s = g v s.

  Lemma elements_grow g h : grows g h -> forall l s, visit_elements S g l s <> BAbort OutOfFuel -> visit_elements S h l s = visit_elements S g l s.
  Proof.
    intros G. induction l as [|x l IH]; intros s N; [reflexivity|]. cbn [visit_elements] in *.
    apply bbind_mono; [apply G| |exact N]. intros [x' s1] _ N1. apply bbind_mono; [apply IH| |exact N1]. now intros [r s2].
  Qed.
  Lemma fields_grow g h : grows g h -> forall fs fields s, visit_fields S g fs fields s <> BAbort OutOfFuel ->
    visit_fields S h fs fields s = visit_fields S g fs fields s.
  Proof.
    intros G. induction fs as [|x fs IH]; intros [|[[f t] b] fields] s N; try reflexivity. cbn [visit_fields] in *.
    apply bbind_mono; [destruct b; [apply G|reflexivity]| |exact N]. intros [x' s1] _ N1. apply bbind_mono; [apply IH| |exact N1]. now intros [r s2].
  Qed.

  Lemma visit_mut_step n : grows (vm n) (vm (Datatypes.S n)).
  Proof.
    induction n as [|n IH]; intros v s N; [now destruct N|].
    change (vm (Datatypes.S (Datatypes.S n)) v s) with (visit_value S enter leave (vm (Datatypes.S n)) v s).
    change (vm (Datatypes.S n) v s) with (visit_value S enter leave (vm n) v s) in *. unfold visit_value in *.
    destruct v; try reflexivity.
    - apply bbind_mono; [apply IH| |exact N]. now intros [].
    - apply bbind_mono; [now apply elements_grow| |exact N]. now intros [].
    - apply bbind_mono; [reflexivity| |exact N]. intros [[s1 v1] c] _ N1. apply bbind_mono; [|reflexivity|exact N1].
      destruct v1; try reflexivity. destruct (String.eqb _ _); [|reflexivity]. destruct (_ || _); [|reflexivity].
      destruct (struct_fields k); [|reflexivity]. intros N2. apply bbind_mono; [now apply fields_grow| |exact N2]. now intros [].
    - apply bbind_mono; [reflexivity| |exact N]. intros [[s1 v1] c] _ N1. apply bbind_mono; [|reflexivity|exact N1].
      destruct v1; try reflexivity. destruct (String.eqb _ _); [|reflexivity]. destruct c; [|reflexivity].
      intros N2. apply bbind_mono; [apply IH| |exact N2]. now intros [].
  Qed.

  Theorem visit_mut_mono n m : n <= m -> grows (vm n) (vm m).
  Proof.
    induction 1 as [|m _ IH]; intros v s N; [reflexivity|]. rewrite <- (IH v s N). apply visit_mut_step. now rewrite IH.
  Qed.
  Lemma visit_mut_more n m v s r : n <= m -> vm n v s = BOk r -> vm m v s = BOk r.
  Proof. intros L E. rewrite (visit_mut_mono n m L v s); [exact E|]. rewrite E. discriminate. Qed.

  (** ** Every mutation is computed *)
  Theorem visit_mut_complete :
    (forall v log v', mutation v log v' -> forall s s', ob s log s' -> exists n, vm n v s = BOk (v', s')) /\
    (forall bs l log l', mutations bs l log l' -> forall s s', ob s log s' ->
       exists n, (forall fields, map snd fields = bs -> visit_fields S (vm n) l fields s = BOk (l', s')) /\
                 (bs = map (fun _ => true) l -> visit_elements S (vm n) l s = BOk (l', s'))).
  Proof.
    apply mutation_both.
    - intros v A s s' O. inversion O; subst. exists 1. destruct v; try discriminate; reflexivity.
    - intros x log x' _ IH s s' O. destruct (IH _ _ O) as [n E]. exists (Datatypes.S n). cbn [visit_mut]; unfold visit_value. now rewrite E.
    - intros l log l' _ IH s s' O. destruct (IH _ _ O) as (n & _ & E). exists (Datatypes.S n). cbn [visit_mut]; unfold visit_value. now rewrite E.
    - intros k fs fs1 c log fs2 v3 C [fields F] _ IH s s' O.
      inversion O as [|? s1 ? ? ? ? ? ? E1 O1|]; subst. apply obeys_split in O1 as (s2 & O1 & O2).
      inversion O2 as [| |? s3 ? ? ? ? ? E3 O3]; subst. inversion O3; subst.
      destruct (IH _ _ O1) as (n & E & _). exists (Datatypes.S n). cbn [visit_mut]; unfold visit_value. rewrite E1. cbn [bbind]. rewrite String.eqb_refl.
      replace (is_attributed k || match c with Continue => true | Break => false end) with true.
      + rewrite F, (E _ (flags _ _ F)). cbn [bbind]. now rewrite E3.
      + destruct (is_attributed k); [reflexivity|]. now rewrite C.
    - intros k fs fs1 v3 A s s' O.
      inversion O as [|? s1 ? ? ? ? ? ? E1 O1|]; subst. inversion O1 as [| |? s3 ? ? ? ? ? E3 O3]; subst. inversion O3; subst.
      exists 1. cbn [visit_mut]; unfold visit_value. rewrite E1. cbn [bbind]. rewrite String.eqb_refl, A. cbn [orb bbind]. now rewrite E3.
    - intros e x p x1 p1 log p2 v3 _ IH s s' O.
      inversion O as [|? s1 ? ? ? ? ? ? E1 O1|]; subst. apply obeys_split in O1 as (s2 & O1 & O2).
      inversion O2 as [| |? s3 ? ? ? ? ? E3 O3]; subst. inversion O3; subst.
      destruct (IH _ _ O1) as (n & E). exists (Datatypes.S n). cbn [visit_mut]; unfold visit_value. rewrite E1. cbn [bbind]. rewrite String.eqb_refl, E. cbn [bbind]. now rewrite E3.
    - intros e x p x1 p1 v3 s s' O.
      inversion O as [|? s1 ? ? ? ? ? ? E1 O1|]; subst. inversion O1 as [| |? s3 ? ? ? ? ? E3 O3]; subst. inversion O3; subst.
      exists 1. cbn [visit_mut]; unfold visit_value. rewrite E1. cbn [bbind]. rewrite String.eqb_refl. cbn [bbind]. now rewrite E3.
    - intros s s' O. inversion O; subst. exists 0. split; [intros [|? ?] E; [reflexivity|discriminate]|reflexivity].
    - intros bs x l log x' log' l' _ IH1 _ IH2 s s' O. apply obeys_split in O as (s1 & O1 & O2).
      destruct (IH1 _ _ O1) as [n E1]. destruct (IH2 _ _ O2) as (m & E2 & E3). exists (Nat.max n m).
      assert (visit_mut S enter leave (Nat.max n m) x s = BOk (x', s1)) as X1 by (apply (visit_mut_more n); [lia|exact E1]).
      split.
      + intros [|[[f t] b] fields] E; [discriminate|]. cbn [map snd] in E. injection E as -> E. cbn [visit_fields]. rewrite X1. cbn [bbind].
        rewrite (fields_grow _ _ (visit_mut_mono m (Nat.max n m) ltac:(lia))), (E2 _ E); [reflexivity|]. rewrite (E2 _ E). discriminate.
      + intros E. cbn [map] in E. injection E as E. cbn [visit_elements]. rewrite X1. cbn [bbind].
        rewrite (elements_grow _ _ (visit_mut_mono m (Nat.max n m) ltac:(lia))), (E3 E); [reflexivity|]. rewrite (E3 E). discriminate.
    - intros bs x l log l' _ IH s s' O. destruct (IH _ _ O) as (n & E1 & _). exists n. split; [|intros E; discriminate].
      intros [|[[f t] b] fields] E; [discriminate|]. cbn [map snd] in E. injection E as -> E. cbn [visit_fields bbind]. now rewrite (E1 _ E).
  Qed.
End Mut.

(** ** Logs nest *)
Lemma balanced_app l1 : balanced l1 -> forall l2, balanced l2 -> balanced (l1 ++ l2).
Proof.
  induction 1 as [|k v v1 c i v2 v3 r Hi _ Hr IH]; intros l2 H; [exact H|]. cbn [app]. rewrite <- app_assoc. cbn [app].
  apply Ba_node; [exact Hi|now apply IH].
Qed.
Lemma mutation_balanced : (forall v log v', mutation v log v' -> balanced log) /\ (forall bs l log l', mutations bs l log l' -> balanced log).
Proof.
  apply mutation_both; intros; auto; try (now apply balanced_app); try exact Ba_nil.
  - apply (Ba_node k _ _ _ log _ _ []); [assumption|constructor].
  - apply (Ba_node k _ _ _ [] _ _ []); constructor.
  - apply (Ba_node e _ _ _ log _ _ []); [assumption|constructor].
  - apply (Ba_node e _ _ _ [] _ _ []); constructor.
Qed.

(** ** What holds of the changes holds of the result *)
Definition each (P : string -> val -> val -> Prop) (log : list change) : Prop :=
  Forall (fun c => match c with Entered k v v' _ | Left k v v' => P k v v' end) log.

Lemma each_app P l1 l2 : each P (l1 ++ l2) <-> each P l1 /\ each P l2.
Proof. apply Forall_app. Qed.

Section Frame.
  Variable R : val -> val -> Prop.
  Hypothesis C : compatible R.
  Lemma mutation_frame :
    (forall v log v', mutation v log v' -> each (fun _ => R) log -> R v v') /\
    (forall bs l log l', mutations bs l log l' -> each (fun _ => R) log -> Forall2 R l l').
  Proof.
    destruct C as [Cr Ct Cs Cl Cn Cv].
    apply mutation_both; intros; auto.
    - apply Forall_cons_iff in H0 as [H1 H2]. apply each_app in H2 as [H2 H3]. apply Forall_cons_iff in H3 as [H3 _].
      eapply Ct; [exact H1|]. eapply Ct; [|exact H3]. auto.
    - apply Forall_cons_iff in H as [H1 H2]. apply Forall_cons_iff in H2 as [H2 _]. eapply Ct; eauto.
    - apply Forall_cons_iff in H0 as [H1 H2]. apply each_app in H2 as [H2 H3]. apply Forall_cons_iff in H3 as [H3 _].
      eapply Ct; [exact H1|]. eapply Ct; [|exact H3]. auto.
    - apply Forall_cons_iff in H as [H1 H2]. apply Forall_cons_iff in H2 as [H2 _]. eapply Ct; eauto.
    - apply each_app in H1 as [A B]. auto.
  Qed.
End Frame.

Lemma obeys_each {S} en le (P : string -> val -> val -> Prop) (s s' : S) log :
  (forall s k v s1 v' c, en s k v = BOk (s1, v', c) -> P k v v') -> (forall s k v s1 v', le s k v = BOk (s1, v') -> P k v v') ->
  obeys en le s log s' -> each P log.
Proof. intros H1 H2. induction 1; constructor; eauto. Qed.

(** ** Types are kept *)
Lemma mutation_typed (P := fun k v v' => typed v (TN k) -> typed v' (TN k)) :
  (forall v log v', mutation v log v' -> each P log -> forall t, typed v t -> typed v' t) /\
  (forall bs l log l', mutations bs l log l' -> each P log -> Forall2 (fun v v' => forall t, typed v t -> typed v' t) l l').
Proof.
  apply mutation_both; intros; auto.
  - inversion H1; subst. constructor. auto.
  - inversion H1 as [| | | | | | | |? t0 T| | | |]; subst. constructor. specialize (H H0). intros w Hw. clear - H T Hw.
    induction H as [|x y l l' Hx _ IH]; [destruct Hw|]. destruct Hw as [<-|Hw]; [apply Hx, T; now left|].
    apply IH; [|exact Hw]. intros z Hz. apply T. now right.
  - apply Forall_cons_iff in H0 as [H2 H3]. apply each_app in H3 as [H3 H4]. apply Forall_cons_iff in H4 as [H4 _].
    assert (t = TN k) as -> by (inversion H1; subst; reflexivity). apply H4.
    specialize (H2 H1). specialize (H H3). inversion H2 as [| | | | | | | | | |? ? fields F T| |]; subst.
    econstructor; [exact F|]. clear - H T. revert fields T. induction H as [|x y l l' Hx _ IH]; intros fields T; inversion T; subst; constructor; auto.
  - apply Forall_cons_iff in H as [H2 H3]. apply Forall_cons_iff in H3 as [H3 _].
    assert (t = TN k) as -> by (inversion H0; subst; reflexivity). apply H3, H2, H0.
  - apply Forall_cons_iff in H0 as [H2 H3]. apply each_app in H3 as [H3 H4]. apply Forall_cons_iff in H4 as [H4 _].
    assert (t = TN e) as -> by (inversion H1; subst; reflexivity). apply H4.
    specialize (H2 H1). specialize (H H3). inversion H2; subst; [econstructor; eauto|].
    specialize (H _ T_Unit). inversion H; subst. exact H2.
  - apply Forall_cons_iff in H as [H2 H3]. apply Forall_cons_iff in H3 as [H3 _].
    assert (t = TN e) as -> by (inversion H0; subst; reflexivity). apply H3, H2, H0.
  - apply each_app in H1 as [A B]. constructor; auto.
Qed.
