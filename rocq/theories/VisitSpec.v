(** What a traversal of an AST is, independently of how [Visit] is written. *)

From Coq Require Import String List Bool Arith Lia.
From Verif Require Import Base Token Schema Value Visit.
Import ListNotations.
Local Open Scope string_scope.
Local Open Scope list_scope.
Local Open Scope nat_scope.

(** One call of a visitor's method: [visit_k] on a node and its answer, or
    [exit_k]. *)
Inductive event : Type :=
| Enter (k : string) (v : val) (c : control)
| Leave (k : string) (v : val).

(** The fields that visitors do not descend into: the operators and other
    plain data that are not nodes, the qualifier of [pub(...)], and the
    whitespace of [Attributed]. *)
Definition skipped (k name : string) : bool :=
  existsb (fun p => String.eqb k (fst p) && String.eqb name (snd p))
    [("TypePointer", "kind"); ("Unary", "op"); ("Binary", "op"); ("RangeInclusive", "operator");
     ("PatternStruct", "wildcard"); ("PatternRangeInclusive", "operator");
     ("VisibilityPublic", "qualifier")]
  || is_attributed k && String.eqb name "whitespace".

(** The parts of a struct that are visited, in declaration order. *)
Definition visited_parts (k : string) (fs : list val) : list val :=
  map fst (filter (fun p => negb (skipped k (fst (fst (snd p)))))
                  (combine fs (match struct_fields k with Some f => f | None => [] end))).

(** [traversal prunes v log]: [log] is a traversal of [v].  A node is entered,
    its parts are traversed one after the other, and it is left; if the answer
    to entering is [Break], nothing happens in between, except that a struct
    whose type does not [prunes] ignores the answer.  Options and vectors are transparent. *)
Inductive traversal (prunes : string -> bool) : val -> list event -> Prop :=
| Tr_ext e : traversal prunes (VExt e) []
| Tr_bool b : traversal prunes (VBool b) []
| Tr_nat n : traversal prunes (VNat n) []
| Tr_point p : traversal prunes (VPoint p) []
| Tr_num n : traversal prunes (VNum n) []
| Tr_pair a b : traversal prunes (VPair a b) []
| Tr_unit : traversal prunes VUnit []
| Tr_none : traversal prunes VNone []
| Tr_some x log : traversal prunes x log -> traversal prunes (VSome x) log
| Tr_list l logs : Forall2 (traversal prunes) l logs -> traversal prunes (VList l) (concat logs)
| Tr_struct k fs c logs :
    (prunes k = true -> c = Continue) ->
    Forall2 (traversal prunes) (visited_parts k fs) logs ->
    traversal prunes (VNode k fs)
      (Enter k (VNode k fs) c :: concat logs ++ [Leave k (VNode k fs)])
| Tr_struct_break k fs :
    prunes k = true ->
    traversal prunes (VNode k fs) [Enter k (VNode k fs) Break; Leave k (VNode k fs)]
| Tr_enum k x p log :
    traversal prunes p log ->
    traversal prunes (VVar k x p) (Enter k (VVar k x p) Continue :: log ++ [Leave k (VVar k x p)])
| Tr_enum_break k x p :
    traversal prunes (VVar k x p) [Enter k (VVar k x p) Break; Leave k (VVar k x p)].

(** A visitor whose methods are called as the log says goes from state [s] to
    state [s'], and answers as the log says. *)
Inductive follows {S : Type} (enter : S -> string -> val -> S * control)
          (leave : S -> string -> val -> S) : S -> list event -> S -> Prop :=
| Fo_nil s : follows enter leave s [] s
| Fo_enter s s1 s2 k v c log :
    enter s k v = (s1, c) -> follows enter leave s1 log s2 ->
    follows enter leave s (Enter k v c :: log) s2
| Fo_leave s s2 k v log :
    follows enter leave (leave s k v) log s2 ->
    follows enter leave s (Leave k v :: log) s2.

(** Properly nested logs. *)
Inductive well_nested : list event -> Prop :=
| Ne_nil : well_nested []
| Ne_node k v c inside rest :
    well_nested inside -> well_nested rest ->
    well_nested (Enter k v c :: inside ++ Leave k v :: rest).

(** How many nodes satisfying [p] a value has, through visited fields. *)
Definition sum (l : list nat) : nat := fold_right plus 0 l.

Fixpoint count (p : string -> val -> bool) (v : val) {struct v} : nat :=
  match v with
  | VSome x => count p x
  | VList l => sum (map (count p) l)
  | VNode k fs =>
      (if p k v then 1 else 0) +
      (fix go (fs : list val) (fields : list (string * ty * bool)) : nat :=
         match fs, fields with
         | x :: fs', (name, _, _) :: fields' =>
             (if skipped k name then 0 else count p x) + go fs' fields'
         | _, _ => 0
         end) fs (match struct_fields k with Some f => f | None => [] end)
  | VVar k _ x => (if p k v then 1 else 0) + count p x
  | _ => 0
  end.

Definition enters (p : string -> val -> bool) (log : list event) : nat :=
  List.length (filter (fun e => match e with Enter k v _ => p k v | Leave _ _ => false end) log).
Definition leaves (p : string -> val -> bool) (log : list event) : nat :=
  List.length (filter (fun e => match e with Enter _ _ _ => false | Leave k v => p k v end) log).

(** * Proofs *)

Definition flags_ok : bool :=
  forallb (fun s => forallb (fun f => Bool.eqb (snd f) (negb (skipped (fst s) (fst (fst f))))) (snd s))
          (structs ++ internal_structs).

Lemma assoc_in {A} k (l : list (string * A)) a : assoc k l = Some a -> In (k, a) l.
Proof.
  induction l as [|[k' a'] l IH]; simpl; [discriminate|].
  destruct (String.eqb_spec k k') as [->|_]; [intros [= ->]; left; reflexivity|].
  intros H. right. exact (IH H).
Qed.

Lemma flag_skipped k fields :
  struct_fields k = Some fields -> Forall (fun f => snd f = negb (skipped k (fst (fst f)))) fields.
Proof.
  intros H.
  assert (Hok : flags_ok = true) by (vm_compute; reflexivity).
  unfold flags_ok in Hok. rewrite forallb_forall in Hok.
  specialize (Hok _ (assoc_in _ _ _ H)). cbn [fst snd] in Hok.
  rewrite forallb_forall in Hok. apply Forall_forall. intros f Hf.
  apply Bool.eqb_prop. exact (Hok f Hf).
Qed.

Lemma follows_app {S} en le (s1 s2 s3 : S) l1 l2 :
  follows en le s1 l1 s2 -> follows en le s2 l2 s3 -> follows en le s1 (l1 ++ l2) s3.
Proof.
  induction 1; intros; cbn [app]; auto; econstructor; eauto.
Qed.

Section Proofs.
  Variable S : Type.
  Variable enter : S -> string -> val -> S * control.
  Variable leave : S -> string -> val -> S.
  Let visit := Visit.visit S enter leave.
  Let prunes := fun k => negb (is_attributed k).

  Definition visited_ok (v : val) : Prop :=
    forall s, exists log, traversal prunes v log /\ follows enter leave s log (visit v s).

  Lemma visit_list_ok l :
    Forall visited_ok l ->
    forall s, exists logs,
      Forall2 (traversal prunes) l logs /\
      follows enter leave s (concat logs)
        ((fix go (l : list val) (s : S) : S :=
            match l with [] => s | x :: l' => go l' (visit x s) end) l s).
  Proof.
    induction 1 as [|x l Hx _ IH]; intros s; [exists []; split; constructor|].
    destruct (Hx s) as (lg & H1 & H2), (IH (visit x s)) as (logs & H3 & H4).
    exists (lg :: logs). split; [constructor; assumption|].
    cbn [concat]. eapply follows_app; eassumption.
  Qed.

  Lemma visit_fields_ok k fs :
    Forall visited_ok fs ->
    forall fields, Forall (fun f : string * ty * bool => snd f = negb (skipped k (fst (fst f)))) fields ->
    forall s, exists logs,
      Forall2 (traversal prunes)
        (map fst (filter (fun p : val * (string * ty * bool) =>
                            negb (skipped k (fst (fst (snd p))))) (combine fs fields))) logs /\
      follows enter leave s (concat logs)
        ((fix go (fs : list val) (fields : list (string * ty * bool)) (s : S) : S :=
           match fs, fields with
           | x :: fs', (_, _, visited) :: fields' => go fs' fields' (if visited then visit x s else s)
           | _, _ => s
           end) fs fields s).
  Proof.
    induction 1 as [|x fs Hx _ IH]; intros fields Hf s; [exists []; split; constructor|].
    destruct fields as [|[[name t] b] fields]; [exists []; split; constructor|].
    inversion Hf as [|? ? Hb Hf']; subst. cbn [fst snd] in Hb. subst b.
    cbn [combine filter fst snd].
    destruct (negb (skipped k name)) eqn:E.
    - destruct (Hx s) as (lg & H1 & H2), (IH fields Hf' (visit x s)) as (logs & H3 & H4).
      exists (lg :: logs). split; [constructor; assumption|].
      cbn [concat]. eapply follows_app; eassumption.
    - exact (IH fields Hf' s).
  Qed.

  Lemma visit_ok v : visited_ok v.
  Proof.
    induction v using val_ind'; intros s; try (exists []; split; constructor).
    - destruct (IHv s) as (lg & H1 & H2). exists lg. split; [constructor|]; assumption.
    - destruct (visit_list_ok l H s) as (logs & H1 & H2).
      exists (concat logs). split; [constructor|]; assumption.
    - set (fields := match struct_fields k with Some f => f | None => [] end).
      assert (Hf : Forall (fun f => snd f = negb (skipped k (fst (fst f)))) fields).
      { unfold fields. destruct (struct_fields k) eqn:E; [exact (flag_skipped _ _ E)|constructor]. }
      destruct (enter s k (VNode k fs)) as [s1 c] eqn:E.
      destruct (visit_fields_ok k fs H fields Hf s1) as (logs & H1 & H2).
      assert (Hv : visit (VNode k fs) s =
        let children := (fix go (fs : list val) (fields : list (string * ty * bool)) (s : S) : S :=
           match fs, fields with
           | x :: fs', (_, _, visited) :: fields' => go fs' fields' (if visited then visit x s else s)
           | _, _ => s
           end) fs fields in
        leave (if is_attributed k then children s1
          else match c with Continue => children s1 | Break => s1 end) k (VNode k fs)).
      { unfold visit at 1. cbn [Visit.visit]. rewrite E. reflexivity. }
      rewrite Hv. cbv zeta. clear Hv.
      destruct (is_attributed k) eqn:Ea; [|destruct c].
      + exists (Enter k (VNode k fs) c :: concat logs ++ [Leave k (VNode k fs)]).
        split; [constructor; [unfold prunes; rewrite Ea; discriminate|exact H1]|].
        econstructor; [exact E|]. eapply follows_app; [exact H2|]. repeat constructor.
      + exists (Enter k (VNode k fs) Continue :: concat logs ++ [Leave k (VNode k fs)]).
        split; [constructor; [reflexivity|exact H1]|].
        econstructor; [exact E|]. eapply follows_app; [exact H2|]. repeat constructor.
      + eexists. split; [apply Tr_struct_break; unfold prunes; rewrite Ea; reflexivity|].
        econstructor; [exact E|]. repeat constructor.
    - destruct (enter s e (VVar e v v0)) as [s1 c] eqn:E.
      destruct (IHv s1) as (lg & H1 & H2).
      assert (Hv : visit (VVar e v v0) s =
                   leave (match c with Continue => visit v0 s1 | Break => s1 end) e (VVar e v v0)).
      { unfold visit at 1. cbn [Visit.visit]. rewrite E. reflexivity. }
      rewrite Hv. destruct c.
      + exists (Enter e (VVar e v v0) Continue :: lg ++ [Leave e (VVar e v v0)]).
        split; [constructor; exact H1|].
        econstructor; [exact E|]. eapply follows_app; [exact H2|]. repeat constructor.
      + eexists. split; [apply Tr_enum_break|].
        econstructor; [exact E|]. repeat constructor.
  Qed.
End Proofs.

Definition leaf (v : val) : bool :=
  match v with VSome _ | VList _ | VNode _ _ | VVar _ _ _ => false | _ => true end.

Lemma traversal_ind' (prunes : string -> bool) (P : val -> list event -> Prop) :
  (forall v, leaf v = true -> P v []) ->
  (forall x log, P x log -> P (VSome x) log) ->
  (forall l logs, Forall2 (traversal prunes) l logs -> Forall2 P l logs -> P (VList l) (concat logs)) ->
  (forall k fs c logs, (prunes k = true -> c = Continue) ->
     Forall2 (traversal prunes) (visited_parts k fs) logs ->
     Forall2 P (visited_parts k fs) logs ->
     P (VNode k fs) (Enter k (VNode k fs) c :: concat logs ++ [Leave k (VNode k fs)])) ->
  (forall k fs, prunes k = true ->
     P (VNode k fs) [Enter k (VNode k fs) Break; Leave k (VNode k fs)]) ->
  (forall k x p log, P p log ->
     P (VVar k x p) (Enter k (VVar k x p) Continue :: log ++ [Leave k (VVar k x p)])) ->
  (forall k x p, P (VVar k x p) [Enter k (VVar k x p) Break; Leave k (VVar k x p)]) ->
  forall v log, traversal prunes v log -> P v log.
Proof.
  intros H0 H1 H2 H3 H4 H5 H6.
  fix go 3. intros v log H. destruct H; try (apply H0; reflexivity).
  - apply H1, go. assumption.
  - apply H2; [assumption|]. induction H; constructor; auto.
  - apply H3; [assumption|assumption|]. clear - go H7. induction H7; constructor; auto.
  - apply H4. assumption.
  - apply H5, go. assumption.
  - apply H6.
Qed.

Lemma nested_app a b : well_nested a -> well_nested b -> well_nested (a ++ b).
Proof.
  intros Ha Hb. induction Ha; [exact Hb|].
  cbn [app]. rewrite <- app_assoc. cbn [app]. constructor; assumption.
Qed.

Lemma nested_concat logs : Forall well_nested logs -> well_nested (concat logs).
Proof. induction 1; [constructor|]. cbn [concat]. apply nested_app; assumption. Qed.

Lemma forall2_right {A B} (P : B -> Prop) (l : list A) (l' : list B) :
  Forall2 (fun _ b => P b) l l' -> Forall P l'.
Proof. induction 1; constructor; auto. Qed.

Lemma traversal_nested prunes v log : traversal prunes v log -> well_nested log.
Proof.
  revert v log. apply (traversal_ind' prunes (fun _ log => well_nested log)).
  - constructor.
  - auto.
  - intros l logs _ H. apply nested_concat, (forall2_right _ _ _ H).
  - intros k fs c logs _ _ H. apply (Ne_node k (VNode k fs) c (concat logs) []); [|constructor].
    apply nested_concat, (forall2_right _ _ _ H).
  - intros k fs _. apply (Ne_node k (VNode k fs) Break [] []); constructor.
  - intros k x p log H. apply (Ne_node k (VVar k x p) Continue log []); [exact H|constructor].
  - intros k x p. apply (Ne_node k (VVar k x p) Break [] []); constructor.
Qed.

(** Counting. *)
Lemma enters_app p a b : enters p (a ++ b) = enters p a + enters p b.
Proof. unfold enters. rewrite filter_app, app_length. reflexivity. Qed.
Lemma leaves_app p a b : leaves p (a ++ b) = leaves p a + leaves p b.
Proof. unfold leaves. rewrite filter_app, app_length. reflexivity. Qed.

Lemma nested_balanced p log : well_nested log -> enters p log = leaves p log.
Proof.
  induction 1 as [|k v c inside rest _ IH1 _ IH2]; [reflexivity|].
  change (Enter k v c :: inside ++ Leave k v :: rest)
    with ([Enter k v c] ++ inside ++ [Leave k v] ++ rest).
  rewrite !enters_app, !leaves_app, IH1, IH2. unfold enters, leaves. cbn [filter].
  destruct (p k v); cbn [List.length]; lia.
Qed.

Definition continues (log : list event) : Prop :=
  Forall (fun e => match e with Enter _ _ c => c = Continue | Leave _ _ => True end) log.

Lemma continues_concat logs : continues (concat logs) <-> Forall continues logs.
Proof.
  unfold continues. induction logs as [|l logs IH]; cbn [concat]; [split; constructor|].
  rewrite Forall_app, IH. split; [intros [A B]; constructor; assumption|intros H; inversion H; auto].
Qed.

Lemma enters_concat p logs : enters p (concat logs) = sum (map (enters p) logs).
Proof. induction logs as [|l logs IH]; [reflexivity|]. cbn [concat map sum fold_right]. rewrite enters_app, IH. reflexivity. Qed.

Lemma count_fields p k fs fields :
  (fix go (fs : list val) (fields : list (string * ty * bool)) : nat :=
         match fs, fields with
         | x :: fs', (name, _, _) :: fields' =>
             (if skipped k name then 0 else count p x) + go fs' fields'
         | _, _ => 0
         end) fs fields =
  sum (map (count p) (map fst (filter (fun q : val * (string * ty * bool) =>
         negb (skipped k (fst (fst (snd q))))) (combine fs fields)))).
Proof.
  revert fields. induction fs as [|x fs IH]; intros [|[[name t] b] fields]; try reflexivity.
  cbn [combine filter fst snd]. destruct (skipped k name); cbn [negb map sum fold_right fst]; rewrite IH; reflexivity.
Qed.

Lemma count_node p k fs :
  count p (VNode k fs) = (if p k (VNode k fs) then 1 else 0) + sum (map (count p) (visited_parts k fs)).
Proof. cbn [count]. rewrite count_fields. reflexivity. Qed.

Lemma sum_map_eq {A B} (f : A -> nat) (g : B -> nat) l l' :
  Forall2 (fun b a => f a = g b) l' l -> sum (map f l) = sum (map g l').
Proof. induction 1 as [|b a l' l H _ IH]; [reflexivity|]. unfold sum in *. cbn [map fold_right]. rewrite H, IH. reflexivity. Qed.

Lemma traversal_count prunes p v log :
  traversal prunes v log -> continues log -> enters p log = count p v.
Proof.
  revert v log. apply (traversal_ind' prunes (fun v log => continues log -> enters p log = count p v)).
  - intros v Hv _. destruct v; try reflexivity; discriminate.
  - intros x log IH H. exact (IH H).
  - intros l logs _ IH H. apply continues_concat in H. cbn [count]. rewrite enters_concat.
    apply sum_map_eq. clear - IH H. induction IH; constructor; inversion H; auto.
  - intros k fs c logs _ _ IH H. rewrite count_node.
    inversion H as [|? ? _ H']; subst. apply Forall_app in H'. destruct H' as [H' _].
    apply continues_concat in H'.
    change (Enter k (VNode k fs) c :: concat logs ++ [Leave k (VNode k fs)])
      with ([Enter k (VNode k fs) c] ++ concat logs ++ [Leave k (VNode k fs)]).
    rewrite !enters_app, enters_concat.
    rewrite (sum_map_eq (enters p) (count p) logs (visited_parts k fs)).
    + unfold enters. cbn [filter]. destruct (p k (VNode k fs)); cbn [List.length]; lia.
    + clear - IH H'. induction IH; constructor; inversion H'; auto.
  - intros k fs _ H. inversion H; discriminate.
  - intros k x v log IH H. cbn [count].
    inversion H as [|? ? _ H']; subst. apply Forall_app in H'. destruct H' as [H' _].
    change (Enter k (VVar k x v) Continue :: log ++ [Leave k (VVar k x v)])
      with ([Enter k (VVar k x v) Continue] ++ log ++ [Leave k (VVar k x v)]).
    rewrite !enters_app, (IH H').
    unfold enters. cbn [filter]. destruct (p k (VVar k x v)); cbn [List.length]; lia.
  - intros k x v H. inversion H; discriminate.
Qed.

(** The answers of the visitor determine the log. *)
Lemma follows_app_inv {S} en le l1 l2 (s s3 : S) :
  follows en le s (l1 ++ l2) s3 ->
  exists s2, follows en le s l1 s2 /\ follows en le s2 l2 s3.
Proof.
  revert s. induction l1 as [|e l1 IH]; intros s H; cbn [app] in H.
  - exists s. split; [constructor|exact H].
  - inversion H as [|? s1 ? k v c ? He Hf|? ? k v ? Hf]; subst;
      destruct (IH _ Hf) as (s2 & A & B); exists s2; split; try exact B; econstructor; eassumption.
Qed.

Lemma follows_det {S} en le log (s a b : S) :
  follows en le s log a -> follows en le s log b -> a = b.
Proof.
  intros H. revert b. induction H; intros b Hb; inversion Hb; subst; auto.
  match goal with H1 : en ?s ?k ?v = _, H2 : en ?s ?k ?v = _ |- _ => rewrite H1 in H2; injection H2 as <- end.
  auto.
Qed.

Section Unique.
  Variable S : Type.
  Variable enter : S -> string -> val -> S * control.
  Variable leave : S -> string -> val -> S.
  Variable prunes : string -> bool.

  Let same (v : val) (l1 : list event) : Prop :=
    forall l2, traversal prunes v l2 ->
    forall s a b, follows enter leave s l1 a -> follows enter leave s l2 b -> l1 = l2.

  Lemma same_list l logs :
    Forall2 same l logs ->
    forall logs', Forall2 (traversal prunes) l logs' ->
    forall s a b, follows enter leave s (concat logs) a -> follows enter leave s (concat logs') b ->
    concat logs = concat logs'.
  Proof.
    induction 1 as [|x lg l logs Hx _ IH]; intros logs' H' s a b Ha Hb; inversion H'; subst; [reflexivity|].
    cbn [concat] in *.
    destruct (follows_app_inv _ _ _ _ _ _ Ha) as (a1 & A1 & A2).
    destruct (follows_app_inv _ _ _ _ _ _ Hb) as (b1 & B1 & B2).
    match goal with Ht : traversal prunes x ?y |- _ =>
      pose proof (Hx y Ht _ _ _ A1 B1) as E; subst y end.
    pose proof (follows_det _ _ _ _ _ _ A1 B1) as E1. subst b1.
    f_equal. eapply IH; eassumption.
  Qed.

  Lemma traversal_unique v l1 : traversal prunes v l1 -> same v l1.
  Proof.
    revert v l1. apply (traversal_ind' prunes same).
    - intros v Hv l2 H2 s a b _ _. destruct v; try discriminate; inversion H2; reflexivity.
    - intros x lg IH l2 H2. inversion H2; subst. apply IH. assumption.
    - intros l logs _ IH l2 H2 s a b Ha Hb. inversion H2; subst. eapply same_list; eassumption.
    - intros k fs c logs Hc _ IH l2 H2 s a b Ha Hb.
      inversion H2 as [| | | | | | | | | |? ? c' logs' Hc' Ht|? ? Hp| |]; subst;
        inversion Ha as [|? s1 ? ? ? ? ? He Hf|]; subst; inversion Hb as [|? s1' ? ? ? ? ? He' Hf'|]; subst;
        rewrite He in He'.
      + injection He' as <- <-.
        destruct (follows_app_inv _ _ _ _ _ _ Hf) as (a1 & A1 & A2).
        destruct (follows_app_inv _ _ _ _ _ _ Hf') as (b1 & B1 & B2).
        rewrite (same_list _ _ IH _ Ht _ _ _ A1 B1). reflexivity.
      + specialize (Hc Hp). congruence.
    - intros k fs Hp l2 H2 s a b Ha Hb.
      inversion H2 as [| | | | | | | | | |? ? c' logs' Hc' Ht|? ? Hp'| |]; subst; [|reflexivity].
      specialize (Hc' Hp). subst c'.
      inversion Ha as [|? s1 ? ? ? ? ? He Hf|]; subst; inversion Hb as [|? s1' ? ? ? ? ? He' Hf'|]; subst.
      rewrite He in He'. discriminate.
    - intros k x p lg IH l2 H2 s a b Ha Hb.
      inversion H2 as [| | | | | | | | | | | |? ? ? lg' Ht|]; subst;
        inversion Ha as [|? s1 ? ? ? ? ? He Hf|]; subst; inversion Hb as [|? s1' ? ? ? ? ? He' Hf'|]; subst;
        rewrite He in He'; try discriminate; injection He' as <-.
      destruct (follows_app_inv _ _ _ _ _ _ Hf) as (a1 & A1 & A2).
      destruct (follows_app_inv _ _ _ _ _ _ Hf') as (b1 & B1 & B2).
      rewrite (IH _ Ht _ _ _ A1 B1). reflexivity.
    - intros k x p l2 H2 s a b Ha Hb.
      inversion H2 as [| | | | | | | | | | | |? ? ? lg' Ht|]; subst; [|reflexivity].
      inversion Ha as [|? s1 ? ? ? ? ? He Hf|]; subst; inversion Hb as [|? s1' ? ? ? ? ? He' Hf'|]; subst.
      rewrite He in He'. discriminate.
  Qed.
End Unique.

(** A visitor that never answers [Break] to the types in [q] cannot tell
    whether they prune. *)
Lemma traversal_weaken (p q : string -> bool) v log :
  traversal p v log ->
  Forall (fun e => match e with Enter k _ c => p k = q k \/ c = Continue | Leave _ _ => True end) log ->
  traversal q v log.
Proof.
  revert v log. apply (traversal_ind' p (fun v log =>
    Forall (fun e => match e with Enter k _ c => p k = q k \/ c = Continue | Leave _ _ => True end) log ->
    traversal q v log)).
  - intros v Hv _. destruct v; try discriminate; constructor.
  - intros x lg IH H. constructor. exact (IH H).
  - intros l logs _ IH H. constructor. revert H. induction IH as [|x lg l logs Hx _ IH]; intros H; [constructor|].
    cbn [concat] in H. apply Forall_app in H. destruct H as [H1 H2]. constructor; [exact (Hx H1)|exact (IH H2)].
  - intros k fs c logs Hc _ IH H. inversion H as [|? ? Hk H']; subst. apply Forall_app in H'. destruct H' as [H' _].
    constructor; [destruct Hk as [<-|Hk]; auto|].
    revert H'. clear H. induction IH as [|x lg l logs Hx _ IH]; intros H; [constructor|].
    cbn [concat] in H. apply Forall_app in H. destruct H as [H1 H2]. constructor; [exact (Hx H1)|exact (IH H2)].
  - intros k fs Hp H. inversion H as [|? ? Hk H']; subst. destruct Hk as [Hk|Hk]; [|discriminate].
    apply Tr_struct_break. congruence.
  - intros k x w lg IH H. inversion H as [|? ? Hk H']; subst. apply Forall_app in H'. destruct H' as [H' _].
    constructor. exact (IH H').
  - intros k x w _. constructor.
Qed.

Lemma follows_answers {S} en le (A : string -> control -> Prop) (s s' : S) log :
  (forall s k v, A k (snd (en s k v))) ->
  follows en le s log s' ->
  Forall (fun e => match e with Enter k _ c => A k c | Leave _ _ => True end) log.
Proof.
  intros H. induction 1 as [|? ? ? k v c ? He _ IH|]; constructor; auto.
  specialize (H s k v). rewrite He in H. exact H.
Qed.

(** All values inside a value, whether visited or not. *)
Fixpoint parts (v : val) : list val :=
  v :: match v with
       | VSome x => parts x
       | VList l => flat_map parts l
       | VPair a b => parts a ++ parts b
       | VNode _ fs => flat_map parts fs
       | VVar _ _ p => parts p
       | _ => []
       end.

Definition is_node (k : string) (v : val) : bool :=
  match v with VNode k' _ | VVar k' _ _ => String.eqb k k' | _ => false end.

(** Every entry answered with [Break] is followed directly by the exit. *)
Fixpoint pruned (log : list event) : bool :=
  match log with
  | [] => true
  | Enter k _ Break :: log' =>
      match log' with Leave k' _ :: _ => String.eqb k k' | _ => false end && pruned log'
  | _ :: log' => pruned log'
  end.

Lemma pruned_app a b : pruned a = true -> pruned b = true -> pruned (a ++ b) = true.
Proof.
  induction a as [|[k v c|k v] a IH]; intros Ha Hb; [exact Hb| |]; cbn [app pruned] in *; [|auto].
  destruct c; [auto|]. apply andb_prop in Ha. destruct Ha as [H1 H2].
  destruct a as [|[k' v' c'|k' v'] a]; try discriminate. cbn [app] in *. rewrite H1, IH; auto.
Qed.

Lemma pruned_concat logs : Forall (fun l => pruned l = true) logs -> pruned (concat logs) = true.
Proof. induction 1; [reflexivity|]. cbn [concat]. apply pruned_app; assumption. Qed.

Lemma traversal_pruned v log : traversal (fun _ => true) v log -> pruned log = true.
Proof.
  revert v log. apply (traversal_ind' (fun _ => true) (fun _ log => pruned log = true)).
  - reflexivity.
  - auto.
  - intros l logs _ H. apply pruned_concat, (forall2_right _ _ _ H).
  - intros k fs c logs Hc _ H. rewrite (Hc eq_refl). cbn [pruned].
    apply pruned_app; [|reflexivity]. apply pruned_concat, (forall2_right _ _ _ H).
  - intros k fs _. cbn [pruned]. rewrite String.eqb_refl. reflexivity.
  - intros k x p log H. cbn [pruned]. apply pruned_app; [exact H|reflexivity].
  - intros k x p. cbn [pruned]. rewrite String.eqb_refl. reflexivity.
Qed.
