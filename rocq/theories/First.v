(** First sets of the grammar: a parser started at a token that none of its
    first tokens matches fails on the spot (or consumes nothing). *)

From Coq Require Import String List NArith Arith Bool Lia.
From Verif Require Import Base Peresil Token Schema Value Nt Grammar Points Table Static Amb Sem.
Import ListNotations.
Local Open Scope string_scope.
Local Open Scope list_scope.
Local Open Scope nat_scope.

(** Sets of tokens as bit masks: one bit per kind, one for numbers, and one for
    "any token". *)
Definition bit_any : N := 1%N.
Definition bit_number : N := 2%N.
Definition bit (k : tkind) : N := N.shiftl 4 (tkind_index k).
Definition mbit (m : matcher) : N := match m with MK k => bit k | MNumber => bit_number end.
Definition everything : N := N.ones 110.

(** What a token can be taken as. *)
Definition tbit (t : token) : N := match t with Tk k _ => bit k | TkNumber _ => bit_number end.

Definition offered_at (t : token) (n : nat) : N :=
  match split t n with Some (a, _) => tbit a | None => 0%N end.

Section Sets.
  Variable toks : list token.

  Definition offered (p : point) : N :=
    match nth_error toks (off p) with
    | None => bit_any
    | Some t =>
        match sub p with
        | None => N.lor bit_any (N.lor (tbit t) (offered_at t 0))
        | Some n =>
            match split t n with
            | Some (_, b) => N.lor bit_any (N.lor (tbit b) (offered_at t (S n)))
            | None => everything
            end
        end
    end.
End Sets.

(** * The static computation *)
Section First.
  Variable nl : nt -> bool.
  Variable ft : nt -> N.

  (** Whether a parser may succeed without consuming anything. *)
  Fixpoint nullable (x : g) : bool :=
    match x with
    | GTok _ _ => false
    | GNT n => nl n
    | GPoint | GOpt _ | GMany _ | GTailed _ _ _ | GResume _ _ | GImplicit _ _ | GNested _ _ => true
    | GSeq steps _ => forallb (fun s => nullable (snd s)) steps
    | GAlt gs => existsb nullable gs
    | GTailed1 _ f => nullable f
    | GExt x | GPeek x | GMapErr x _ | GSimple x _ | GAmb _ x | GIfMax _ x => nullable x
    | GIfAmb a b => nullable a || nullable b
    | GShunt _ => nl N_expression_prefix_or_atom
    end.

  Fixpoint first (x : g) : N :=
    match x with
    | GTok m _ => mbit m
    | GNT n => ft n
    | GPoint => 0%N
    | GSeq steps _ =>
        (fix go (steps : list (pat * g)) : N :=
           match steps with
           | [] => 0%N
           | (_, x) :: steps' => N.lor (first x) (if nullable x then go steps' else 0%N)
           end) steps
    | GAlt gs => fold_right (fun x s => N.lor (first x) s) 0%N gs
    | GOpt x | GExt x | GPeek x | GMapErr x _ | GSimple x _ | GAmb _ x | GIfMax _ x => first x
    | GMany x => if nullable x then everything else first x
    | GTailed _ _ f | GTailed1 _ f | GImplicit _ f => if nullable f then everything else first f
    | GResume sep _ => if nullable sep then everything else first sep
    | GNested _ _ => everything
    | GIfAmb a b => N.lor (first a) (first b)
    | GShunt _ => if nl N_expression_prefix_or_atom then everything else ft N_expression_prefix_or_atom
    end.
End First.

(** Least solutions of the two systems of equations, found by iteration; only
    that they are solutions matters below. *)
Definition null_list : list bool := Eval vm_compute in
  Nat.iter 12 (fun l => map (fun n => nullable (lookup false l) (table n)) all_nts) (map (fun _ => false) all_nts).
Definition null_nt : nt -> bool := lookup false null_list.

Definition first_list : list N := Eval vm_compute in
  Nat.iter 12 (fun l => map (fun n => first null_nt (lookup 0%N l) (table n)) all_nts) (map (fun _ => 0%N) all_nts).
Definition first_nt : nt -> N := lookup 0%N first_list.

Definition nullg : g -> bool := nullable null_nt.
Definition firstg : g -> N := first null_nt first_nt.

Lemma null_nt_ok n : nullg (table n) = null_nt n.
Proof.
  assert (B : forallb (fun n => Bool.eqb (nullg (table n)) (null_nt n)) all_nts = true) by (vm_compute; reflexivity).
  rewrite forallb_forall in B. apply eqb_prop, B, all_nts_complete.
Qed.

Lemma first_nt_ok n : firstg (table n) = first_nt n.
Proof.
  assert (B : forallb (fun n => N.eqb (firstg (table n)) (first_nt n)) all_nts = true) by (vm_compute; reflexivity).
  rewrite forallb_forall in B. apply N.eqb_eq, B, all_nts_complete.
Qed.

(** * Soundness *)
Definition disjoint (a b : N) : Prop := N.land a b = 0%N.

Lemma disjoint_lor a b c : disjoint (N.lor a b) c <-> disjoint a c /\ disjoint b c.
Proof.
  unfold disjoint. rewrite N.land_lor_distr_l. split; [intros H; apply N.lor_eq_0_iff in H; exact H|].
  intros [-> ->]. reflexivity.
Qed.

Lemma bit_pow k : bit k = (2 ^ (2 + tkind_index k))%N.
Proof. unfold bit. rewrite N.shiftl_mul_pow2, N.pow_add_r. reflexivity. Qed.

Lemma mbit_matches m t v : convert m t = Some v -> mbit m = tbit t.
Proof.
  destruct m as [k|], t as [k' x|n]; cbn; try discriminate.
  - destruct (tkind_eqb k k') eqn:E; [|discriminate]. apply tkind_eqb_eq in E. now subst.
  - reflexivity.
Qed.

Lemma mbit_nz m : mbit m <> 0%N.
Proof. destruct m as [k|]; cbn [mbit]; [|discriminate]. rewrite bit_pow. apply N.pow_nonzero. discriminate. Qed.

Lemma self_disjoint a b : N.land a (N.lor a b) = a.
Proof. rewrite N.land_comm. apply N.bits_inj. intros n. rewrite N.land_spec, N.lor_spec. now destruct (N.testbit a n), (N.testbit b n). Qed.

Section Sound.
  Variable toks : list token.
  Notation run := (run table toks).
  Notation offered := (offered toks).

  (** The outcome of a parser that finds none of its first tokens. *)
  Definition idle (x : g) (p : point) (r : presult) : Prop :=
    match r with
    | Success q _ => q = p /\ nullg x = true
    | Failure q _ => q = p
    | Abort _ => True
    end.

  Lemma tok_idle m err pm p : disjoint (mbit m) (offered p) ->
    match snd (tok toks m err pm p) with Success _ _ => False | Failure q _ => q = p | Abort _ => True end.
  Proof.
    unfold tok, Sem.at_, First.offered, disjoint, offered_at. intros D.
    destruct (nth_error toks (off p)) as [t|]; [|reflexivity].
    assert (C : forall t x y, N.land (mbit m) (N.lor bit_any (N.lor (N.lor x (tbit t)) y)) = 0%N -> convert m t = None).
    { clear. intros t x y H. destruct (convert m t) eqn:E; [|reflexivity]. exfalso. apply mbit_matches in E. rewrite <- E in H.
      apply (mbit_nz m). rewrite !N.land_lor_distr_r in H. rewrite N.land_diag in H.
      apply N.lor_eq_0_iff in H as [_ H]. apply N.lor_eq_0_iff in H as [H _]. apply N.lor_eq_0_iff in H as [_ H]. exact H. }
    destruct (sub p) as [n|]; cbn [sub_rank].
    - destruct (split t n) as [[a b]|] eqn:S; [|exact I].
      rewrite (C b 0%N (match split t (Datatypes.S n) with Some (a, _) => tbit a | None => 0%N end)) by (rewrite N.lor_0_l; exact D).
      destruct (split t (Datatypes.S n)) as [[a' b']|]; [|reflexivity].
      rewrite (C a' (tbit b) 0%N) by (rewrite N.lor_0_r; exact D). reflexivity.
    - rewrite (C t 0%N (match split t 0 with Some (a, _) => tbit a | None => 0%N end)) by (rewrite N.lor_0_l; exact D).
      destruct (split t 0) as [[a' b']|]; [|reflexivity].
      rewrite (C a' (tbit t) 0%N) by (rewrite N.lor_0_r; exact D). reflexivity.
  Qed.

  Lemma everything_offered p : ~ disjoint everything (offered p).
  Proof.
    unfold disjoint, First.offered. intros H.
    assert (A : forall x, N.land everything (N.lor bit_any x) <> 0%N).
    { intros x E. rewrite N.land_lor_distr_r in E. apply N.lor_eq_0_iff in E as [E _]. discriminate. }
    destruct (nth_error toks (off p)) as [t|]; [|discriminate].
    destruct (sub p); [destruct (split t n) as [[a b]|]|]; [now apply A in H|discriminate|now apply A in H].
  Qed.

  Lemma first_seq steps b p : disjoint (firstg (GSeq steps b)) (offered p) ->
    match steps with
    | [] => True
    | (_, x) :: steps' => disjoint (firstg x) (offered p) /\ (nullg x = true -> disjoint (firstg (GSeq steps' b)) (offered p))
    end.
  Proof.
    destruct steps as [|[q x] steps]; [auto|]. unfold firstg. cbn [first]. intros H. apply disjoint_lor in H as [H1 H2].
    split; [exact H1|]. intros N. unfold nullg in N. rewrite N in H2. exact H2.
  Qed.

  Lemma steps_idle m : (forall x e pm p, disjoint (firstg x) (offered p) -> idle x p (snd (run m x e pm p))) ->
    forall steps b e pm p, disjoint (firstg (GSeq steps b)) (offered p) ->
    idle (GSeq steps b) p (snd (run_steps toks (run m) steps b e pm p)).
  Proof.
    intros IH. induction steps as [|[q x] steps IHs]; intros b e pm p D; cbn [run_steps].
    - destruct (beval toks p e b); cbn; auto.
    - apply first_seq in D as [D1 D2]. specialize (IH x e pm p D1).
      destruct (run m x e pm p) as [pm1 [q1 v1|q1 er1|w1]]; cbn [snd idle] in *; auto.
      destruct IH as [-> N]. destruct (bind_pat q v1 e) as [e'|]; [|exact I].
      specialize (IHs b e' pm1 p (D2 N)). unfold idle in *. cbn [nullg nullable forallb] in *.
      destruct (snd (run_steps toks (run m) steps b e' pm1 p)); auto. destruct IHs as [-> K]. split; [reflexivity|].
      unfold nullg in *. cbn [nullable forallb snd] in *. rewrite N, K. reflexivity.
  Qed.

  Lemma alt_idle m e : (forall x e pm p, disjoint (firstg x) (offered p) -> idle x p (snd (run m x e pm p))) ->
    forall gs pm p cur, disjoint (firstg (GAlt gs)) (offered p) ->
    match cur with Success q _ => q = p | Failure q _ => q = p | Abort _ => True end ->
    match snd (alternate_from pt_lt recov cur (map (fun x => run m x e) gs) pm p) with
    | Success q _ => q = p /\ (match cur with Success _ _ => True | _ => nullg (GAlt gs) = true end)
    | Failure q _ => q = p | Abort _ => True end.
  Proof.
    intros IH. induction gs as [|x gs IHg]; intros pm p cur D C; cbn [map alternate_from].
    - destruct cur; cbn; auto.
    - destruct cur as [q v|q er|w]; cbn; auto. subst q. unfold firstg in D. cbn [first fold_right] in D. apply disjoint_lor in D as [D1 D2].
      specialize (IH x e pm p D1). destruct (run m x e pm p) as [pm1 r1]. cbn [snd] in IH.
      specialize (IHg (record_failure pt_lt pm1 p er) p r1 D2). unfold idle in IH.
      assert (K : match r1 with Success q _ => q = p | Failure q _ => q = p | Abort _ => True end) by (destruct r1; tauto).
      specialize (IHg K). destruct (snd (alternate_from _ _ _ _ _ _)); auto. destruct IHg as [E F]. split; [exact E|].
      unfold nullg. cbn [nullable existsb]. destruct r1 as [q1 v1|q1 er1|w1].
      + destruct IH as [_ N]. unfold nullg in N. now rewrite N.
      + unfold nullg in F. cbn [nullable] in F. rewrite F. apply orb_true_r.
      + unfold nullg in F. cbn [nullable] in F. rewrite F. apply orb_true_r.
  Qed.

  Theorem run_idle m : forall x e pm p, disjoint (firstg x) (offered p) -> idle x p (snd (run m x e pm p)).
  Proof.
    induction m as [|m IH]; intros x e pm p D; [destruct x; exact I|].
    destruct x as [mt err|nn| |steps b|gs|y|y|app sep f|sep f|sep f|sep f|o c|y|y|y err|y err|l y|err y|a b|stmt];
      cbn [Grammar.run].
    - unfold firstg in D. cbn [first] in D. pose proof (tok_idle mt err pm p D) as T.
      destruct (snd (tok toks mt err pm p)); cbn; auto. contradiction.
    - assert (D' : disjoint (firstg (table nn)) (offered p)) by (rewrite first_nt_ok; exact D).
      specialize (IH (table nn) [] pm p D'). unfold idle in *. rewrite null_nt_ok in IH. exact IH.
    - cbn. auto.
    - now apply steps_idle.
    - unfold alternate. destruct gs as [|x gs]; [exact I|]. cbn [map].
      unfold firstg in D. cbn [first fold_right] in D. apply disjoint_lor in D as [D1 D2].
      pose proof (IH x e pm p D1) as H. destruct (run m x e pm p) as [pm1 r1]. cbn [snd] in H. unfold idle in H.
      assert (K : match r1 with Success q _ => q = p | Failure q _ => q = p | Abort _ => True end) by (destruct r1; tauto).
      pose proof (alt_idle m e IH gs pm1 p r1 D2 K) as A. unfold idle.
      destruct (snd (alternate_from _ _ _ _ _ _)); auto. destruct A as [E F]. split; [exact E|].
      unfold nullg. cbn [nullable existsb]. destruct r1 as [q1 v1|q1 er1|w1].
      + destruct H as [_ N]. unfold nullg in N. now rewrite N.
      + unfold nullg in F. cbn [nullable] in F. rewrite F. apply orb_true_r.
      + unfold nullg in F. cbn [nullable] in F. rewrite F. apply orb_true_r.
    - specialize (IH y e pm p D). unfold map_p, optional. unfold idle in *.
      destruct (run m y e pm p) as [pm1 [q1 v1|q1 er1|w1]]; cbn [snd recov] in *; auto. tauto.
    - unfold firstg in D. cbn [first] in D. change (nullable null_nt y) with (nullg y) in D.
      destruct (nullg y) eqn:N; [now apply everything_offered in D|]. specialize (IH y e pm p D). unfold map_p, idle in *.
      destruct m as [|m]; [exact I|]. cbn [zero_or_more].
      destruct (run (S m) y e pm p) as [pm1 [q1 v1|q1 er1|w1]]; cbn [snd recov] in *; auto. destruct IH; congruence.
    - unfold firstg in D. cbn [first] in D. change (nullable null_nt f) with (nullg f) in D.
      destruct (nullg f) eqn:N; [now apply everything_offered in D|]. specialize (IH f e pm p D). unfold idle in *.
      destruct (beval toks p e app) as [[]|]; try exact I.
      destruct m as [|m]; [exact I|]. cbn [tailed_loop].
      destruct (run (S m) f e pm p) as [pm1 [q1 v1|q1 er1|w1]]; cbn [snd] in *; auto. destruct IH; congruence.
    - unfold firstg in D. cbn [first] in D. change (nullable null_nt f) with (nullg f) in D.
      destruct (nullg f) eqn:N; [now apply everything_offered in D|]. specialize (IH f e pm p D). unfold idle in *.
      unfold tailed1. destruct (run m f e pm p) as [pm1 [q1 v1|q1 er1|w1]]; cbn [snd] in *; auto. destruct IH; congruence.
    - unfold firstg in D. cbn [first] in D. change (nullable null_nt sep) with (nullg sep) in D.
      destruct (nullg sep) eqn:N; [now apply everything_offered in D|]. specialize (IH sep e pm p D). unfold idle in *.
      unfold resume. destruct (run m sep e pm p) as [pm1 [q1 v1|q1 er1|w1]]; cbn [snd] in *; auto. destruct IH; congruence.
    - unfold firstg in D. cbn [first] in D. change (nullable null_nt f) with (nullg f) in D.
      destruct (nullg f) eqn:N; [now apply everything_offered in D|]. specialize (IH f e pm p D). unfold idle in *.
      destruct m as [|m]; [exact I|]. cbn [implicit_loop].
      destruct (run (S m) f e pm p) as [pm1 [q1 v1|q1 er1|w1]]; cbn [snd] in *; auto. destruct IH; congruence.
    - now apply everything_offered in D.
    - specialize (IH y e pm p D). unfold idle in *.
      destruct (run m y e pm p) as [pm1 [q1 v1|q1 er1|w1]]; cbn [snd] in *; auto. destruct IH as [-> N].
      destruct (ex toks p p); cbn; auto.
    - specialize (IH y e pm p D). unfold idle, map_p, peek in *.
      destruct (run m y e pm p) as [pm1 [q1 v1|q1 er1|w1]]; cbn [snd] in *; auto. destruct IH as [-> N]. auto.
    - specialize (IH y e pm p D). unfold idle in *.
      destruct (run m y e pm p) as [pm1 [q1 v1|q1 er1|w1]]; cbn [snd] in *; auto.
    - specialize (IH y e pm p D). unfold idle in *.
      destruct (run m y e pm p) as [pm1 [q1 v1|q1 er1|w1]]; cbn [snd] in *; auto.
      destruct v1; cbn; auto. destruct (into_simple n); cbn; auto.
    - specialize (IH y e (set_amb pm l) p D). unfold idle, with_amb in *.
      destruct (run m y e (set_amb pm l) p) as [pm1 [q1 v1|q1 er1|w1]]; cbn [snd] in *; auto.
    - specialize (IH y e pm p D). unfold idle in *. destruct (is_maximum (m_state pm)); cbn; auto.
    - unfold firstg in D. cbn [first] in D. apply disjoint_lor in D as [D1 D2].
      pose proof (IH a e pm p D1) as IHa. pose proof (IH b e pm p D2) as IHb. unfold idle, nullg in *. cbn [nullable].
      destruct (is_ambiguous (m_state pm)).
      + destruct (snd (run m a e pm p)); auto. destruct IHa as [-> ->]. auto.
      + destruct (snd (run m b e pm p)); auto. destruct IHb as [-> ->]. split; [reflexivity|apply orb_true_r].
    - unfold firstg in D. cbn [first] in D.
      destruct (null_nt N_expression_prefix_or_atom) eqn:N; [now apply everything_offered in D|].
      assert (H := IH (GNT N_expression_prefix_or_atom) [] pm p D). unfold idle in *.
      destruct m as [|m]; [exact I|]. cbn [shunt_loop].
      destruct (run (S m) (GNT N_expression_prefix_or_atom) [] pm p) as [pm1 [q1 v1|q1 er1|w1]]; cbn [snd] in *; auto.
          destruct H as [_ H]. unfold nullg in H. cbn [nullable] in H. congruence.
  Qed.

  (** As rules. *)
  Theorem sem_idle a x e p : disjoint (firstg x) (offered p) -> nullg x = false -> sem toks a x e p (SFail p).
  Proof.
    intros D N m pm Ha. pose proof (run_idle m x e pm p D) as H. unfold idle in H.
    destruct (snd (run m x e pm p)) as [q v|q er|w]; cbn; [|congruence|auto]. destruct H; congruence.
  Qed.
End Sound.
