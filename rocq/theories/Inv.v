(** What a run that succeeded consists of. *)

From Coq Require Import String List Arith Bool Lia.
From Verif Require Import Base Peresil Token Schema Value Nt Grammar Points Table Static Amb Sem.
Import ListNotations.
Local Open Scope string_scope.
Local Open Scope list_scope.
Local Open Scope nat_scope.

(** * Tokens that are never part of others *)
Definition pieces : list tkind := [KLeftAngle; KRightAngle; KGreaterThanOrEquals; KEquals; KPipe; KAmpersand].

Definition fails (r : presult) : Prop := exists q er, r = Failure q er.

Section Inv.
  Variable toks : list token.
  Notation run := (run table toks).

  Lemma tok_solid k err pm p pm' q v : existsb (tkind_eqb k) pieces = false ->
    tok toks (MK k) err pm p = (pm', Success q v) ->
    exists i x, p = at_ i /\ nth_error toks i = Some (Tk k x) /\ q = at_ (i + 1) /\ v = VExt x.
  Proof.
    intros N T. unfold tok in T. destruct p as [i [n|]]; cbn [off sub sub_rank] in T;
      destruct (nth_error toks i) as [t|] eqn:E; try discriminate.
    - exfalso. destruct (split t n) as [[a b]|] eqn:S; [|discriminate].
      assert (Z : forall m a b, split t m = Some (a, b) -> convert (MK k) a = None /\ convert (MK k) b = None).
      { clear -N. intros m a b S. destruct t as [k0 [s0 e0]|]; [|discriminate].
        destruct k0; destruct m as [|[|m]]; cbn in S; try discriminate; injection S as <- <-; destruct k; try discriminate N; split; reflexivity. }
      rewrite (proj2 (Z _ _ _ S)) in T. destruct (split t (Datatypes.S n)) as [[a' b']|] eqn:S'; [|discriminate].
      rewrite (proj1 (Z _ _ _ S')) in T. discriminate.
    - destruct t as [k0 x|]; [|cbn in T; discriminate]. cbn [convert] in T.
      destruct (tkind_eqb k k0) eqn:K.
      + injection T as <- <- <-. exists i, x. apply tkind_eqb_eq in K. subst k0. auto.
      + exfalso. destruct (split (Tk k0 x) 0) as [[a b]|] eqn:S; [|discriminate].
        destruct x as [s0 e0]. destruct k0; cbn in S; try discriminate; injection S as <- <-; destruct k; try discriminate N; discriminate T.
  Qed.

  Lemma tok_run n m err e pm p pm' q v : run n (GTok m err) e pm p = (pm', Success q v) -> tok toks m err pm p = (pm', Success q v).
  Proof. destruct n as [|n]; [discriminate|]. exact (fun H => H). Qed.

  Lemma steps_inv rn pt x steps b e pm p pm' q v :
    run_steps toks rn ((pt, x) :: steps) b e pm p = (pm', Success q v) ->
    exists pm1 q1 v1 e1, rn x e pm p = (pm1, Success q1 v1) /\ bind_pat pt v1 e = Some e1 /\
      run_steps toks rn steps b e1 pm1 q1 = (pm', Success q v).
  Proof.
    cbn [run_steps]. destruct (rn x e pm p) as [pm1 [q1 v1|q1 er1|w1]]; try discriminate.
    destruct (bind_pat pt v1 e) as [e1|] eqn:B; [|discriminate]. intros H. exists pm1, q1, v1, e1. auto.
  Qed.

  Lemma nt_inv m n e pm p pm' q v : run m (GNT n) e pm p = (pm', Success q v) ->
    exists k, m = S k /\ run k (table n) [] pm p = (pm', Success q v).
  Proof. destruct m as [|k]; [discriminate|]. intros H. exists k. auto. Qed.

  Lemma seq_inv m steps b e pm p pm' q v : run m (GSeq steps b) e pm p = (pm', Success q v) ->
    exists k, m = S k /\ run_steps toks (run k) steps b e pm p = (pm', Success q v).
  Proof. destruct m as [|k]; [discriminate|]. intros H. exists k. auto. Qed.

  Lemma keep m x e pm p pm' r : run m x e pm p = (pm', r) -> m_state pm' = m_state pm.
  Proof. apply keeps_eq, run_keeps. Qed.

  Lemma point_inv m e pm p pm' q v : run m GPoint e pm p = (pm', Success q v) -> pm' = pm /\ q = p /\ v = VPoint p.
  Proof. destruct m as [|m]; [discriminate|]. cbn [Grammar.run]. intros H. injection H as <- <- <-. auto. Qed.

  Lemma amb_inv m l x e pm p pm' q v : run m (GAmb l x) e pm p = (pm', Success q v) ->
    exists k pm1, m = S k /\ run k x e (set_amb pm l) p = (pm1, Success q v).
  Proof.
    destruct m as [|k]; [discriminate|]. cbn [Grammar.run]. unfold with_amb. intros H. exists k.
    destruct (run k x e (set_amb pm l) p) as [pm1 r] eqn:E. exists pm1. injection H as _ ->. auto.
  Qed.

  (** The alternative that succeeded, and those in front of it, which failed at the same level. *)
  Lemma alternate_inv k e p : forall gs cur pm pm' q v,
    alternate_from pt_lt recov cur (map (fun x => run k x e) gs) pm p = (pm', Success q v) ->
    cur = Success q v \/ fails cur /\ exists i x pm1 pm2, nth_error gs i = Some x /\ m_state pm1 = m_state pm /\
      run k x e pm1 p = (pm2, Success q v) /\
      forall j y, j < i -> nth_error gs j = Some y -> exists pm0, m_state pm0 = m_state pm /\ fails (snd (run k y e pm0 p)).
  Proof.
    induction gs as [|y gs IH]; intros cur pm pm' q v R; cbn [map alternate_from] in R; [injection R as _ ->; auto|].
    destruct cur as [q0 v0|q0 e0|w0]; cbn [recov] in R; [injection R as _ -> ->; auto| |discriminate].
    right. split; [unfold fails; eauto|]. destruct (run k y e pm p) as [pm1 r] eqn:E. pose proof (keep _ _ _ _ _ _ _ E) as K.
    apply IH in R as [->|(Fr & i & x & pm2 & pm3 & N & M & R & F)].
    - exists 0, y, pm, pm1. repeat split; auto. intros j z L. lia.
    - exists (S i), x, pm2, pm3. split; [exact N|split; [rewrite M; exact K|split; [exact R|]]]. intros [|j] z L Nz.
      + injection Nz as <-. exists pm. rewrite E. auto.
      + destruct (F j z ltac:(lia) Nz) as (pm0 & M0 & F0). exists pm0. split; [rewrite M0; exact K|exact F0].
  Qed.

  Lemma alt_inv k e p gs pm pm' q v : run (S k) (GAlt gs) e pm p = (pm', Success q v) ->
    exists i x pm1 pm2, nth_error gs i = Some x /\ m_state pm1 = m_state pm /\
      run k x e pm1 p = (pm2, Success q v) /\
      forall j y, j < i -> nth_error gs j = Some y -> exists pm0, m_state pm0 = m_state pm /\ fails (snd (run k y e pm0 p)).
  Proof.
    cbn [Grammar.run]. destruct gs as [|y gs]; [discriminate|]. cbn [map alternate]. intros R.
    destruct (run k y e pm p) as [pm1 r] eqn:E. pose proof (keep _ _ _ _ _ _ _ E) as K.
    apply alternate_inv in R as [->|(Fr & i & x & pm2 & pm3 & N & M & R & F)].
    - exists 0, y, pm, pm1. repeat split; auto. intros j z L. lia.
    - exists (S i), x, pm2, pm3. split; [exact N|split; [rewrite M; exact K|split; [exact R|]]]. intros [|j] z L Nz.
      + injection Nz as <-. exists pm. rewrite E. auto.
      + destruct (F j z ltac:(lia) Nz) as (pm0 & M0 & F0). exists pm0. split; [rewrite M0; exact K|exact F0].
  Qed.
End Inv.
