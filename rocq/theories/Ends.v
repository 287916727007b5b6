(** Which parsers end between two tokens, never inside a split one. *)

From Coq Require Import String List Arith Bool Lia.
From Verif Require Import Base Peresil Token Schema Value Nt Grammar Points Table Static.
Import ListNotations.
Local Open Scope nat_scope.

Section Ec.
  Variable nc : nt -> bool.

  Section EcSteps.
    Variable ec : bool -> g -> bool.
    Fixpoint ec_steps (c : bool) (steps : list (pat * g)) : bool :=
      match steps with
      | [] => c
      | (_, y) :: rest => ec_steps (ec c y) rest
      end.
  End EcSteps.

  (** Success ends between tokens; [c] says that the start is between tokens. *)
  Fixpoint ec (c : bool) (x : g) {struct x} : bool :=
    match x with
    | GTok m _ => whole_matcher m
    | GNT n => nc n
    | GPoint | GPeek _ => c
    | GSeq steps _ => ec_steps ec c steps
    | GAlt gs => forallb (ec c) gs
    | GOpt y => c && ec c y
    | GMany y => c && ec true y
    | GNested _ _ => true
    | GExt y | GMapErr y _ | GSimple y _ | GAmb _ y | GIfMax _ y => ec c y
    | GIfAmb a b => ec c a && ec c b
    | GTailed _ _ _ | GTailed1 _ _ | GResume _ _ | GImplicit _ _ | GShunt _ => false
    end.
End Ec.

Definition nc_list : list bool := Eval vm_compute in iter_b (fun nc => ec nc false).
Definition nc : nt -> bool := lookup false nc_list.
Definition tec := ec nc.

Lemma nc_ok n : nc n = true -> tec false (table n) = true.
Proof.
  assert (forallb (fun n => implb (nc n) (tec false (table n))) all_nts = true) as H by (vm_compute; reflexivity).
  rewrite forallb_forall in H. specialize (H n (all_nts_complete n)).
  destruct (nc n), (tec false (table n)); auto.
Qed.

Lemma item_ends : nc N_item = true.
Proof. reflexivity. Qed.

Section Ends.
  Variable toks : list token.

  Lemma tok_ends m err pm p pm' q v : whole_matcher m = true ->
    tok toks m err pm p = (pm', Success q v) -> sub q = None.
  Proof.
    intros W. unfold tok. destruct (nth_error toks (off p)) as [t|]; [|discriminate].
    match goal with |- match ?c with _ => _ end = _ -> _ => destruct c as [u|]; [|discriminate] end.
    destruct (convert m u) eqn:C.
    - intros [= <- <- <-]. reflexivity.
    - destruct (split t (sub_rank (sub p))) as [[a b]|] eqn:S; [|discriminate].
      destruct (split_spec _ _ _ _ S) as (ka & kb & -> & _ & SO & _).
      destruct m as [k|]; [|discriminate]. cbn [whole_matcher] in W.
      cbn [convert]. destruct (tkind_eqb k ka) eqn:E; [|discriminate].
      apply tkind_eqb_eq in E. subst ka. rewrite SO in W. discriminate.
  Qed.

  Definition ends_spec (n : nat) : Prop :=
    forall x c e pm p pm' q v, tec c x = true -> (c = true -> sub p = None) ->
      run table toks n x e pm p = (pm', Success q v) -> sub q = None.

  Lemma ends_weaken n x (H : ends_spec n) c c' e pm p pm' q v : tec c' x = c -> (c' = true -> sub p = None) ->
    run table toks n x e pm p = (pm', Success q v) -> c = true -> sub q = None.
  Proof. intros <- S R T. eapply H; eauto. Qed.

  Lemma steps_ends n b : ends_spec n -> forall steps c e pm p pm' q v,
    ec_steps tec c steps = true -> (c = true -> sub p = None) ->
    run_steps toks (run table toks n) steps b e pm p = (pm', Success q v) -> sub q = None.
  Proof.
    intros IH. induction steps as [|[pt y] steps IHs]; intros c e pm p pm' q v E S R.
    - cbn [ec_steps] in E. cbn [run_steps] in R. destruct (beval toks p e b); [|discriminate].
      injection R as <- <- <-. auto.
    - cbn [ec_steps] in E. cbn [run_steps] in R.
      destruct (run table toks n y e pm p) as [pm1 [r u|r er|w]] eqn:R1; try discriminate.
      destruct (bind_pat pt u e) as [e'|]; [|discriminate].
      eapply IHs; [exact E| |exact R]. intros T. eapply (IH y c); eauto.
  Qed.

  Lemma alt_ends (P : point -> Prop) (ps : list (gparser val)) p :
    (forall f pm pm' q v, In f ps -> f pm p = (pm', Success q v) -> P q) ->
    forall cur (pm pm' : pm_t) q v, (forall q v, cur = Success q v -> P q) ->
    alternate_from pt_lt recov cur ps pm p = (pm', Success q v) -> P q.
  Proof.
    induction ps as [|f ps IH]; intros H cur pm pm' q v C R; cbn [alternate_from] in R.
    - injection R as _ ->. eapply C; eauto.
    - destruct cur as [q' v'|q' er|w]; [injection R as _ -> _; eapply C; eauto| |discriminate].
      cbn [recov] in R.
      destruct (f pm p) as [pm1 r] eqn:F.
      refine (IH _ r _ _ q v _ R); [|intros q0 v0 ->; eapply H; [left; reflexivity|exact F]].
      intros f0 pm0 pm0' q0 v0 Hf. apply H. now right.
  Qed.

  Lemma many_ends (f : gparser val) :
    (forall pm p pm' q v, sub p = None -> f pm p = (pm', Success q v) -> sub q = None) ->
    forall k pm p pm' q l, sub p = None -> zero_or_more pt_lt recov k f pm p = (pm', Success q l) -> sub q = None.
  Proof.
    intros H k. induction k as [|k IH]; intros pm p pm' q l S R; [discriminate|].
    cbn [zero_or_more] in R. destruct (f pm p) as [pm1 [r u|r er|w]] eqn:F; [| |discriminate].
    - destruct (zero_or_more pt_lt recov k f pm1 r) as [pm2 [r2 l2|r2 e2|w]] eqn:Z; try discriminate.
      injection R as <- <- <-. eapply IH; [|exact Z]. eapply H; eauto.
    - destruct (recov er); [|discriminate]. now injection R as <- <- <-.
  Qed.

  Theorem ends_ok n : ends_spec n.
  Proof.
    induction n as [|n IH]; intros x c e pm p pm' q v E S R; [discriminate|].
    destruct x as [m err|nn| |steps b|gs|y|y|app sep f|sep f|sep f|sep f|o c'|y|y|y err|y err|l y|err y|a b|stmt];
      unfold tec in E; cbn [ec] in E; try discriminate; cbn [run] in R.
    - eapply tok_ends; eauto.
    - eapply (IH _ false); [apply nc_ok; exact E|discriminate|exact R].
    - injection R as <- <- <-. auto.
    - eapply steps_ends; eauto.
    - destruct gs as [|y gs]; [discriminate|]. cbn [map alternate] in R.
      destruct (run table toks n y e pm p) as [pm1 r] eqn:R1.
      change (forallb (tec c) (y :: gs) = true) in E. rewrite forallb_forall in E.
      eapply (alt_ends (fun q => sub q = None)); [| |exact R].
      + intros f pm0 pm0' q0 v0 Hf F. apply in_map_iff in Hf. destruct Hf as (z & <- & Hz).
        eapply (IH z c); eauto. apply E. now right.
      + intros q0 v0 ->. eapply (IH y c); eauto. apply E. now left.
    - apply andb_true_iff in E. destruct E as [E1 E2]. subst c. unfold map_p, optional in R.
      destruct (run table toks n y e pm p) as [pm1 [r u|r er|w]] eqn:R1; try discriminate.
      + injection R as <- <- <-. eapply (IH y true); eauto.
      + destruct (recov er); [|discriminate]. injection R as <- <- <-. auto.
    - apply andb_true_iff in E. destruct E as [E1 E2]. subst c. unfold map_p in R.
      destruct (zero_or_more pt_lt recov n (run table toks n y e) pm p) as [pm1 [r u|r er|w]] eqn:R1; try discriminate.
      injection R as <- <- <-. eapply many_ends; [ |apply S; reflexivity|exact R1].
      intros pm0 p0 pm0' q0 v0 S0. apply (IH y true); auto.
    - unfold nested in R. destruct (ex toks p _); [|discriminate]. now injection R as <- <- <-.
    - destruct (run table toks n y e pm p) as [pm1 [r u|r er|w]] eqn:R1; try discriminate.
      destruct (ex toks p r); [|discriminate]. injection R as <- <- <-. eapply (IH y c); eauto.
    - unfold map_p, peek in R. destruct (run table toks n y e pm p) as [pm1 [r u|r er|w]] eqn:R1; try discriminate.
      injection R as <- <- <-. auto.
    - destruct (run table toks n y e pm p) as [pm1 [r u|r er|w]] eqn:R1; try discriminate.
      injection R as <- <- <-. eapply (IH y c); eauto.
    - destruct (run table toks n y e pm p) as [pm1 [r u|r er|w]] eqn:R1; try discriminate.
      destruct u; try discriminate. destruct (into_simple n0); [|discriminate].
      injection R as <- <- <-. eapply (IH y c); eauto.
    - unfold with_amb in R. destruct (run table toks n y e (set_amb pm l) p) as [pm1 [r u|r er|w]] eqn:R1; try discriminate.
      injection R as <- <- <-. eapply (IH y c); eauto.
    - destruct (is_maximum (m_state pm)); [discriminate|]. eapply (IH y c); eauto.
    - apply andb_true_iff in E. destruct E as [E1 E2].
      destruct (is_ambiguous (m_state pm)); [eapply (IH a c); eauto|eapply (IH b c); eauto].
  Qed.
End Ends.
