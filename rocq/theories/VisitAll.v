(** Which nodes visitors reach: all but those below the skipped fields. *)

From Coq Require Import String List Bool Arith Lia.
From Verif Require Import Base Token Schema Value Visit VisitSpec.
Import ListNotations.
Local Open Scope string_scope.
Local Open Scope list_scope.
Local Open Scope nat_scope.

(** The kinds of nodes that occur below skipped fields. *)
Definition hidden : list string :=
  ["VisibilityPublicQualifier"; "Path"; "Ident"; "Whitespace"; "Comment";
   "UnaryOp"; "BinaryOp"; "RangeInclusiveOperator"; "TypePointerKind"].

(** How many nodes that satisfy [p] a value has, reached or not. *)
Definition occurs (p : string -> val -> bool) (w : val) : bool :=
  match w with VNode k _ | VVar k _ _ => p k w | _ => false end.
Definition occurrences (p : string -> val -> bool) (v : val) : nat := List.length (filter (occurs p) (parts v)).

(** * The types below a type *)

Fixpoint ty_ok (seen : string -> bool) (t : ty) : bool :=
  match t with
  | TOpt t | TList t => ty_ok seen t
  | TPair _ _ => false
  | TN k => seen k
  | _ => true
  end.

Definition in_hidden (k : string) : bool := existsb (String.eqb k) hidden.

Lemma hidden_closed :
  forallb (fun s => implb (in_hidden (fst s)) (forallb (fun f => ty_ok in_hidden (snd (fst f))) (snd s))) (structs ++ internal_structs) &&
  forallb (fun s => implb (in_hidden (fst s)) (forallb (fun f => match snd f with Some t => ty_ok in_hidden t | None => true end) (snd s))) (enums ++ internal_enums) &&
  forallb (fun s => forallb (fun f => ty_ok (fun _ => true) (snd (fst f)) && implb (skipped (fst s) (fst (fst f))) (ty_ok in_hidden (snd (fst f)))) (snd s)) (structs ++ internal_structs) &&
  forallb (fun s => forallb (fun f => match snd f with Some t => ty_ok (fun _ => true) t | None => true end) (snd s)) (enums ++ internal_enums) = true.
Proof. vm_compute. reflexivity. Qed.

Lemma assoc_all {A} (c : string * A -> bool) k l (a : A) : forallb c l = true -> assoc k l = Some a -> c (k, a) = true.
Proof. intros H E. rewrite forallb_forall in H. apply H. now apply assoc_in. Qed.

Section Hidden.
  Variable p : string -> val -> bool.
  Hypothesis P : forall k w, p k w = true -> in_hidden k = false.

  Lemma hidden_none v : forall t, typed v t -> ty_ok in_hidden t = true -> filter (occurs p) (parts v) = [].
  Proof.
    pose proof hidden_closed as HC. apply andb_true_iff in HC as [HC _]. apply andb_true_iff in HC as [HC _]. apply andb_true_iff in HC as [HS HE].
    assert (forall k w, in_hidden k = true -> p k w = false) as NP.
    { intros k w H. destruct (p k w) eqn:E; [|auto]. apply P in E. congruence. }
    induction v as [e|b|n|q|n| | |v IH|l IH|a b IHa IHb|k fs IH|en vn x IH] using val_ind'; intros t T H; cbn [parts filter occurs]; try reflexivity.
    - inversion T as [| | | | | | |? u Tv| | | | |]; subst. exact (IH _ Tv H).
    - inversion T as [| | | | | | | |? u Tl| | | |]; subst. cbn [ty_ok] in H. clear T. induction IH as [|v l Iv Il IHl]; [reflexivity|]. cbn [flat_map].
      rewrite filter_app, (Iv u), IHl; auto; [intros w Hw; apply Tl; now right|apply Tl; now left].
    - inversion T; subst. discriminate.
    - inversion T as [| | | | | | | | | |k' fs' fields S Tf| |]; subst. cbn [ty_ok] in H.
      assert (forallb (fun f => ty_ok in_hidden (snd (fst f))) fields = true) as F.
      { pose proof (assoc_all _ _ _ _ HS S) as Q. cbn [fst snd] in Q. now rewrite H in Q. }
      rewrite NP by exact H. clear T S HS HE. induction Tf as [|x f fs fields Hx Tf IHf]; [reflexivity|]. apply Forall_cons_iff in IH as [I1 I2].
      cbn [forallb] in F. apply andb_true_iff in F as [F1 F2]. cbn [flat_map]. rewrite filter_app, (I1 _ Hx F1), IHf; auto.
    - inversion T as [| | | | | | | | | | |e' n' p' vs' t' E' A' P'|e' n' vs' E' A']; subst; cbn [ty_ok] in H; rewrite NP by exact H; [|reflexivity].
      pose proof (assoc_all _ _ _ _ HE E') as Q. cbn [fst snd] in Q. rewrite H in Q. cbn [implb] in Q.
      pose proof (assoc_all _ _ _ _ Q A') as Q'. exact (IH _ P' Q').
  Qed.

  Theorem count_all v : forall t, typed v t -> ty_ok (fun _ => true) t = true -> count p v = occurrences p v.
  Proof.
    pose proof hidden_closed as HC. apply andb_true_iff in HC as [HC HE]. apply andb_true_iff in HC as [_ HS].
    induction v as [e|b|n|q|n| | |v IH|l IH|a b IHa IHb|k fs IH|en vn x IH] using val_ind'; intros t T H; try reflexivity.
    - inversion T as [| | | | | | |? u Tv| | | | |]; subst. exact (IH _ Tv H).
    - inversion T as [| | | | | | | |? u Tl| | | |]; subst. cbn [ty_ok] in H. clear T. unfold occurrences. cbn [count parts filter occurs].
      induction IH as [|v l Iv Il IHl]; [reflexivity|]. cbn [map sum fold_right flat_map]. rewrite filter_app, app_length.
      rewrite (Iv u), <- IHl; auto; [intros w Hw; apply Tl; now right|apply Tl; now left].
    - inversion T; subst. discriminate.
    - inversion T as [| | | | | | | | | |k' fs' fields S Tf| |]; subst. cbn [count]. unfold occurrences. cbn [parts filter occurs].
      pose proof (assoc_all _ _ _ _ HS S) as Q. cbn [fst snd] in Q. rewrite S.
      replace (List.length (if p k (VNode k fs) then VNode k fs :: filter (occurs p) (flat_map parts fs) else filter (occurs p) (flat_map parts fs)))
        with ((if p k (VNode k fs) then 1 else 0) + List.length (filter (occurs p) (flat_map parts fs))) by (destruct (p k (VNode k fs)); reflexivity).
      f_equal. clear T S HS HE. induction Tf as [|x [[f ft] fb] fs fields Hx Tf IHf]; [reflexivity|]. apply Forall_cons_iff in IH as [I1 I2].
      cbn [forallb fst snd] in Q. apply andb_true_iff in Q as [Q1 Q2]. apply andb_true_iff in Q1 as [Q0 Q1]. cbn [flat_map]. rewrite filter_app, app_length, <- (IHf I2 Q2).
      f_equal. cbn [fst snd] in Hx. destruct (skipped k f).
      + now rewrite (hidden_none _ _ Hx Q1).
      + exact (I1 _ Hx Q0).
    - cbn [count]. unfold occurrences. cbn [parts filter occurs].
      replace (List.length (if p en (VVar en vn x) then VVar en vn x :: filter (occurs p) (parts x) else filter (occurs p) (parts x)))
        with ((if p en (VVar en vn x) then 1 else 0) + occurrences p x) by (unfold occurrences; destruct (p en (VVar en vn x)); reflexivity).
      f_equal. inversion T as [| | | | | | | | | | |e' n' p' vs' t' E' A' P'|e' n' vs' E' A']; subst; [|reflexivity].
      pose proof (assoc_all _ _ _ _ HE E') as Q. cbn [fst snd] in Q. pose proof (assoc_all _ _ _ _ Q A') as Q'. exact (IH _ P' Q').
  Qed.
End Hidden.
