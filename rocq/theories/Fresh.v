(** The parser never builds whitespace entries. *)

From Coq Require Import String List Arith Bool Lia.
From Verif Require Import Base Peresil Token Schema Value Nt Grammar Points Table Static Typing Whitespace Closure.
Import ListNotations.
Local Open Scope string_scope.
Local Open Scope list_scope.
Local Open Scope nat_scope.

Definition wsfree (v : val) : Prop := whitespaces v = [].

Lemma free_list l : wsfree (VList l) <-> Forall wsfree l.
Proof.
  unfold wsfree. cbn [whitespaces]. induction l as [|x l IH]; cbn [flat_map]; [split; constructor|].
  split.
  - intros H. apply app_eq_nil in H. destruct H. constructor; [auto|]. now apply IH.
  - intros H. inversion H; subst. rewrite H2. now apply IH.
Qed.

Lemma free_node k fs : wsfree (VNode k fs) <-> Forall wsfree fs.
Proof. exact (free_list fs). Qed.

Lemma free_pair a b : wsfree (VPair a b) <-> wsfree a /\ wsfree b.
Proof.
  unfold wsfree. cbn [whitespaces]. split; [apply app_eq_nil|]. intros [-> ->]. reflexivity.
Qed.

Lemma free_var e v p : String.eqb e "Whitespace" = false -> wsfree p -> wsfree (VVar e v p).
Proof. unfold wsfree. cbn [whitespaces]. now intros ->. Qed.

Lemma free_payload e v p : wsfree (VVar e v p) -> wsfree p.
Proof. unfold wsfree. cbn [whitespaces]. destruct (String.eqb e "Whitespace"); [discriminate|auto]. Qed.

Lemma free_field f v x : wsfree v -> get_field f v = Some x -> wsfree x.
Proof.
  unfold get_field. destruct v as [| | | | | | | | | |k fs|]; try discriminate. intros H.
  destruct (struct_fields k) as [fields|]; [|discriminate].
  destruct (field_index f fields) as [i|]; [|discriminate]. intros N. apply free_node in H.
  rewrite Forall_forall in H. apply H. eapply nth_error_In; eauto.
Qed.

Theorem run_free toks n x e : gfree x = true -> Forall (fun y => whitespaces (snd y) = [] /\ points (snd y) = []) e ->
  forall pm p pm' q v, sub p = None -> run table toks n x e pm p = (pm', Success q v) -> wsfree v.
Proof.
  intros G E pm p pm' q v SP R.
  pose proof (run_closed toks (fun _ => True) (fun _ _ _ _ => I) (fun _ _ _ _ _ _ => conj I I)
                (fun _ _ _ _ _ _ => I) (fun _ _ _ _ => I) n x e G) as H.
  assert (efree toks (fun _ => True) e) as E'.
  { eapply Forall_impl; [|exact E]. intros y [A B]. split; [auto|]. rewrite B. split; [|constructor].
    apply Forall_forall. auto. }
  specialize (H E' pm p). rewrite R in H. apply H. intros k K. congruence.
Qed.
