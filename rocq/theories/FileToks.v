(** The tokens of a file, and what remains of them after the whitespace is
    taken out, are a well-formed token array for the parser. *)

From Coq Require Import String List Arith Bool Lia Sorted.
From Verif Require Import Base Peresil Token Tokenizer TokenizerSpec TokenizerWhole.
From Verif Require Import Schema Value Nt Grammar Points Table Apportion Lib.
Import ListNotations.
Local Open Scope list_scope.
Local Open Scope nat_scope.

Definition tok_fine (t : token) : Prop :=
  fst (token_extent t) <= snd (token_extent t) /\
  (forall n, split t n <> None -> fst (token_extent t) + n + 2 <= snd (token_extent t)) /\
  match t with
  | TkNumber n => Forall (inside (fst (n_extent n)) (snd (n_extent n))) (number_extents n)
  | Tk _ _ => True
  end.

Definition tok_le (t t' : token) : Prop := snd (token_extent t) <= fst (token_extent t').

Definition tok_within (lo hi : nat) (t : token) : Prop := lo <= fst (token_extent t) /\ snd (token_extent t) <= hi.

Lemma part_extent_inside lo o d w hi : lo <= o -> o + blen w <= hi -> (w <> [] -> d <= blen w) ->
  Forall (inside lo hi) (match part_extent o d w with Some e => [e] | None => [] end).
Proof.
  intros A B C. destruct w as [|c w]; [constructor|]. cbn [part_extent].
  assert (d <= blen (c :: w)) by (apply C; discriminate).
  repeat constructor; cbn [fst snd]; lia.
Qed.

Lemma number_token_inside X s off n rest : number_token X s off n rest ->
  exists w, s = w ++ rest /\ n_extent n = (off, off + blen w) /\
    Forall (inside off (off + blen w)) (number_extents n).
Proof.
  intros (rx & prefix & base & digits & frac & expo & suffix & -> & _ & _ & _ & _ & _ & _ & _ & ->).
  exists (prefix ++ digits ++ frac ++ expo ++ suffix).
  split; [now rewrite <- !app_assoc|]. split; [reflexivity|]. unfold number_extents.
  cbn [n_extent n_integral n_fractional n_exponent n_type_suffix]. cbv zeta.
  rewrite !blen_app in *.
  constructor; [unfold inside; cbn [fst snd]; lia|].
  constructor; [unfold inside; cbn [fst snd]; lia|].
  apply Forall_app. split; [apply part_extent_inside; lia|].
  apply Forall_app. split; apply part_extent_inside; try lia.
  intros H. destruct expo as [|c expo]; [congruence|]. pose proof (len_utf8_pos c). cbn [blen]. lia.
Qed.

Lemma token_at_fine X s off t rest : token_at X s off t rest ->
  exists w, s = w ++ rest /\ token_extent t = (off, off + blen w) /\ tok_fine t /\ is_kind KEndOfFile t = false.
Proof.
  intros H. destruct H as [k w rest -> L|n rest H].
  - exists w. split; [auto|]. split; [auto|]. split.
    + split; [cbn [token_extent fst snd]; lia|]. split; [|exact I]. intros n S. cbn [token_extent fst snd].
      destruct k; try (exfalso; apply S; reflexivity); destruct L as [-> _];
        destruct n as [|[|n]]; try (exfalso; apply S; reflexivity);
        match goal with |- context [blen ?s] => let v := eval vm_compute in (blen s) in change (blen s) with v end; lia.
    + destruct k; try reflexivity. exfalso. exact L.
  - destruct (number_token_inside _ _ _ _ _ H) as (w & E & X1 & F). exists w.
    split; [auto|]. cbn [token_extent]. split; [auto|]. split; [|reflexivity].
    unfold tok_fine. cbn [token_extent]. rewrite X1. cbn [fst snd]. split; [lia|]. split; [|auto].
    intros m S. exfalso. apply S. reflexivity.
Qed.

Lemma lexes_fine X s off ts : lexes X s off ts ->
  Forall tok_fine ts /\ StronglySorted tok_le ts /\ Forall (tok_within off (off + blen s)) ts /\
  exists init e, ts = init ++ [Tk KEndOfFile e] /\ Forall (fun t => is_kind KEndOfFile t = false) init.
Proof.
  induction 1 as [off|s off t rest ts NE T L (F & SS & W & init & e & E & NI)].
  - split; [|split; [|split]].
    + constructor; [|constructor]. split; [cbn; lia|]. split; [|exact I]. intros n S. exfalso. now apply S.
    + constructor; constructor.
    + constructor; [|constructor]. split; cbn; lia.
    + exists [], (off, off). split; [auto|constructor].
  - destruct (token_at_fine _ _ _ _ _ T) as (w & -> & X1 & TF & K). rewrite X1 in *. cbn [fst snd] in *.
    rewrite blen_app. split; [|split; [|split]].
    + now constructor.
    + constructor; [auto|]. eapply Forall_impl; [|exact W]. intros u [A B]. unfold tok_le. rewrite X1. exact A.
    + constructor.
      * split; rewrite X1; cbn [fst snd]; lia.
      * eapply Forall_impl; [|exact W]. intros u [A B]. split; lia.
    + exists (t :: init), e. rewrite E. split; [auto|]. now constructor.
Qed.

(** * Taking out the whitespace *)

Definition significant (t : token) : bool :=
  match whitespace_node t with Some _ => false | None => true end.

Lemma partition_filter ts : forall m, snd (partition_tokens ts m) = filter significant ts.
Proof.
  induction ts as [|t ts IH]; intros m; [reflexivity|]. cbn [partition_tokens filter]. unfold significant at 1.
  destruct (whitespace_node t) as [w|]; [apply IH|].
  specialize (IH m). destruct (partition_tokens ts m) as [m' l]. cbn [snd] in *. now rewrite IH.
Qed.

Lemma filter_sorted {A} (R : A -> A -> Prop) f l : StronglySorted R l -> StronglySorted R (filter f l).
Proof.
  induction 1 as [|x l S IH F]; cbn [filter]; [constructor|]. destruct (f x); [|auto].
  constructor; [auto|]. rewrite Forall_forall in *. intros y Hy. apply filter_In in Hy. apply F. tauto.
Qed.

Lemma sorted_nth {A} (R : A -> A -> Prop) l : StronglySorted R l ->
  forall i x y, nth_error l i = Some x -> nth_error l (S i) = Some y -> R x y.
Proof.
  induction 1 as [|a l SS IH F]; intros i x y Hx Hy; [destruct i; discriminate|].
  destruct i as [|i].
  - cbn in Hx, Hy. injection Hx as <-. rewrite Forall_forall in F. apply F.
    destruct l as [|b l]; [discriminate|]. injection Hy as <-. now left.
  - change (nth_error l i = Some x) in Hx. change (nth_error l (S i) = Some y) in Hy. eapply IH; eauto.
Qed.

Lemma wf_of_lists toks init e :
  Forall tok_fine toks -> StronglySorted tok_le toks ->
  toks = init ++ [Tk KEndOfFile e] -> Forall (fun t => is_kind KEndOfFile t = false) init -> wf_toks toks.
Proof.
  intros F SS E NI. rewrite Forall_forall in F.
  assert (forall i t, nth_error toks i = Some t -> tok_fine t) as FI.
  { intros i t H. apply F. eapply nth_error_In; eauto. }
  constructor.
  - intros i t H. apply (FI _ _ H).
  - apply (sorted_nth _ _ SS).
  - intros i t n H. apply (FI _ _ H).
  - intros i n H. apply (FI _ _ H).
  - intros i t H K. subst toks. rewrite app_length. cbn [List.length].
    destruct (lt_dec i (List.length init)) as [L|L].
    + rewrite nth_error_app1 in H by exact L. rewrite Forall_forall in NI.
      rewrite (NI t) in K; [discriminate|]. eapply nth_error_In; eauto.
    + rewrite nth_error_app2 in H by lia.
      destruct (i - List.length init) as [|j] eqn:D; [lia|]. destruct j; discriminate.
  - exists e. subst toks. rewrite app_length. cbn [List.length].
    replace (pred (List.length init + 1)) with (List.length init) by lia.
    rewrite nth_error_app2 by lia. now rewrite Nat.sub_diag.
Qed.

Theorem tokens_wf X code ts ws toks : xid_sane X -> tokenize X code = TokOk ts ->
  partition_tokens ts [] = (ws, toks) ->
  wf_toks toks /\ Forall (tok_within 0 (blen code)) toks.
Proof.
  intros XS T P. apply tokenize_iff in T; [|exact XS].
  destruct (lexes_fine _ _ _ _ T) as (F & SS & W & init & e & E & NI).
  assert (toks = filter significant ts) as -> by (now rewrite <- (partition_filter ts []), P).
  split.
  - apply (wf_of_lists _ (filter significant init) e).
    + apply Forall_forall. intros t Ht. apply filter_In in Ht. rewrite Forall_forall in F. now apply F.
    + now apply filter_sorted.
    + rewrite E, filter_app. reflexivity.
    + apply Forall_forall. intros t Ht. apply filter_In in Ht. rewrite Forall_forall in NI. now apply NI.
  - apply Forall_forall. intros t Ht. apply filter_In in Ht. rewrite Forall_forall in W.
    apply W. tauto.
Qed.
