(** The delimiters of a whole file. *)

From Coq Require Import String List NArith Arith Bool Lia.
From Verif Require Import Base Peresil Token Tokenizer TokenizerSpec TokenizerWhole.
From Verif Require Import Schema Value Nt Grammar Points Table Static Typing Safety Apportion Lib FileToks Items LibOk RustSpec Inv DelimSpec Delims.
Import ListNotations.
Local Open Scope string_scope.
Local Open Scope list_scope.
Local Open Scope nat_scope.

Lemma items_paired toks : forall n pm p items, items_loop toks n pm p = ItemsOk items ->
  exists q, reg toks p q /\ match nth_error toks (off q) with Some t => is_kind KEndOfFile t = true | None => True end.
Proof.
  induction n as [|n IH]; intros pm p items R; [discriminate|]. cbn [items_loop] in R.
  destruct (match nth_error toks (off p) with Some t => is_kind KEndOfFile t | None => true end) eqn:D.
  - exists p. split; [apply reg_refl|]. destruct (nth_error toks (off p)); [exact D|exact I].
  - destruct (run table toks (parse_fuel (List.length toks)) item_grammar [] pm p) as [pm1 [q v|q e|w]] eqn:R1; cbn [finish] in R.
    + pose proof (run_pairs toks (parse_fuel (List.length toks)) item_grammar [] PAll ltac:(vm_compute; reflexivity) pm p) as G.
      rewrite R1 in G. cbn [snd claim] in G. destruct (off p <? off q); [|discriminate].
      destruct (items_loop toks n pm1 q) as [items'| |] eqn:L; try discriminate.
      destruct (IH _ _ _ L) as (r & G2 & E). exists r. split; [eapply reg_trans; eauto|exact E].
    + match type of R with (match ?x with _ => _ end) = _ => destruct x; discriminate end.
    + discriminate.
Qed.

Theorem file_paired X code f : xid_sane X -> parse_rust_file X code = FileOk f ->
  exists ts, tokenize X code = TokOk ts /\ paired (filter significant ts).
Proof.
  intros XS E. pose proof (parse_rust_file_ok X code XS) as H. rewrite E in H. destruct H as (ts & parsed & T & P & _).
  exists ts. split; [exact T|]. unfold parse_items in P. apply items_paired in P as (q & [_ G] & D). cbn [off pt_zero] in G.
  apply tokenize_iff in T; [|exact XS]. destruct (lexes_fine _ _ _ _ T) as (_ & _ & _ & init & e & EI & NI).
  rewrite EI, filter_app in *. change (filter significant [Tk KEndOfFile e]) with [Tk KEndOfFile e] in *.
  assert (NI' : Forall (fun t => is_kind KEndOfFile t = false) (filter significant init)).
  { rewrite Forall_forall in *. intros t It. apply filter_In in It as [It _]. auto. }
  set (l := filter significant init) in *. unfold sl in G. cbn [skipn] in G. rewrite Nat.sub_0_r in G.
  destruct (Nat.lt_trichotomy (off q) (List.length l)) as [L|[L|L]].
  - exfalso. rewrite nth_error_app1 in D by exact L. destruct (nth_error l (off q)) as [t|] eqn:N.
    + rewrite Forall_forall in NI'. rewrite (NI' t (nth_error_In _ _ N)) in D. discriminate.
    + apply nth_error_None in N. lia.
  - rewrite firstn_app, L, Nat.sub_diag, firstn_all in G. cbn [firstn] in G. rewrite app_nil_r in G.
    apply paired_app; [exact G|]. apply PR_other; [reflexivity|constructor].
  - rewrite firstn_all2 in G; [exact G|]. rewrite app_length. cbn [List.length]. lia.
Qed.
