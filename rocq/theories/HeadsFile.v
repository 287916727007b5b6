(** The heads of a whole file. *)

From Coq Require Import String List NArith Arith Bool Lia.
From Verif Require Import Base Peresil Token Tokenizer TokenizerSpec TokenizerWhole.
From Verif Require Import Schema Value Nt Grammar Points Table Static Typing Safety Apportion Lib FileToks Items
  Whitespace WhitespaceOk Fresh Extents LibOk FileSpec SpanSpec SpansFile HeadSpec Heads HeadsOk.
Import ListNotations.
Local Open Scope string_scope.
Local Open Scope list_scope.
Local Open Scope nat_scope.

Lemma items_headed toks : forall n pm p items, items_loop toks n pm p = ItemsOk items -> Forall (good false) items.
Proof.
  induction n as [|n IH]; intros pm p items R; [discriminate|]. cbn [items_loop] in R.
  match type of R with (if ?b then _ else _) = _ => destruct b end; [injection R as <-; constructor|].
  destruct (run table toks (parse_fuel (List.length toks)) item_grammar [] pm p) as [pm1 [q v|q e|w]] eqn:R1; cbn [finish] in R.
  - apply (run_heads toks _ (is_ambiguous (m_state pm)) [] item_grammar [] ltac:(destruct (is_ambiguous (m_state pm)); vm_compute; reflexivity) eok_nil _ _ _ _ _ eq_refl) in R1.
    apply concA_weak in R1. destruct (off p <? off q); [|discriminate].
    destruct (items_loop toks n pm1 q) as [items'| |] eqn:L; try discriminate. injection R as <-. constructor; eauto.
  - destruct (nth_error toks _); discriminate.
  - discriminate.
Qed.

Theorem file_headed X code f : xid_sane X -> parse_rust_file X code = FileOk f -> headed (strip f).
Proof.
  intros XS E. pose proof (parse_rust_file_ok X code XS) as H. rewrite E in H. destruct H as (ts & parsed & T & P & F).
  destruct (partition_tokens ts []) as [ws toks] eqn:PT.
  destruct (tokens_wf _ _ _ _ _ XS T PT) as [WF WI].
  assert (toks = filter significant ts) as TE by (now rewrite <- (partition_filter ts []), PT). rewrite <- TE in *.
  pose proof (parse_items_ok toks WF (blen code) WI) as H. rewrite P in H. destruct H as (_ & Ty & _).
  destruct F. rewrite fo_strip.
  rewrite strip_node. change (fields_of "File") with [("items", TList (TN "Attributed<Item>"), true); ("whitespace", TList (TN "Whitespace"), true)].
  cbn [strip_fields]. cbn [strip String.eqb Ascii.eqb Bool.eqb].
  assert (map strip parsed = parsed) as ->.
  { rewrite <- (map_id parsed) at 2. apply map_ext_in. intros x Hx. rewrite Forall_forall in *. eapply free_strip; eauto. }
  apply (neutral_all false "File" _ eq_refl). constructor; [apply good_list|constructor; [apply good_list; constructor|constructor]].
  eapply items_headed. exact P.
Qed.
