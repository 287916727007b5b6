(** No [if let] and no [while let] node in a whole file. *)

From Coq Require Import String List NArith Arith Bool Lia.
From Verif Require Import Base Peresil Token Tokenizer TokenizerSpec TokenizerWhole.
From Verif Require Import Schema Value Nt Grammar Points Table Static Typing Safety Apportion Lib FileToks Items
  Whitespace WhitespaceOk Fresh Extents LibOk FileSpec SpanSpec RustSpec DelimSpec LetSpec SpansFile Inv Level Kinds Counts.
Import ListNotations.
Local Open Scope string_scope.
Local Open Scope list_scope.
Local Open Scope nat_scope.

Lemma items_plain toks : plain_lengths toks -> forall n pm p items, items_loop toks n pm p = ItemsOk items -> Forall vok items.
Proof.
  intros PL. induction n as [|n IH]; intros pm p items R; [discriminate|]. cbn [items_loop] in R.
  match type of R with (if ?b then _ else _) = _ => destruct b end; [injection R as <-; constructor|].
  pose proof (run_plain toks (plain_counts toks PL) (parse_fuel (List.length toks)) item_grammar [] ltac:(vm_compute; reflexivity) ltac:(constructor) pm p I) as V.
  destruct (run table toks (parse_fuel (List.length toks)) item_grammar [] pm p) as [pm1 [q v|q e|w]] eqn:R1; cbn [finish] in R.
  - destruct (off p <? off q); [|discriminate].
    destruct (items_loop toks n pm1 q) as [items'| |] eqn:L; try discriminate. injection R as <-. constructor; [apply V|eauto].
  - destruct (nth_error toks _); discriminate.
  - discriminate.
Qed.

Lemma part_kinds w v : part_of w v -> incl (kinds w) (kinds v).
Proof.
  induction 1 as [|v P IH|e t v P IH|a b P IH|a b P IH|v l I P IH|v k fs I P IH]; intros k0 K; cbn [kinds]; auto.
  - apply in_or_app; left; auto.
  - apply in_or_app; right; auto.
  - apply in_flat_map. exists v. auto.
  - right. apply in_flat_map. exists v. auto.
Qed.

Theorem file_plain X code f ts : xid_sane X -> parse_rust_file X code = FileOk f -> tokenize X code = TokOk ts ->
  plain_lengths (filter significant ts) ->
  forall k fs, part_of (VNode k fs) (strip f) -> plain k = true.
Proof.
  intros XS E TK PL k fs PO. pose proof (parse_rust_file_ok X code XS) as H. rewrite E in H. destruct H as (ts' & parsed & T & P & F).
  assert (ts' = ts) as -> by congruence.
  destruct (partition_tokens ts []) as [ws toks] eqn:PT.
  destruct (tokens_wf _ _ _ _ _ XS T PT) as [WF WI].
  assert (toks = filter significant ts) as TE by (now rewrite <- (partition_filter ts []), PT). rewrite <- TE in *.
  pose proof (parse_items_ok toks WF (blen code) WI) as H. rewrite P in H. destruct H as (_ & Ty & _).
  destruct F. rewrite fo_strip in PO.
  rewrite strip_node in PO. change (fields_of "File") with [("items", TList (TN "Attributed<Item>"), true); ("whitespace", TList (TN "Whitespace"), true)] in PO.
  cbn [strip_fields] in PO. cbn [strip String.eqb Ascii.eqb Bool.eqb] in PO.
  assert (M : map strip parsed = parsed).
  { rewrite <- (map_id parsed) at 2. apply map_ext_in. intros x Hx. rewrite Forall_forall in *. eapply free_strip; eauto. }
  rewrite M in PO. apply part_kinds in PO. specialize (PO k ltac:(left; reflexivity)).
  pose proof (items_plain toks PL _ _ _ _ P) as V.
  cbn [kinds flat_map] in PO. destruct PO as [<-|PO]; [reflexivity|]. rewrite app_nil_r in PO.
  apply vok_list in V. unfold vok in V. rewrite Forall_forall in V. apply V. exact PO.
Qed.
