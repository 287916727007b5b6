(** Where the tokens of a whole file are dropped. *)

From Coq Require Import String List NArith Arith Bool Lia.
From Verif Require Import Base Peresil Token Tokenizer TokenizerSpec TokenizerWhole.
From Verif Require Import Schema Value Nt Grammar Points Table Static Typing Safety Apportion Lib FileToks Items
  Whitespace WhitespaceOk Fresh Extents LibOk FileSpec SpanSpec Deriv DerivMono DerivOk SpansOk SpansDer SpansFile Split MarkSpec LandSpec Expect CoverSpec DropSpec Drops DropsOk DropsNeat DropsVals.
Import ListNotations.
Local Open Scope string_scope.
Local Open Scope list_scope.
Local Open Scope nat_scope.

Lemma file_neated toks : wf_toks toks -> (forall i n, nth_error toks i = Some (TkNumber n) -> num_ord n) ->
  forall p items, valid toks p -> file_der toks p items -> neat toks (VList items).
Proof.
  intros WF NUM p items V D. induction D as [p e E|p q v items D L SN Vq F IH]; [exact I|].
  cbn [neat fold_right]. split; [|exact (IH Vq)].
  apply (proj1 (neat_all toks WF NUM) _ _ _ _ _ D); [exact V|constructor|constructor|vm_compute; reflexivity].
Qed.

Theorem file_neat X code f : xid_sane X -> parse_rust_file X code = FileOk f ->
  exists ts, tokenize X code = TokOk ts /\ neat (filter significant ts) (strip f).
Proof.
  intros XS E. pose proof (parse_rust_file_ok X code XS) as H. rewrite E in H. destruct H as (ts & parsed & T & P & F).
  exists ts. split; [auto|].
  destruct (partition_tokens ts []) as [ws toks] eqn:PT.
  destruct (tokens_wf _ _ _ _ _ XS T PT) as [WF WI].
  assert (toks = filter significant ts) as TE by (now rewrite <- (partition_filter ts []), PT). rewrite <- TE in *.
  pose proof (parse_items_ok toks WF (blen code) WI) as H. rewrite P in H. destruct H as (_ & Ty & _).
  destruct F. rewrite fo_strip.
  assert (forall i n, nth_error toks i = Some (TkNumber n) -> num_ord n) as NUM.
  { intros i n Hn. apply nth_error_In in Hn. rewrite TE in Hn. apply filter_In in Hn as [Hn _]. eapply tokens_num; eauto. }
  pose proof (file_neated toks WF NUM _ _ (valid_zero _ WF) (parse_der _ _ WF P)) as L.
  rewrite strip_node. change (fields_of "File") with [("items", TList (TN "Attributed<Item>"), true); ("whitespace", TList (TN "Whitespace"), true)].
  cbn [strip_fields]. cbn [strip String.eqb Ascii.eqb Bool.eqb].
  assert (map strip parsed = parsed) as ->.
  { rewrite <- (map_id parsed) at 2. apply map_ext_in. intros x Hx. rewrite Forall_forall in *. eapply free_strip; eauto. }
  cbn [neat fold_right]. split; [split; [exact L|split; exact I]|]. split; intros N; vm_compute in N; discriminate.
Qed.

Lemma neat_part toks w v : part_of w v -> neat toks v -> neat toks w.
Proof.
  assert (forall (x : val) l, In x l -> fold_right (fun x P => neat toks x /\ P) True l -> neat toks x) as G.
  { intros x l. induction l as [|y l IH]; [intros []|]. cbn [fold_right]. intros [->|I] [A B]; auto. }
  induction 1 as [|v P IH|e t v P IH|a b P IH|a b P IH|v l I P IH|v k fs I P IH]; auto; cbn [neat].
  - intros [A _]. auto.
  - intros [_ A]. auto.
  - intros L. apply IH. eapply G; eauto.
  - intros (L & _). apply IH. eapply G; eauto.
Qed.
