(** Where the tokens of a whole file are dropped: the constructs of which a part is
    read by a parser of its own too. *)

From Coq Require Import String List NArith Arith Bool Lia.
From Verif Require Import Base Peresil Token Tokenizer TokenizerSpec TokenizerWhole.
From Verif Require Import Schema Value Nt Grammar Points Table Static Typing Safety Apportion Lib FileToks Items
  Whitespace WhitespaceOk Fresh Extents LibOk FileSpec SpanSpec Deriv DerivMono DerivOk SpansOk SpansDer SpansFile Split MarkSpec LandSpec Expect CoverSpec DropSpec Drops DropsOk DropsNeat DropsVals DropsFile Origin DropsSplit.
Import ListNotations.
Local Open Scope string_scope.
Local Open Scope list_scope.
Local Open Scope nat_scope.

Lemma file_origed toks : wf_toks toks -> forall p items, valid toks p -> file_der toks p items -> orig toks (VList items).
Proof.
  intros WF p items V D. induction D as [p e E|p q v items D L SN Vq F IH]; [exact I|].
  cbn [orig fold_right]. split; [|exact (IH Vq)].
  apply (proj1 (orig_all toks WF) _ _ _ _ _ D); [exact V|constructor|vm_compute; reflexivity].
Qed.

Theorem file_orig X code f : xid_sane X -> parse_rust_file X code = FileOk f ->
  exists ts, tokenize X code = TokOk ts /\ wf_toks (filter significant ts) /\
    (forall i n, nth_error (filter significant ts) i = Some (TkNumber n) -> num_ord n) /\ orig (filter significant ts) (strip f).
Proof.
  intros XS E. pose proof (parse_rust_file_ok X code XS) as H. rewrite E in H. destruct H as (ts & parsed & T & P & F).
  exists ts. split; [auto|].
  destruct (partition_tokens ts []) as [ws toks] eqn:PT.
  destruct (tokens_wf _ _ _ _ _ XS T PT) as [WF WI].
  assert (toks = filter significant ts) as TE by (now rewrite <- (partition_filter ts []), PT). rewrite <- TE in *.
  split; [exact WF|]. split.
  { intros i n Hn. apply nth_error_In in Hn. rewrite TE in Hn. apply filter_In in Hn as [Hn _]. eapply tokens_num; eauto. }
  pose proof (parse_items_ok toks WF (blen code) WI) as H. rewrite P in H. destruct H as (_ & Ty & _).
  destruct F. rewrite fo_strip.
  pose proof (file_origed toks WF _ _ (valid_zero _ WF) (parse_der _ _ WF P)) as L.
  rewrite strip_node. change (fields_of "File") with [("items", TList (TN "Attributed<Item>"), true); ("whitespace", TList (TN "Whitespace"), true)].
  cbn [strip_fields]. cbn [strip String.eqb Ascii.eqb Bool.eqb].
  assert (map strip parsed = parsed) as ->.
  { rewrite <- (map_id parsed) at 2. apply map_ext_in. intros x Hx. rewrite Forall_forall in *. eapply free_strip; eauto. }
  cbn [orig fold_right]. split; [split; [exact L|split; exact I]|].
  intros n J. exfalso. assert (existsb (fun x => String.eqb "File" (fst x)) made = true) as Q; [|vm_compute in Q; discriminate].
  apply existsb_exists. exists ("File", n). split; [exact J|reflexivity].
Qed.

Lemma made_struct : In ("Struct", N_p_struct) made. Proof. vm_compute. tauto. Qed.
Lemma made_disambiguation : In ("Disambiguation", N_expr_disambiguation) made. Proof. vm_compute. tauto. Qed.
Lemma made_type_disambiguation : In ("TypeDisambiguation", N_typ_disambiguation) made. Proof. vm_compute. tauto. Qed.

Theorem file_frays X code f ts k fs : xid_sane X -> parse_rust_file X code = FileOk f -> tokenize X code = TokOk ts ->
  part_of (VNode k fs) (strip f) -> is_frayed k = true -> frays (filter significant ts) k fs.
Proof.
  intros XS E T P K. destruct (is_whole k) eqn:W.
  - destruct (file_neat X code f XS E) as (ts' & T' & H). rewrite T in T'. injection T' as <-.
    apply (neat_part _ _ _ P) in H. cbn [neat] in H. apply (proj1 (proj2 H)). now rewrite K, W.
  - destruct (file_orig X code f XS E) as (ts' & T' & WF & NUM & H). rewrite T in T'. injection T' as <-.
    apply (orig_part _ _ _ P) in H. cbn [orig] in H. destruct H as [_ H].
    unfold is_whole in W. apply negb_false_iff in W. cbn [split_up existsb] in W.
    destruct (String.eqb_spec k "Struct") as [->|_]; [|destruct (String.eqb_spec k "Disambiguation") as [->|_]; [|destruct (String.eqb_spec k "TypeDisambiguation") as [->|_]; [|discriminate]]].
    + destruct (H _ made_struct) as (p & q & V & D). exact (struct_frays _ WF NUM p q fs V D).
    + destruct (H _ made_disambiguation) as (p & q & V & D). exact (expr_disambiguation_frays _ WF NUM p q fs V D).
    + destruct (H _ made_type_disambiguation) as (p & q & V & D). exact (typ_disambiguation_frays _ WF NUM p q fs V D).
Qed.

Lemma made_type_function : In ("TypeFunction", N_typ_function) made. Proof. vm_compute. tauto. Qed.

Theorem file_amongst X code f ts fs : xid_sane X -> parse_rust_file X code = FileOk f -> tokenize X code = TokOk ts ->
  part_of (VNode "TypeFunction" fs) (strip f) -> amongst (filter significant ts) "arguments" "TypeFunction" fs.
Proof.
  intros XS E T P. destruct (file_orig X code f XS E) as (ts' & T' & WF & NUM & H). rewrite T in T'. injection T' as <-.
  apply (orig_part _ _ _ P) in H. cbn [orig] in H. destruct H as [_ H]. destruct (H _ made_type_function) as (p & q & V & D).
  exact (typ_function_among _ WF NUM p q fs V D).
Qed.
