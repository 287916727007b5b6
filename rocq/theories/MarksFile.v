(** The marks of a whole file, on its tokens and on its text. *)

From Coq Require Import String List NArith Arith Bool Lia.
From Verif Require Import Base Peresil Token Tokenizer TokenizerSpec TokenizerWhole.
From Verif Require Import Schema Value Nt Grammar Points Table Static Typing Safety Apportion Lib FileToks Items
  Whitespace WhitespaceOk Fresh Extents LibOk FileSpec SpanSpec Deriv DerivMono DerivOk SpansOk SpansDer SpansFile Split MarkSpec Marks MarksOk.
Import ListNotations.
Local Open Scope string_scope.
Local Open Scope list_scope.
Local Open Scope nat_scope.

(** * Tokens and the text *)

Lemma token_text X code ts t : xid_sane X -> tokenize X code = TokOk ts -> In t ts ->
  t = Tk KEndOfFile (blen code, blen code) \/
  exists pre s rest, code = pre ++ s /\ token_at X s (blen pre) t rest.
Proof.
  intros XS T I. apply tokenize_iff in T; [|exact XS].
  assert (G : forall s off l, lexes X s off l -> In t l -> forall pre0, off = blen pre0 ->
    t = Tk KEndOfFile (blen (pre0 ++ s), blen (pre0 ++ s)) \/ exists pre s' rest, pre0 ++ s = pre ++ s' /\ token_at X s' (blen pre) t rest).
  { clear I T ts. intros s off l H. induction H as [off|s off t' rest l NE T L IH]; intros I pre0 ->.
    - destruct I as [<-|[]]. left. now rewrite app_nil_r.
    - destruct I as [<-|I]; [right; exists pre0, s, rest; auto|].
      destruct T as [k' w rest -> L'|n rest T].
      + cbn [token_extent snd] in *. rewrite <- blen_app in IH. specialize (IH I (pre0 ++ w) eq_refl). now rewrite <- app_assoc in IH.
      + destruct (number_token_inside _ _ _ _ _ T) as (w & -> & X1 & _). cbn [token_extent] in *. rewrite X1 in *. cbn [snd] in *.
        rewrite <- blen_app in IH. specialize (IH I (pre0 ++ w) eq_refl). now rewrite <- app_assoc in IH. }
  exact (G _ _ _ T I [] eq_refl).
Qed.

Lemma whole_spelled X code ts k a b : xid_sane X -> tokenize X code = TokOk ts -> In (Tk k (a, b)) ts -> spells X code (MK k) (a, b).
Proof.
  intros XS T I. destruct (token_text _ _ _ _ XS T I) as [[= -> -> ->]|(pre & s & rest & -> & A)]; [reflexivity|].
  inversion A as [k' w rest' -> L|]; subst. unfold spells.
  destruct (keyword_spelling k) as [sp|] eqn:K.
  - assert (w = str sp) as -> by (unfold lexical in L; rewrite K in L; tauto). destruct k; try discriminate; apply slice_app.
  - destruct (symbol_spelling k) as [sp|] eqn:S.
    + assert (w = str sp) as -> by (unfold lexical in L; rewrite K, S in L; tauto). destruct k; try discriminate; apply slice_app.
    + destruct k; try discriminate; try (exists pre, w, rest; now auto). destruct L.
Qed.

Lemma written_spelled X code ts m x : xid_sane X -> tokenize X code = TokOk ts -> written ts m x -> spells X code m x.
Proof.
  intros XS T W. destruct m as [k|]; cbn [written] in W.
  2:{ destruct W as (n & I & ->). destruct (token_text _ _ _ _ XS T I) as [H|(pre & s & rest & -> & A)]; [discriminate|].
      inversion A; subst. exists pre, s, n, rest. auto. }
  destruct W as (k' & s & e & ps & I & R & P). pose proof (whole_spelled _ _ _ _ _ _ XS T I) as H.
  destruct R as [<-|R]; [destruct P as [[= <- <-]|[]]; exact H|].
  destruct (token_text _ _ _ _ XS T I) as [[= -> _ _]|(pre & t & rest & -> & A)]; [destruct R|].
  inversion A as [k2 w rest' -> L|]; subst. clear -R P L.
    assert (S1 : forall c w r, len_utf8 c = 1 -> slice (pre ++ (c :: w) ++ r) (blen pre, blen pre + 1) = Some [c]).
    { intros c u r E1. pose proof (slice_app pre [c] (u ++ r)) as E. cbn [blen] in E. rewrite E1 in E. exact E. }
    assert (S2 : forall c w r, len_utf8 c = 1 ->
       slice (pre ++ (c :: w) ++ r) (blen pre + 1, blen pre + (1 + blen w)) = Some w).
    { intros c u r E1. pose proof (slice_app (pre ++ [c]) u r) as E. rewrite blen_app in E. cbn [blen] in E.
      rewrite E1, <- app_assoc in E. rewrite Nat.add_0_r, <- Nat.add_assoc in E. exact E. }
  unfold lexical in L.
  destruct k'; cbn [readings In] in R; try contradiction; cbn [keyword_spelling symbol_spelling] in L; destruct L as (-> & _);
    repeat match goal with H : _ \/ _ |- _ => destruct H end; try contradiction; subst ps; cbn [In] in P;
    repeat match goal with H : _ \/ _ |- _ => destruct H end; try contradiction;
    match goal with H : (_, _) = (_, _) |- _ => injection H as <- <- end; cbn [spells keyword_spelling symbol_spelling].
    all: try (apply (S1 62%N); reflexivity); try (apply (S1 60%N); reflexivity); try (apply (S1 124%N); reflexivity);
      try (apply (S1 38%N); reflexivity).
    all: try (apply (S2 62%N [62%N] rest); reflexivity); try (apply (S2 60%N [60%N] rest); reflexivity); try (apply (S2 124%N [124%N] rest); reflexivity);
      try (apply (S2 38%N [38%N] rest); reflexivity); try (apply (S2 62%N [61%N] rest); reflexivity);
      try (apply (S2 62%N [62%N; 61%N] rest); reflexivity).
    + pose proof (slice_app (pre ++ [62%N]) [62%N] (61%N :: rest)) as E. rewrite blen_app in E. 
      rewrite <- app_assoc in E. cbn [blen] in E. change (len_utf8 62%N) with 1 in E; change (len_utf8 61%N) with 1 in E; rewrite <- ?Nat.add_assoc in E; exact E.
    + pose proof (slice_app (pre ++ [62%N; 62%N]) [61%N] rest) as E. rewrite blen_app in E.
      rewrite <- app_assoc in E. cbn [blen] in E. change (len_utf8 62%N) with 1 in E; change (len_utf8 61%N) with 1 in E; rewrite <- ?Nat.add_assoc in E; exact E.
Qed.

(** * More tokens, more marks *)

Section Mono.
  Variables (W W' : matcher -> extent -> Prop) (Sub : forall m x, W m x -> W' m x).
  Variables (N N' : number -> Prop) (SubN : forall n, N n -> N' n).

  Lemma one_of_mono ms x : one_of W ms x -> one_of W' ms x.
  Proof. intros (m & I & H). exists m. auto. Qed.

  Lemma marks_mono ms v : marks W ms v -> marks W' ms v.
  Proof. destruct v as [e|b|n|p|n| | |v|l|a b|k fs|en vn p]; try exact (fun H => H); cbn [marks]; try apply one_of_mono. destruct v; try exact (fun H => H). apply one_of_mono. Qed.

  Lemma starts_mono ms x : starts_with W ms x -> starts_with W' ms x.
  Proof. intros (y & O & H). exists y. split; [now apply one_of_mono|auto]. Qed.
  Lemma ends_mono ms x : ends_with W ms x -> ends_with W' ms x.
  Proof. intros (y & O & H). exists y. split; [now apply one_of_mono|auto]. Qed.

  Lemma node_marks_mono k fs : node_marks W N k fs -> node_marks W' N' k fs.
  Proof.
    intros (A & B & C). split; [|split].
    - intros f ms v I G. apply marks_mono. eauto.
    - intros a b x I G. destruct (B a b x I G) as [H|[H1 H2]]; [auto|]. right. split; [now apply starts_mono|]. intros ms E. apply ends_mono. auto.
    - intros E. destruct (C E) as (n & Hn & H). exists n. auto.
  Qed.

  Lemma operator_marks_mono k fs : operator_marks W k fs -> operator_marks W' k fs.
  Proof.
    intros [A B]. split.
    - intros o l r ms x I O G. destruct (A o l r ms x I O G) as (y & H & R). exists y. split; [now apply one_of_mono|auto].
    - intros ms x I G. apply ends_mono. eauto.
  Qed.

  Lemma all_mono l : Forall (fun v => marked W N v -> marked W' N' v) l ->
    fold_right (fun x P => marked W N x /\ P) True l -> fold_right (fun x P => marked W' N' x /\ P) True l.
  Proof. induction 1 as [|v l H F IH]; cbn [fold_right]; [auto|]. intros [A B]. auto. Qed.

  Lemma marked_mono v : marked W N v -> marked W' N' v.
  Proof.
    induction v as [e|b|n|p|n| | |v IH|l IH|a b IHa IHb|k fs IH|en vn p IH] using val_ind'; cbn [marked]; auto.
    - now apply all_mono.
    - intros [A B]. auto.
    - intros (A & B & C). split; [now apply all_mono in A|]. split; [now apply node_marks_mono|now apply operator_marks_mono].
    - intros [A B]. split; [|auto]. intros ms I. apply marks_mono. auto.
  Qed.
End Mono.

(** * Files *)

Section File.
  Variable toks : list token.
  Hypothesis WF : wf_toks toks.
  Hypothesis NUM : forall i n, nth_error toks i = Some (TkNumber n) -> num_ord n.

  Lemma file_marked p items : valid toks p -> file_der toks p items -> marked (written toks) (numbers toks) (VList items).
  Proof.
    intros V D. induction D as [p e E|p q v items D L SN Vq F IH]; [exact I|].
    cbn [marked fold_right]. split; [|exact (IH Vq)]. apply (proj1 (marks_all toks WF NUM) _ _ _ _ _ D V []).
    - intros x t A. discriminate.
    - constructor.
    - vm_compute. reflexivity.
  Qed.
End File.

Theorem file_marks X code f : xid_sane X -> parse_rust_file X code = FileOk f -> marked (reads X code) (reads_number X code) (strip f).
Proof.
  intros XS E. pose proof (parse_rust_file_ok X code XS) as H. rewrite E in H. destruct H as (ts & parsed & T & P & F).
  destruct (partition_tokens ts []) as [ws toks] eqn:PT.
  destruct (tokens_wf _ _ _ _ _ XS T PT) as [WF WI].
  assert (toks = filter significant ts) as TE by (now rewrite <- (partition_filter ts []), PT). rewrite <- TE in *.
  pose proof (parse_items_ok toks WF (blen code) WI) as H. rewrite P in H. destruct H as (_ & Ty & _).
  destruct F. rewrite fo_strip.
  assert (forall i n, nth_error toks i = Some (TkNumber n) -> num_ord n) as NUM.
  { intros i n Hn. apply nth_error_In in Hn. rewrite TE in Hn. apply filter_In in Hn as [Hn _]. eapply tokens_num; eauto. }
  pose proof (file_marked toks WF NUM _ _ (valid_zero _ WF) (parse_der _ _ WF P)) as L.
  assert (forall n, numbers toks n -> reads_number X code n) as SN.
  { intros n Hn. unfold numbers in Hn. assert (In (TkNumber n) ts) as Ht by (rewrite TE in Hn; now apply filter_In in Hn). split; [|eauto].
    destruct (token_text _ _ _ _ XS T Ht) as [H|(pre & s & rest & -> & A)]; [discriminate|]. inversion A; subst. exists pre, s, rest. auto. }
  apply (marked_mono _ (reads X code)) with (N' := reads_number X code) in L; [|clear SN|exact SN].
  2:{ intros m x Wm. assert (written ts m x) as Wt.
      { destruct m as [k|]; cbn [written] in *.
        - destruct Wm as (k' & s & e & ps & I & R). exists k', s, e, ps. split; [|auto]. rewrite TE in I. now apply filter_In in I.
        - destruct Wm as (n & I & R). exists n. split; [|auto]. rewrite TE in I. now apply filter_In in I. }
      split; [|eauto]. eapply written_spelled; eauto. }
  rewrite strip_node. change (fields_of "File") with [("items", TList (TN "Attributed<Item>"), true); ("whitespace", TList (TN "Whitespace"), true)].
  cbn [strip_fields]. cbn [strip String.eqb Ascii.eqb Bool.eqb].
  assert (map strip parsed = parsed) as ->.
  { rewrite <- (map_id parsed) at 2. apply map_ext_in. intros x Hx. rewrite Forall_forall in *. eapply free_strip; eauto. }
  cbn [marked fold_right]. split; [|split].
  - split; [exact L|split; [exact I|exact I]].
  - split; [|split; [|discriminate]].
    + intros f0 ms v I. exfalso. revert I. assert (forallb (fun '(k, _, _) => negb (String.eqb k "File")) markers = true) as H by (vm_compute; reflexivity).
      rewrite forallb_forall in H. intros I. apply H in I. discriminate.
    + intros a b x I. exfalso. revert I. assert (forallb (fun '(k, _, _) => negb (String.eqb k "File")) first_last = true) as H by (vm_compute; reflexivity).
      rewrite forallb_forall in H. intros I. apply H in I. discriminate.
  - split.
    + intros o l r ms x I. exfalso. revert I. assert (forallb (fun '(k, _, _, _, _) => negb (String.eqb k "File")) operators = true) as H by (vm_compute; reflexivity).
      rewrite forallb_forall in H. intros I. apply H in I. discriminate.
    + intros ms x I. exfalso. revert I. assert (forallb (fun '(k, _) => negb (String.eqb k "File")) operator_ends = true) as H by (vm_compute; reflexivity).
      rewrite forallb_forall in H. intros I. apply H in I. discriminate.
Qed.

(** * Parts *)

Lemma marked_part W (N : number -> Prop) w v : part_of w v -> marked W N v -> marked W N w.
Proof.
  assert (forall (x : val) l, In x l -> fold_right (fun x P => marked W N x /\ P) True l -> marked W N x) as G.
  { intros x l. induction l as [|y l IH]; [intros []|]. cbn [fold_right]. intros [->|I] [A B]; auto. }
  induction 1 as [|v P IH|e t v P IH|a b P IH|a b P IH|v l I P IH|v k fs I P IH]; auto; cbn [marked].
  - intros [_ A]. auto.
  - intros [A _]. auto.
  - intros [_ A]. auto.
  - intros L. apply IH. eapply G; eauto.
  - intros (L & _). apply IH. eapply G; eauto.
Qed.
