(** The landmarks and separators of a whole file, on its tokens and on its text. *)

From Coq Require Import String List NArith Arith Bool Lia.
From Verif Require Import Base Peresil Token Tokenizer TokenizerSpec TokenizerWhole.
From Verif Require Import LandsOk Schema Value Nt Grammar Points Table Static Typing Safety Apportion Lib FileToks Items
  Whitespace WhitespaceOk Fresh Extents LibOk FileSpec SpanSpec Deriv DerivMono DerivOk SpansOk SpansDer SpansFile Split MarkSpec LandSpec Marks MarksOk MarksFile.
Import ListNotations.
Local Open Scope string_scope.
Local Open Scope list_scope.
Local Open Scope nat_scope.

Section Mono.
  Variables (W W' : matcher -> extent -> Prop) (Sub : forall m x, W m x -> W' m x).

  Lemma parted_mono ms a b : parted W ms a b -> parted W' ms a b.
  Proof. intros (y & O & H). exists y. split; [|auto]. eapply one_of_mono; eauto. Qed.

  Lemma node_lands_mono k fs : node_lands W k fs -> node_lands W' k fs.
  Proof.
    intros (A & B & C). split; [|split].
    - intros l ms r I P Q. destruct (A l ms r I P Q) as (y & O & H). exists y. split; [|auto]. eapply one_of_mono; eauto.
    - intros f ms l a b I G N. apply parted_mono. eauto.
    - intros f g ms l a b I G N. destruct (C f g ms l a b I G N) as [H|H]; [auto|]. right. now apply parted_mono.
  Qed.

  Lemma lall_mono l : Forall (fun v => landed W v -> landed W' v) l ->
    fold_right (fun x P => landed W x /\ P) True l -> fold_right (fun x P => landed W' x /\ P) True l.
  Proof. induction 1 as [|v l H F IH]; cbn [fold_right]; [auto|]. intros [A B]. auto. Qed.

  Lemma landed_mono v : landed W v -> landed W' v.
  Proof.
    induction v as [e|b|n|p|n| | |v IH|l IH|a b IHa IHb|k fs IH|en vn p IH] using val_ind'; cbn [landed]; auto.
    - now apply lall_mono.
    - intros [A B]. auto.
    - intros [A B]. split; [now apply lall_mono in A|now apply node_lands_mono].
  Qed.
End Mono.

Section File.
  Variable toks : list token.
  Hypothesis WF : wf_toks toks.
  Hypothesis NUM : forall i n, nth_error toks i = Some (TkNumber n) -> num_ord n.

  Lemma file_landed p items : valid toks p -> file_der toks p items -> landed (written toks) (VList items).
  Proof.
    intros V D. induction D as [p e E|p q v items D L SN Vq F IH]; [exact I|].
    cbn [landed fold_right]. split; [|exact (IH Vq)]. 
    eapply (top_l toks item_grammar); [apply (proj1 (lands_all toks WF NUM)); exact D|exact V|eexists; vm_compute; reflexivity|constructor|vm_compute; reflexivity].
  Qed.
End File.

Theorem file_lands X code f : xid_sane X -> parse_rust_file X code = FileOk f -> landed (reads X code) (strip f).
Proof.
  intros XS E. pose proof (parse_rust_file_ok X code XS) as H. rewrite E in H. destruct H as (ts & parsed & T & P & F).
  destruct (partition_tokens ts []) as [ws toks] eqn:PT.
  destruct (tokens_wf _ _ _ _ _ XS T PT) as [WF WI].
  assert (toks = filter significant ts) as TE by (now rewrite <- (partition_filter ts []), PT). rewrite <- TE in *.
  pose proof (parse_items_ok toks WF (blen code) WI) as H. rewrite P in H. destruct H as (_ & Ty & _).
  destruct F. rewrite fo_strip.
  assert (forall i n, nth_error toks i = Some (TkNumber n) -> num_ord n) as NUM.
  { intros i n Hn. apply nth_error_In in Hn. rewrite TE in Hn. apply filter_In in Hn as [Hn _]. eapply tokens_num; eauto. }
  pose proof (file_landed toks WF NUM _ _ (valid_zero _ WF) (parse_der _ _ WF P)) as L.
  apply (landed_mono _ (reads X code)) in L.
  2:{ intros m x Wm. assert (written ts m x) as Wt.
      { destruct m as [k|]; cbn [written] in *.
        - destruct Wm as (k' & s & e & ps & I & R). exists k', s, e, ps. split; [|auto]. rewrite TE in I. now apply filter_In in I.
        - destruct Wm as (n & I & R). exists n. split; [|auto]. rewrite TE in I. now apply filter_In in I. }
      split; [|eauto]. eapply written_spelled; eauto. }
  rewrite strip_node. change (fields_of "File") with [("items", TList (TN "Attributed<Item>"), true); ("whitespace", TList (TN "Whitespace"), true)].
  cbn [strip_fields]. cbn [strip String.eqb Ascii.eqb Bool.eqb].
  assert (map strip parsed = parsed) as ->.
  { rewrite <- (map_id parsed) at 2. apply map_ext_in. intros x Hx. rewrite Forall_forall in *. eapply free_strip; eauto. }
  cbn [landed fold_right]. split; [split; [exact L|split; [exact I|exact I]]|].
  split; [|split].
  - intros a ms r J. exfalso. revert J. assert (forallb (fun '(k, _, _, _) => negb (String.eqb k "File")) landmarks = true) as H by (vm_compute; reflexivity).
    rewrite forallb_forall in H. intros J. apply H in J. discriminate.
  - intros g ms l a b J. exfalso. revert J. assert (forallb (fun '(k, _, _) => negb (String.eqb k "File")) separators = true) as H by (vm_compute; reflexivity).
    rewrite forallb_forall in H. intros J. apply H in J. discriminate.
  - intros g g' ms l a b J. exfalso. revert J. assert (forallb (fun '(k, _, _, _) => negb (String.eqb k "File")) loose_separators = true) as H by (vm_compute; reflexivity).
    rewrite forallb_forall in H. intros J. apply H in J. discriminate.
Qed.

Lemma landed_part W w v : part_of w v -> landed W v -> landed W w.
Proof.
  assert (forall (x : val) l, In x l -> fold_right (fun x P => landed W x /\ P) True l -> landed W x) as G.
  { intros x l. induction l as [|y l IH]; [intros []|]. cbn [fold_right]. intros [->|I] [A B]; auto. }
  induction 1 as [|v P IH|e t v P IH|a b P IH|a b P IH|v l I P IH|v k fs I P IH]; auto; cbn [landed].
  - intros [A _]. auto.
  - intros [_ A]. auto.
  - intros L. apply IH. eapply G; eauto.
  - intros (L & _). apply IH. eapply G; eauto.
Qed.
