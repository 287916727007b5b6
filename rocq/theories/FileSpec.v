(** Vocabulary for the properties of [parse_rust_file]. *)

From Coq Require Import String List Arith Bool Lia Permutation Sorted.
From Verif Require Import Base Peresil Token Tokenizer TokenizerSpec TokenizerIter TokenizerWhole.
From Verif Require Import Schema Value Nt Grammar Points Table Static Typing Safety RunOk Apportion Lib
  FileToks Items Whitespace WhitespaceOk Closure Fresh Extents LibOk HumanOk.
Import ListNotations.
Local Open Scope string_scope.
Local Open Scope list_scope.
Local Open Scope nat_scope.

(** Whitespace and comments that are not doc comments. *)
Definition is_layout (t : token) : bool :=
  match t with
  | Tk KWhitespace _ | Tk KCommentLine _ | Tk KCommentBlock _ => true
  | _ => false
  end.

(** The tokens the grammar sees. *)
Definition solid (ts : list token) : list token := filter (fun t => negb (is_layout t)) ts.

(** The whitespace and comments of a token list as entries of the AST, in order. *)
Definition layout_entries (ts : list token) : list val :=
  flat_map (fun t =>
    match t with
    | Tk KWhitespace e => [VVar "Whitespace" "Whitespace" (VExt e)]
    | Tk KCommentLine e => [VVar "Whitespace" "Comment" (VVar "Comment" "Line" (VExt e))]
    | Tk KCommentBlock e => [VVar "Whitespace" "Comment" (VVar "Comment" "Block" (VExt e))]
    | _ => []
    end) ts.

Lemma solid_significant ts : filter significant ts = solid ts.
Proof.
  unfold solid. apply filter_ext. intros t. unfold significant. destruct t as [k e|]; [|reflexivity].
  destruct k; reflexivity.
Qed.

Lemma layout_ws ts : ws_entries ts = layout_entries ts.
Proof.
  unfold ws_entries, layout_entries. apply flat_map_ext. intros t. destruct t as [k e|]; [|reflexivity].
  destruct k; reflexivity.
Qed.

(** The error of a rejected text: where it is, and how many things were expected. *)
Definition error_at (r : file_result) : option (string * nat * nat) :=
  match r with
  | FileTokErr e => Some ("Unable to tokenize text", te_location e, List.length (te_errors e))
  | FileErr l es => Some ("Unable to parse text", l, List.length es)
  | _ => None
  end.

Section File.
  Variable X : xid.
  Hypothesis XS : xid_sane X.
  Variable code : text.

  Lemma file_total w : parse_rust_file X code <> FileAbort w.
  Proof. intros E. pose proof (parse_rust_file_ok X code XS) as H. now rewrite E in H. Qed.

  Lemma file_accepted f : parse_rust_file X code = FileOk f ->
    exists ts parsed, tokenize X code = TokOk ts /\ parse_items (solid ts) = ItemsOk parsed /\
      file_ok code (solid ts) (layout_entries ts) parsed f.
  Proof.
    intros E. pose proof (parse_rust_file_ok X code XS) as H. rewrite E in H.
    destruct H as (ts & parsed & T & P & F). exists ts, parsed. rewrite <- solid_significant, <- layout_ws. auto.
  Qed.

  Lemma file_extents f : parse_rust_file X code = FileOk f ->
    forall e, In e (extents f) -> fst e <= snd e /\ snd e <= blen code.
  Proof.
    intros E e I. destruct (file_accepted f E) as (ts & parsed & _ & _ & F). destruct F.
    unfold vq in fo_extents. rewrite Forall_forall in fo_extents. destruct (fo_extents e I) as [H _].
    unfold inside in H. lia.
  Qed.

  Lemma file_boundaries f : parse_rust_file X code = FileOk f ->
    forall e, In e (extents f) -> boundary code (fst e) /\ (no_marks code -> boundary code (snd e)).
  Proof.
    intros E e I. destruct (file_accepted f E) as (ts & parsed & _ & _ & F). destruct F.
    unfold vq in fo_extents. rewrite Forall_forall in fo_extents. now destruct (fo_extents e I).
  Qed.

  Lemma boundaries_slice e : fst e <= snd e -> boundary code (fst e) -> boundary code (snd e) ->
    exists w, slice code e = Some w /\ snd e = fst e + blen w.
  Proof.
    intros L (a & b & E1 & F1) (c & d & E2 & F2). unfold slice. rewrite E2, F2, split_at_app.
    assert (exists w, c = a ++ w) as (w & ->).
    { rewrite F1, F2 in L. clear F1 F2. revert b c d E1 E2 L. generalize code. induction a as [|x a IH]; intros t b c d E1 E2 L.
      - now exists c.
      - destruct c as [|y c]; [cbn [blen] in L; pose proof (len_utf8_pos x); lia|].
        rewrite E1 in E2. cbn [app] in E2. injection E2 as <- E2. cbn [blen] in L.
        destruct (IH (a ++ b) b c d eq_refl E2) as (w & ->); [lia|]. now exists w. }
    rewrite F1, split_at_app, blen_app. eauto.
  Qed.

  Lemma file_index f : no_marks code -> parse_rust_file X code = FileOk f ->
    forall e, In e (extents f) -> exists w, slice code e = Some w /\ snd e = fst e + blen w.
  Proof.
    intros NM E e I. destruct (file_boundaries f E e I). destruct (file_extents f E e I).
    apply boundaries_slice; auto.
  Qed.

  Lemma file_error title l n : error_at (parse_rust_file X code) = Some (title, l, n) ->
    n <> 0 /\ boundary code l /\
    (forall es, parse_rust_file X code = FileErr l es ->
       exists ts t, tokenize X code = TokOk ts /\ In t (solid ts) /\ l = fst (token_extent t)) /\
    (forall names, exists report, error_report title code l names = Some report).
  Proof.
    intros E. pose proof (parse_rust_file_ok X code XS) as H.
    assert (n <> 0 /\ boundary code l /\ (forall es, parse_rust_file X code = FileErr l es ->
       exists ts t, tokenize X code = TokOk ts /\ In t (solid ts) /\ l = fst (token_extent t))) as (A & B & C).
    { destruct (parse_rust_file X code) as [f|e|l' es|w]; try discriminate; injection E as <- <- <-.
      - pose proof (tokenize_spec X code) as T. rewrite H in T. destruct T as (B & NE & _).
        split; [destruct (te_errors e); [congruence|discriminate]|]. split; [exact B|]. discriminate.
      - destruct H as (NE & ts & t & T & I & EL). split; [destruct es; [congruence|discriminate]|].
        rewrite solid_significant in I. split; [|eauto].
        apply filter_In in I. destruct I as [I _].
        destruct (extents_valid X code ts T t (token_extent t) I) as [(_ & B & _) _]; [destruct t; now left|].
        now rewrite EL. }
    split; [auto|]. split; [auto|]. split; [auto|]. intros names.
    destruct (human_ok code l B) as (a & u & v & b & -> & -> & W & _).
    destruct (report_line title names a u v b W) as (tl & R & _). eauto.
  Qed.
End File.
