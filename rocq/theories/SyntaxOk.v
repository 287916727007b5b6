(** From the rules of [RustSpec] to files (C46). *)

From Coq Require Import String List NArith Arith Bool Lia.
From Verif Require Import Base Peresil Token Tokenizer TokenizerSpec.
From Verif Require Import Schema Value Nt Grammar Points Table Static Lib FileSpec Amb Sem First OutlineSpec Reads Syntax Accept RustSpec Rules Followed.
Import ListNotations.
Local Open Scope string_scope.
Local Open Scope list_scope.
Local Open Scope nat_scope.

Lemma synss l c ts : syns l c ts -> special c = false -> goods l c ts.
Proof.
  induction 1; intros E; constructor; [now apply followed|now apply IHsyns].
Qed.

Section File.
  Variable toks : list token.

  Lemma takes_some p c q : takes toks p c q -> exists t, nth_error toks (off p) = Some t.
  Proof.
    intros T. destruct (nth_error toks (off p)) as [t|] eqn:N; [eauto|exfalso].
    assert (G : forall m w, gets toks p m q w -> False).
    { intros m w G. specialize (G ExpectedExpression (new_master pt_zero Unambiguous)). unfold tok in G. rewrite N in G. discriminate. }
    destruct c as [k|k x|n|t]; cbn [takes] in T; [destruct T as [x T]; eauto|eauto|eauto|]. destruct T as (_ & T & _). congruence.
  Qed.

  Lemma clear_eof p t : clear toks (bit KEndOfFile) p -> nth_error toks (off p) = Some t -> is_kind KEndOfFile t = false.
  Proof.
    unfold clear, offered. intros C N. rewrite N in C. destruct t as [k x|n]; [|reflexivity]. cbn [is_kind].
    destruct (tkind_eqb KEndOfFile k) eqn:E; [|reflexivity]. apply tkind_eqb_eq in E. subst k. exfalso.
    destruct (sub p) as [n|]; [|vm_compute in C; discriminate]. assert (split (Tk KEndOfFile x) n = None) as E by (destruct n; reflexivity).
    rewrite E in C. vm_compute in C. discriminate.
  Qed.

  Lemma chain_of its : goods Anywhere (With "Item" Item) its -> forall p q x, reads toks p (concat (spelled its)) q ->
    nth_error toks (off q) = Some (Tk KEndOfFile x) -> exists vs, chain toks p vs /\ map outline vs = asts its.
  Proof.
    induction 1 as [|[ps v] its G _ IH]; intros p q x R E.
    - cbn [spelled map concat reads] in R. subst q. exists []. split; [now apply chain_end with (x := x)|reflexivity].
    - cbn [spelled map concat fst snd] in *. apply reads_app in R as (r & R1 & R2).
      destruct (IH r q x R2 E) as (vs & C & O).
      assert (NE : ps <> []) by (eapply good_nonempty; [exact G|reflexivity]).
      destruct (g_parses _ _ _ _ G toks p r R1 (clear_zero _ _ _ eq_refl)) as (w & HS & OW).
      assert (exists t, nth_error toks (off p) = Some t) as (t & T).
      { destruct ps; [congruence|]. cbn [reads] in R1. destruct R1 as (? & T & _). eapply takes_some, T. }
      exists (w :: vs). split; [|cbn [map asts]; now rewrite OW, O].
      eapply chain_item; [exact T| |apply HS|exact C].
      eapply clear_eof; [|exact T]. eapply begins_clear; [exact (g_begins _ _ _ _ G)|exact NE|exact R1|vm_compute; reflexivity].
  Qed.
End File.

Theorem parsed_as_spelled X code ts body x its : xid_sane X -> tokenize X code = TokOk ts -> solid ts = body ++ [Tk KEndOfFile x] ->
  syns Anywhere (With "Item" Item) its -> spells body (concat (spelled its)) ->
  exists f, parse_rust_file X code = FileOk f /\ outline f = VNode "File" [VList (asts its); VList []].
Proof.
  intros XS T S SY SP. apply synss in SY; [|reflexivity].
  pose proof (spells_reads (solid ts) body _ SP [] [Tk KEndOfFile x] S) as R. cbn [List.length app] in R.
  destruct (chain_of (solid ts) its SY _ _ x R) as (vs & C & O).
  { rewrite S. change (off (at_ (0 + List.length body))) with (List.length body). rewrite nth_error_app2, Nat.sub_diag by lia. reflexivity. }
  destruct (accepted X code ts vs XS T C) as (f & E & OF). exists f. split; [exact E|]. now rewrite OF, O.
Qed.
