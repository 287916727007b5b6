(** From runs of the grammar on tokens to [parse_rust_file]. *)

From Coq Require Import String List NArith Arith Bool Lia.
From Verif Require Import Base Peresil Token Tokenizer TokenizerSpec TokenizerIter TokenizerWhole.
From Verif Require Import Schema Value Nt Grammar Points Table Static Typing Safety RunOk Apportion Lib FileToks Items
  Whitespace WhitespaceOk Closure Fresh Extents LibOk HumanOk FileSpec Amb Sem First OutlineSpec Reads.
Import ListNotations.
Local Open Scope string_scope.
Local Open Scope list_scope.
Local Open Scope nat_scope.

(** * Spelled tokens are read piece by piece *)
Section Spells.
  Variable toks : list token.

  Lemma takes_sym_at i k x : nth_error toks i = Some (Tk k x) -> takes toks (at_ i) (Sym k) (at_ (i + 1)).
  Proof. intros N. exists x. eapply gets_tok; [exact N|]. cbn. now rewrite (tkind_eqb_refl k). Qed.

  Lemma takes_word_at i k x : nth_error toks i = Some (Tk k x) -> takes toks (at_ i) (Word k x) (at_ (i + 1)).
  Proof. intros N. eapply gets_tok; [exact N|]. cbn. now rewrite (tkind_eqb_refl k). Qed.

  Lemma takes_num_at i n : nth_error toks i = Some (TkNumber n) -> takes toks (at_ i) (Num n) (at_ (i + 1)).
  Proof. intros N. eapply gets_tok; [exact N|reflexivity]. Qed.

  Lemma reads_glued i k ks x : In (k, ks) gluings -> nth_error toks i = Some (Tk k x) ->
    reads toks (at_ i) (map Sym ks) (at_ (i + 1)).
  Proof.
    intros I N. destruct x as [s e].
    assert (G : forall p m q v, (forall err pm, tok toks m err pm p = (pm, Success q v)) -> gets toks p m q v) by (intros; assumption).
    cbn [gluings In] in I.
    destruct I as [E|[E|[E|[E|[E|[E|[E|[]]]]]]]]; injection E as <- <-; cbn [map reads takes].
    - exists (mkPt i (Some 0)). split; [eexists|exists (at_ (i + 1)); split; [eexists|reflexivity]];
        intros err pm; unfold tok, at_; cbn [off sub sub_rank]; rewrite N; reflexivity.
    - exists (mkPt i (Some 0)). split; [eexists|exists (at_ (i + 1)); split; [eexists|reflexivity]];
        intros err pm; unfold tok, at_; cbn [off sub sub_rank]; rewrite N; reflexivity.
    - exists (mkPt i (Some 0)). split; [eexists|exists (mkPt i (Some 1)); split; [eexists|exists (at_ (i + 1)); split; [eexists|reflexivity]]];
        intros err pm; unfold tok, at_; cbn [off sub sub_rank]; rewrite N; reflexivity.
    - exists (mkPt i (Some 0)). split; [eexists|exists (at_ (i + 1)); split; [eexists|reflexivity]];
        intros err pm; unfold tok, at_; cbn [off sub sub_rank]; rewrite N; reflexivity.
    - exists (mkPt i (Some 0)). split; [eexists|exists (at_ (i + 1)); split; [eexists|reflexivity]];
        intros err pm; unfold tok, at_; cbn [off sub sub_rank]; rewrite N; reflexivity.
    - exists (mkPt i (Some 0)). split; [eexists|exists (at_ (i + 1)); split; [eexists|reflexivity]];
        intros err pm; unfold tok, at_; cbn [off sub sub_rank]; rewrite N; reflexivity.
    - exists (mkPt i (Some 0)). split; [eexists|exists (at_ (i + 1)); split; [eexists|reflexivity]];
        intros err pm; unfold tok, at_; cbn [off sub sub_rank]; rewrite N; reflexivity.
  Qed.

  Lemma spells_reads ts ps : spells ts ps -> forall pre post, toks = pre ++ ts ++ post ->
    reads toks (at_ (List.length pre)) ps (at_ (List.length pre + List.length ts)).
  Proof.
    induction 1 as [|k x ts ps H IH|k x ts ps H IH|n ts ps H IH|t ts ps H IH|k ks x ts ps G H IH]; intros pre post E.
    - cbn [reads List.length]. now rewrite Nat.add_0_r.
    - assert (N : nth_error toks (List.length pre) = Some (Tk k x)) by (rewrite E, nth_error_app2, Nat.sub_diag by lia; reflexivity).
      specialize (IH (pre ++ [Tk k x]) post). rewrite <- app_assoc in IH. specialize (IH E).
      rewrite app_length in IH. cbn [List.length] in *. cbn [reads]. exists (at_ (List.length pre + 1)).
      split; [now apply takes_sym_at with (x := x)|]. now replace (List.length pre + S (List.length ts)) with (List.length pre + 1 + List.length ts) by lia.
    - assert (N : nth_error toks (List.length pre) = Some (Tk k x)) by (rewrite E, nth_error_app2, Nat.sub_diag by lia; reflexivity).
      specialize (IH (pre ++ [Tk k x]) post). rewrite <- app_assoc in IH. specialize (IH E).
      rewrite app_length in IH. cbn [List.length] in *. cbn [reads]. exists (at_ (List.length pre + 1)).
      split; [now apply takes_word_at|]. now replace (List.length pre + S (List.length ts)) with (List.length pre + 1 + List.length ts) by lia.
    - assert (N : nth_error toks (List.length pre) = Some (TkNumber n)) by (rewrite E, nth_error_app2, Nat.sub_diag by lia; reflexivity).
      specialize (IH (pre ++ [TkNumber n]) post). rewrite <- app_assoc in IH. specialize (IH E).
      rewrite app_length in IH. cbn [List.length] in *. cbn [reads]. exists (at_ (List.length pre + 1)).
      split; [now apply takes_num_at|]. now replace (List.length pre + S (List.length ts)) with (List.length pre + 1 + List.length ts) by lia.
    - assert (N : nth_error toks (List.length pre) = Some t) by (rewrite E, nth_error_app2, Nat.sub_diag by lia; reflexivity).
      specialize (IH (pre ++ [t]) post). rewrite <- app_assoc in IH. specialize (IH E).
      rewrite app_length in IH. cbn [List.length] in *. cbn [reads]. exists (at_ (List.length pre + 1)).
      split; [now repeat split|]. now replace (List.length pre + S (List.length ts)) with (List.length pre + 1 + List.length ts) by lia.
    - assert (N : nth_error toks (List.length pre) = Some (Tk k x)) by (rewrite E, nth_error_app2, Nat.sub_diag by lia; reflexivity).
      specialize (IH (pre ++ [Tk k x]) post). rewrite <- app_assoc in IH. specialize (IH E).
      rewrite app_length in IH. cbn [List.length] in *. apply reads_app. exists (at_ (List.length pre + 1)).
      split; [eapply reads_glued; eauto|]. now replace (List.length pre + S (List.length ts)) with (List.length pre + 1 + List.length ts) by lia.
  Qed.
End Spells.

(** * The outline does not see whitespace *)
Lemma outline_leaf k fs : leaf k = true -> typed (VNode k fs) (TN k) -> strip (VNode k fs) = VNode k fs.
Proof.
  intros L T. inversion T as [| | | | | | | | | |k' fs' fields S F| |]; subst. unfold leaf in L. rewrite existsb_exists in L.
  destruct L as (k' & I & E). apply String.eqb_eq in E. subst k'. cbn [In] in I.
  repeat (destruct I as [<-|I]; [
    vm_compute in S; injection S as <-;
    repeat match goal with H : Forall2 _ _ (_ :: _) |- _ => inversion H; clear H; subst | H : Forall2 _ _ [] |- _ => inversion H; clear H; subst end;
    cbn [fst snd] in *;
    repeat match goal with
    | H : typed _ TExt |- _ => inversion H; clear H; subst
    | H : typed _ (TOpt _) |- _ => inversion H; clear H; subst
    end; reflexivity|]). destruct I.
Qed.

Lemma outline_list l : outline (VList l) = VList (map outline (filter (fun v => negb (is_whitespace v)) l)).
Proof.
  cbn [outline]. f_equal. induction l as [|v l IH]; [reflexivity|]. cbn [flat_map filter]. rewrite IH.
  destruct (is_whitespace v); reflexivity.
Qed.

Lemma is_whitespace_strip v : is_whitespace (strip v) = is_whitespace v.
Proof. destruct v; reflexivity. Qed.

Lemma typed_ws v : typed v (TN "Whitespace") -> is_whitespace v = true.
Proof.
  intros T. inversion T as [| | | | | | | | | |k fs fields S F|e n p vs t E A P|e n vs E A]; subst; try reflexivity.
  vm_compute in S. discriminate.
Qed.

Lemma outline_strip v : forall t, typed v t -> outline (strip v) = outline v.
Proof.
  induction v as [e|b|n|p|n| | |v IH|l IH|a b IHa IHb|k fs IH|en vn p IH] using val_ind'; intros t T; try reflexivity.
  - inversion T; subst. cbn [strip outline]. f_equal. eauto.
  - inversion T; subst. cbn [strip]. rewrite !outline_list. f_equal. rewrite Forall_forall in IH.
    clear T. induction l as [|v l IHl]; [reflexivity|]. cbn [map filter]. rewrite is_whitespace_strip.
    assert (E : map outline (filter (fun v => negb (is_whitespace v)) (map strip l)) = map outline (filter (fun v => negb (is_whitespace v)) l)).
    { apply IHl; intros; [eapply IH; [right; eauto|eauto]|]. match goal with H : forall v, In v _ -> typed v _ |- _ => apply H end. now right. }
    destruct (is_whitespace v); cbn [negb map]; [exact E|]. rewrite E. f_equal. eapply IH; [now left|].
    match goal with H : forall v, In v _ -> typed v _ |- _ => apply H end. now left.
  - assert (t = TN k) as -> by (inversion T; reflexivity). destruct (leaf k) eqn:L.
    + now rewrite outline_leaf.
    + rewrite strip_node. cbn [outline]. rewrite L. f_equal.
      inversion T as [| | | | | | | | | |k' fs' fields S Tf| |]; subst. unfold fields_of. rewrite S.
      assert (WS : forall i, field_index "whitespace" fields = Some i -> exists b, nth_error fields i = Some ("whitespace", TList (TN "Whitespace"), b))
        by (intros i; apply schema_whitespace_field with (k := k); exact S).
      assert (forall f t b, In (f, t, b) fields -> f = "whitespace" -> t = TList (TN "Whitespace")) as W.
      { assert (B : forallb (fun s => forallb (fun x => match x with (f, t, _) =>
           if String.eqb f "whitespace" then match t with TList (TN w) => String.eqb w "Whitespace" | _ => false end else true end) (snd s))
           (structs ++ internal_structs) = true) by (vm_compute; reflexivity).
        pose proof (assoc_forallb _ _ _ _ B S) as B1. cbn [snd] in B1. rewrite forallb_forall in B1.
        intros f t b I ->. specialize (B1 _ I). cbn in B1. destruct t as [| | | | | | |u| |]; try discriminate.
        destruct u; try discriminate. apply String.eqb_eq in B1. now subst. }
      clear -IH Tf W. induction Tf as [|x [[f t] b] fs fields Hx Tf IHf]; [reflexivity|].
      inversion IH; subst. cbn [strip_fields map]. f_equal.
      * destruct (String.eqb f "whitespace") eqn:E.
        -- apply String.eqb_eq in E. cbn [fst snd] in Hx. rewrite (W f t b (or_introl eq_refl) E) in Hx. inversion Hx; subst.
           change (outline (VList [])) with (VList []). rewrite outline_list. f_equal. symmetry.
           match goal with H : forall v, In v _ -> typed v (TN "Whitespace") |- _ => rename H into HW end.
           clear -HW. induction l as [|v l IHl]; [reflexivity|]. cbn [filter map]. rewrite (typed_ws v) by (apply HW; now left).
           cbn [negb]. apply IHl. intros; apply HW; now right.
        -- eauto.
      * apply IHf; auto. intros; eapply W; [right; eauto|auto].
  - inversion T as [| | | | | | | | | | |e' n' p' vs' t' E' A' P'|]; subst; [|reflexivity]. cbn [strip outline]. f_equal. eauto.
Qed.

(** * A chain of items *)
Section Chain.
  Variable toks : list token.

  Inductive chain : point -> list val -> Prop :=
  | chain_end p x : nth_error toks (off p) = Some (Tk KEndOfFile x) -> chain p []
  | chain_item p q v vs t : nth_error toks (off p) = Some t -> is_kind KEndOfFile t = false ->
      sem toks Unambiguous item_grammar [] p (SOk q v) -> chain q vs -> chain p (v :: vs).

  Lemma chain_loop p vs : chain p vs -> forall n pm, m_state pm = Unambiguous ->
    (forall w, items_loop toks n pm p <> ItemsAbort w) -> items_loop toks n pm p = ItemsOk vs.
  Proof.
    induction 1 as [p x N|p q v vs t N K HS C IH]; intros [|n] pm Ha NA; try (exfalso; now apply (NA OutOfFuel)).
    - cbn [items_loop]. rewrite N. reflexivity.
    - cbn [items_loop] in *. rewrite N, K in *.
      specialize (HS (parse_fuel (List.length toks)) pm Ha).
      pose proof (sem_keep toks (parse_fuel (List.length toks)) item_grammar [] pm p) as KP.
      destruct (run table toks (parse_fuel (List.length toks)) item_grammar [] pm p) as [pm1 [q1 v1|q1 er|w]]; cbn [snd agrees finish] in *.
      + injection HS as <- <-. specialize (KP pm1 _ eq_refl).
        destruct (off p <? off q); [|exfalso; now apply (NA Panicked)].
        rewrite (IH n pm1); [reflexivity|congruence|]. intros w E. apply (NA w). now rewrite E.
      + discriminate.
      + exfalso. now apply (NA w).
  Qed.
End Chain.

Theorem accepted X code ts vs : xid_sane X -> tokenize X code = TokOk ts -> chain (solid ts) (at_ 0) vs ->
  exists f, parse_rust_file X code = FileOk f /\ outline f = VNode "File" [VList (map outline vs); VList []].
Proof.
  intros XS T C. pose proof (parse_rust_file_ok X code XS) as H.
  assert (PI : parse_items (solid ts) = ItemsOk vs).
  { unfold parse_items. change pt_zero with (at_ 0). apply chain_loop; [exact C|reflexivity|].
    intros w E. destruct (partition_tokens ts []) as [ws toks] eqn:P. destruct (tokens_wf _ _ _ _ _ XS T P) as [WF WI].
    pose proof (partition_filter ts []) as PF. rewrite P in PF. cbn [snd] in PF. rewrite solid_significant in PF. subst toks.
    pose proof (parse_items_ok _ WF (blen code) WI) as H1. unfold parse_items in H1. change pt_zero with (at_ 0) in H1. now rewrite E in H1. }
  destruct (parse_rust_file X code) as [f|e|l es|w] eqn:E.
  - exists f. split; [reflexivity|]. destruct H as (ts' & parsed & T' & P' & F). rewrite T in T'. injection T' as <-.
    rewrite solid_significant in P'. rewrite PI in P'. injection P' as <-. destruct F.
    rewrite <- (outline_strip f _ fo_typed), fo_strip.
    assert (TF : typed (VNode "File" [VList vs; VList []]) (TN "File")).
    { econstructor; [reflexivity|]. repeat constructor; [|intros v []]. intros v I. rewrite Forall_forall in fo_parsed. now apply fo_parsed. }
    rewrite (outline_strip _ _ TF).
    change (outline (VNode "File" [VList vs; VList []])) with (VNode "File" [outline (VList vs); VList []]).
    rewrite outline_list. do 3 f_equal. assert (filter (fun v => negb (is_whitespace v)) vs = vs) as ->; [|reflexivity].
    clear -fo_parsed. induction fo_parsed as [|v vs Tv F IH]; [reflexivity|]. cbn [filter]. rewrite IH.
    destruct (typed_struct _ _ _ Tv eq_refl eq_refl) as (fs & -> & _). reflexivity.
  - rewrite H in T. discriminate.
  - exfalso. unfold parse_rust_file in E. rewrite T in E. pose proof (partition_filter ts []) as PF.
    destruct (partition_tokens ts []) as [ws toks]. cbn [snd] in PF. rewrite solid_significant in PF. subst toks.
    rewrite PI in E. destruct (apportion _ _) as [[f [|]]|]; discriminate.
  - contradiction.
Qed.
