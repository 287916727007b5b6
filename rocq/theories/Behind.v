(** Lines behind a file: the tree, with its positions.

    The tokens of the longer text that the parser sees are those of the shorter one;
    only the end of the file is elsewhere.  Positions behind the end of the shorter
    text are put back to its end ([up_to]), and the two runs are related ([Rel.run_rel]). *)

From Coq Require Import String List Arith NArith Bool Lia Sorted.
From Verif Require Import Base Peresil Token Tokenizer TokenizerSpec TokenizerLex TokenizerTop TokenizerWhole.
From Verif Require Import Schema Value Nt Grammar Points Table Typing Apportion Lib FileToks Items Whitespace WhitespaceOk LibOk FileSpec.
From Verif Require Import SpanSpec SpansOk SpansFile AheadFile Rel Layout Cut Join.
Import ListNotations.
Local Open Scope string_scope.
Local Open Scope list_scope.
Local Open Scope nat_scope.

(** Positions behind [n] are put back to [n]. *)
Definition up_to (n : nat) (e : extent) : extent := (Nat.min n (fst e), Nat.min n (snd e)).

(** The outcomes for a text of [n] bytes and for the same text with layout behind it,
    [m] bytes in all: the same tree but for whitespace and for empty extents behind
    the end; or the same error, at the same place or at either end. *)
Definition same_up_to (n m : nat) (short long : file_result) : Prop :=
  match short, long with
  | FileOk f, FileOk f' =>
      vmap (up_to n) id_nat (strip f') = strip f /\
      (forall e, In e (extents (strip f')) -> fst e < snd e -> snd e <= n)
  | FileErr l es, FileErr l' es' => es = es' /\ (l = l' \/ l = n /\ l' = m)
  | _, _ => False
  end.

Section Behind.
  Variable n : nat.
  Variables toks1 toks2 : list token.
  Hypothesis HT : map (tmap (up_to n) id_nat) toks1 = map (tmap (up_to n) id_nat) toks2.

  Lemma nth_up i :
    match nth_error toks1 i, nth_error toks2 i with
    | Some a, Some b => up_to n (token_extent a) = up_to n (token_extent b) /\ is_kind KEndOfFile a = is_kind KEndOfFile b
    | None, None => True
    | _, _ => False
    end.
  Proof.
    pose proof (f_equal (fun l => nth_error l i) HT) as H. cbn beta in H. rewrite !nth_error_map in H.
    destruct (nth_error toks1 i) as [[k e|x]|], (nth_error toks2 i) as [[k' e'|x']|]; cbn in H; try discriminate; try exact I.
    - injection H as -> H1 H2. cbn. unfold up_to. split; congruence.
    - cbn. split; [|reflexivity]. destruct x, x'; cbn in *. injection H. intros. unfold up_to. congruence.
  Qed.

  Lemma ex_up s e : bsim (fun a b => up_to n a = up_to n b) (ex toks1 s e) (ex toks2 s e).
  Proof.
    unfold ex. pose proof (nth_up (off s)) as H1. pose proof (nth_up (off e - 1)) as H2. unfold start_offset, up_to in *.
    destruct (nth_error toks1 (off s)), (nth_error toks2 (off s)); try contradiction; [|constructor].
    destruct H1 as [H1 _]. injection H1 as A B.
    destruct (off s ?= off e); try constructor.
    - destruct (sub_rank (sub s) ?= sub_rank (sub e)); constructor; cbn [fst snd]; f_equal; lia.
    - destruct (nth_error toks1 (off e - 1)), (nth_error toks2 (off e - 1)); try contradiction; constructor.
      destruct H2 as [H2 _]. injection H2 as C D. cbn [fst snd]. f_equal; lia.
  Qed.

  Lemma run_up tbl k x e pm p :
    snd (run tbl toks1 k x e pm p) = Abort OutOfFuel \/
    fst (run tbl toks1 k x e pm p) = fst (run tbl toks2 k x e pm p) /\
    ps (vs (up_to n) id_nat) (snd (run tbl toks1 k x e pm p)) (snd (run tbl toks2 k x e pm p)).
  Proof.
    assert (R : rs eq (vs (up_to n) id_nat) (run tbl toks1 k x e pm p) (run tbl toks2 k x e pm p)).
    { apply run_rel; auto; try congruence.
      - unfold id_nat. intros a b ->. tauto.
      - intros s e0 s' e0' H. unfold up_to in *. cbn [fst snd] in *. injection H as A B. repeat split; f_equal; lia.
      - intros a b a' b' H1 H2. unfold up_to in *. cbn [fst snd]. congruence.
      - intros s e0. apply ex_up.
      - split; reflexivity. }
    destruct R as [R|[[M1 M2] R]]; [left; exact R|right]. split; [|exact R].
    now apply pm_eq.
  Qed.

  Definition items_up (r1 r2 : items_result) : Prop :=
    match r1, r2 with
    | ItemsOk l1, ItemsOk l2 => map (vmap (up_to n) id_nat) l1 = map (vmap (up_to n) id_nat) l2
    | ItemsErr l1 es1, ItemsErr l2 es2 =>
        es1 = es2 /\
        exists i t1 t2, nth_error toks1 i = Some t1 /\ nth_error toks2 i = Some t2 /\
          l1 = fst (token_extent t1) /\ l2 = fst (token_extent t2)
    | ItemsAbort w, _ => True
    | _, _ => False
    end.

  Lemma len_up : List.length toks1 = List.length toks2.
  Proof. pose proof (f_equal (@List.length _) HT) as H. now rewrite !map_length in H. Qed.

  Lemma items_loop_up k : forall pm pt, items_up (items_loop toks1 k pm pt) (items_loop toks2 k pm pt).
  Proof.
    induction k as [|k IH]; intros pm pt; [exact I|]. cbn [items_loop]. pose proof (nth_up (off pt)) as H.
    assert (E : match nth_error toks1 (off pt) with Some t => is_kind KEndOfFile t | None => true end =
                match nth_error toks2 (off pt) with Some t => is_kind KEndOfFile t | None => true end)
      by (destruct (nth_error toks1 (off pt)), (nth_error toks2 (off pt)); tauto).
    rewrite E, len_up. clear E H.
    destruct (match nth_error toks2 (off pt) with Some t => is_kind KEndOfFile t | None => true end); [reflexivity|].
    pose proof (run_up table (parse_fuel (List.length toks2)) item_grammar [] pm pt) as R.
    destruct (run table toks1 (parse_fuel (List.length toks2)) item_grammar [] pm pt) as [pm1 r1],
             (run table toks2 (parse_fuel (List.length toks2)) item_grammar [] pm pt) as [pm2 r2].
    cbn [fst snd] in R. destruct R as [->|[<- R]]; [exact I|].
    destruct R as [q a b H|q er|w]; cbn [finish]; [| |exact I].
    - destruct (off pt <? off q); [|exact I]. specialize (IH pm1 q). unfold items_up in IH.
      destruct (items_loop toks1 k pm1 q), (items_loop toks2 k pm1 q); try contradiction; cbn [items_up]; auto.
      cbn [map]. unfold vs in H. congruence.
    - pose proof (nth_up (off (f_point (add_failure pt_lt (m_failures pm1) q er)))) as N.
      set (j := off (f_point (add_failure pt_lt (m_failures pm1) q er))) in *.
      destruct (nth_error toks1 j) as [t1|] eqn:E1, (nth_error toks2 j) as [t2|] eqn:E2; try contradiction; [|exact I].
      cbn [items_up]. split; [reflexivity|]. eauto 8.
  Qed.

  Lemma parse_items_up : items_up (parse_items toks1) (parse_items toks2).
  Proof. unfold parse_items. rewrite len_up. apply items_loop_up. Qed.
End Behind.

(** What lies up to [n] stays. *)
Lemma up_to_same n e : fst e <= n -> snd e <= n -> up_to n e = e.
Proof. destruct e. unfold up_to. cbn [fst snd]. intros. f_equal; lia. Qed.

Lemma vmap_up_same n v : (forall e, In e (extents v) -> fst e <= n /\ snd e <= n) -> vmap (up_to n) id_nat v = v.
Proof.
  assert (S : forall l e, (forall e, In e l -> fst e <= n /\ snd e <= n) -> In e l -> up_to n e = e)
    by (intros l e H I; destruct (H e I); now apply up_to_same).
  induction v using val_ind'; intros Q; try reflexivity; cbn [vmap extents] in *.
  - f_equal. apply (S _ _ Q). now left.
  - f_equal. assert (U : forall y, In y (number_extents n0) -> up_to n y = y) by (intros y; apply (S _ _ Q)). clear Q.
    destruct n0 as [r e i f x t u]. unfold nmap, number_extents in *. cbn [n_radix n_extent n_integral n_fractional n_exponent n_type_suffix n_underscores] in *.
    assert (O : forall o : option extent, (forall y, o = Some y -> up_to n y = y) -> option_map (up_to n) o = o)
      by (intros [y|] H; [cbn; now rewrite (H y eq_refl)|reflexivity]).
    rewrite (U e), (U i) by (cbn; auto).
    rewrite (O f), (O x), (O t); [reflexivity| | |]; intros y ->; apply U; right; right; rewrite !in_app_iff; cbn; auto.
  - f_equal. auto.
  - f_equal. apply map_id_in. rewrite Forall_forall in *. intros x I. apply H; [exact I|]. intros e Ie. apply Q. apply in_flat_map. eauto.
  - f_equal; [apply IHv1|apply IHv2]; intros e I; apply Q; apply in_or_app; auto.
  - f_equal. apply map_id_in. rewrite Forall_forall in *. intros x I. apply H; [exact I|]. intros e Ie. apply Q. apply in_flat_map. eauto.
  - f_equal. auto.
Qed.

Lemma strip_extents v e : In e (extents (strip v)) -> In e (extents v).
Proof.
  induction v using val_ind'; try (cbn [strip extents]; auto; fail).
  - cbn [strip extents]. rewrite !in_flat_map. intros (x & I & Ie). apply in_map_iff in I as (y & <- & I).
    rewrite Forall_forall in H. eauto.
  - rewrite strip_node. cbn [extents]. generalize (fields_of k).
    induction H as [|x fs Hx _ IH]; intros fields; [auto|].
    destruct fields as [|[[f t] b] fields]; cbn [flat_map]; rewrite !in_app_iff.
    + intros [I|I]; [auto|]. right. exact (IH [] I).
    + intros [I|I]; [|right; exact (IH fields I)]. destruct (String.eqb f "whitespace"); [destruct I|auto].
Qed.

(** Every item ends at a token in front of the end of the file. *)
Lemma covers_ends toks : forall o items, covers toks o items ->
  o < List.length toks /\ forall v, In v items -> exists i t, S i < List.length toks /\ nth_error toks i = Some t /\
    exists b, extent_of v = Some (b, snd (token_extent t)).
Proof.
  induction 1 as [o e H|o o' first last v items L F1 F2 E C [IH1 IH2]].
  - split; [apply nth_error_Some; congruence|]. intros v [].
  - split; [lia|]. intros w [<-|I]; [|auto]. exists (o' - 1), last. split; [lia|]. eauto.
Qed.

Theorem behind_tree X A B sp ts e tsB : xid_sane X ->
  tokenize X A = TokOk (ts ++ [Tk KEndOfFile e]) -> Forall (settled 0 A) ts -> line_end sp -> flush B ->
  tokenize X B = TokOk (tsB ++ [Tk KEndOfFile (blen B, blen B)]) -> solid tsB = [] ->
  same_up_to (blen A) (blen (A ++ sp ++ B)) (parse_rust_file X A) (parse_rust_file X (A ++ sp ++ B)).
Proof.
  intros XS TA ST LE FL TB SO. destruct (joined_solid X A B sp ts e _ XS TA ST LE FL TB) as (L & T & _ & SL).
  pose proof TA as LA. apply tokenize_iff in LA; [|exact XS]. destruct (lexes_fine _ _ _ _ LA) as (_ & _ & WA & _).
  assert (Ee : e = (blen A, blen A)).
  { destruct (tokens_tile _ _ _ TA) as (init & TI & _). apply app_inj_tail in TI as [_ TI]. congruence. }
  subst e. rewrite Forall_app in WA. destruct WA as [WA _].
  remember (blen A) as n eqn:En. remember (blen (A ++ sp ++ B)) as m eqn:Em.
  assert (SL' : solid L = solid ts ++ [Tk KEndOfFile (m, m)]).
  { rewrite SL, solid_app, SO. cbn [app solid filter is_layout negb map tmap]. unfold later. cbn [fst snd].
    assert (E : blen (A ++ sp) + blen B = m) by (rewrite Em, !blen_app; lia). rewrite ?E. reflexivity. }
  assert (SA : solid (ts ++ [Tk KEndOfFile (n, n)]) = solid ts ++ [Tk KEndOfFile (n, n)]) by (rewrite solid_app; reflexivity).
  assert (LE' : n <= m) by (rewrite Em, !blen_app; lia).
  assert (HT : map (tmap (up_to n) id_nat) (solid (ts ++ [Tk KEndOfFile (n, n)])) = map (tmap (up_to n) id_nat) (solid L)).
  { rewrite SA, SL', !map_app. cbn [map tmap]. unfold up_to. cbn [fst snd].
    rewrite Nat.min_id, (Nat.min_l n m LE'). reflexivity. }
  pose proof (parse_items_up n _ _ HT) as Q.
  pose proof (file_accepted X XS A) as A1. pose proof (file_accepted X XS (A ++ sp ++ B)) as A2.
  pose proof (file_total X XS A) as N1. pose proof (file_total X XS (A ++ sp ++ B)) as N2.
  assert (PG : forall c tl, tokenize X c = TokOk tl ->
     match parse_rust_file X c with FileTokErr _ => False | FileErr l es => parse_items (solid tl) = ItemsErr l es | _ => True end).
  { intros c tl Tc. unfold parse_rust_file. rewrite Tc. pose proof (partition_filter tl []) as PF.
    destruct (partition_tokens tl []) as [ws toks]. cbn [snd] in PF. rewrite PF, solid_significant.
    destruct (parse_items (solid tl)); try exact I; try reflexivity.
    destruct (apportion _ _) as [[f [|]]|]; exact I. }
  pose proof (PG _ _ TA) as P1. pose proof (PG _ _ T) as P2. clear PG.
  pose proof (file_extents X XS A) as X1. pose proof (file_laid_out X (A ++ sp ++ B)) as LO.
  destruct (parse_rust_file X A) as [f1|e1|l1 es1|w1]; [|contradiction| |now destruct (N1 w1)].
  - destruct (A1 f1 eq_refl) as (ts1' & p1 & T1' & I1 & F1). rewrite TA in T1'. injection T1' as <-.
    rewrite I1 in Q.
    destruct (parse_rust_file X (A ++ sp ++ B)) as [f2|e2|l2 es2|w2]; [|contradiction| |now destruct (N2 w2)].
    + destruct (A2 f2 eq_refl) as (ts2' & p2 & T2' & I2 & F2). rewrite T in T2'. injection T2' as <-.
      rewrite I2 in Q. cbn [items_up] in Q. cbn [same_up_to]. split.
      * rewrite <- (vmap_up_same n (strip f1)).
        -- rewrite (fo_strip _ _ _ _ _ F1), (fo_strip _ _ _ _ _ F2), !strip_vmap. cbn [vmap map]. now rewrite Q.
        -- intros x Ix. apply strip_extents in Ix. destruct (X1 f1 eq_refl x Ix). lia.
      * intros x Ix NE. specialize (LO f2 XS eq_refl). rewrite (fo_strip _ _ _ _ _ F2) in LO, Ix.
        pose proof (fo_parsed _ _ _ _ _ F2) as TY. rewrite Forall_forall in TY.
        assert (CV : covers (solid L) 0 p2).
        { destruct (solid_wf X _ L XS T) as [WF WT]. pose proof (parse_items_ok (solid L) WF _ WT) as H. rewrite I2 in H. tauto. }
        destruct (covers_ends _ _ _ CV) as [_ CE].
        assert (Ix' : exists v, In v p2 /\ In x (extents (strip v))).
        { change (In x (extents (VNode "File" [VList (map strip p2); VList []]))) in Ix. cbn [extents flat_map] in Ix. rewrite !app_nil_r in Ix.
          apply in_flat_map in Ix as (y & Iy & Iy'). apply in_map_iff in Iy as (v & <- & Iv). eauto. }
        destruct Ix' as (v & Iv & Ixv). destruct (CE v Iv) as (i & t & Li & Ni & b & EX).
        rewrite SL', app_length in Li. cbn [List.length] in Li. rewrite SL', nth_error_app1 in Ni by lia.
        apply nth_error_In in Ni. unfold solid in Ni. apply filter_In in Ni as [Ni _]. rewrite Forall_forall in WA. destruct (WA t Ni) as [_ Wt].
        rewrite <- (item_strip_extent v (TY v Iv)) in EX.
        assert (LV : laid_out (strip v)).
        { change (laid_out (VNode "File" [VList (map strip p2); VList []])) in LO. cbn [laid_out fold_right] in LO. destruct LO as [[[LO _] _] _].
          clear - LO Iv. induction p2 as [|a p2 IH]; [destruct Iv|]. cbn [map fold_right] in LO. destruct LO, Iv as [<-|]; auto. }
        destruct (typed_struct _ _ _ (TY v Iv) eq_refl eq_refl) as (fs & -> & F).
        rewrite strip_node in *. cbn [laid_out] in LV. destruct LV as (_ & _ & NI).
        specialize (NI eq_refl (b, snd (token_extent t))). unfold within in NI. rewrite Forall_forall in NI.
        cbn [extents] in NI, Ixv. 
        assert (G : forall fs', extent_of (VNode "Attributed<Item>" fs') = Some (b, snd (token_extent t)) -> get_field "extent" (VNode "Attributed<Item>" fs') = Some (VExt (b, snd (token_extent t)))).
        { intros fs' Hf. destruct fs' as [|[] fs']; try discriminate Hf. injection Hf as ->. reflexivity. }
        specialize (NI (G _ EX) x Ixv NE). cbn [snd] in NI. lia.
    + rewrite P2 in Q. contradiction.
  - rewrite P1 in Q.
    destruct (parse_rust_file X (A ++ sp ++ B)) as [f2|e2|l2 es2|w2]; [|contradiction| |now destruct (N2 w2)].
    + destruct (A2 f2 eq_refl) as (ts2' & p2 & T2' & I2 & F2). rewrite T in T2'. injection T2' as <-.
      rewrite I2 in Q. contradiction.
    + rewrite P2 in Q. destruct Q as (-> & i & t1 & t2 & E1 & E2 & -> & ->). cbn [same_up_to]. split; [reflexivity|].
      rewrite SA in E1. rewrite SL' in E2. destruct (Nat.lt_ge_cases i (List.length (solid ts))) as [H|H].
      * rewrite nth_error_app1 in E1, E2 by exact H. left. congruence.
      * rewrite nth_error_app2 in E1, E2 by exact H. destruct (i - List.length (solid ts)) as [|[|]]; try discriminate.
        injection E1 as <-. injection E2 as <-. right. auto.
Qed.
