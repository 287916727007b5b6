(** The syntax tree of a file is laid out like its source. *)

From Coq Require Import String List Arith Bool Lia.
From Verif Require Import Base Peresil Token Tokenizer TokenizerSpec TokenizerWhole.
From Verif Require Import Schema Value Nt Grammar Points Table Static Typing Safety Apportion Lib FileToks Items
  Whitespace WhitespaceOk Fresh Extents LibOk FileSpec SpanSpec Deriv DerivMono DerivOk Spans SpansOk SpansDer.
Import ListNotations.
Local Open Scope string_scope.
Local Open Scope list_scope.
Local Open Scope nat_scope.

(** * The items of a file are derived *)

Inductive file_der (toks : list token) : point -> list val -> Prop :=
| fd_end p e : nth_error toks (off p) = Some (Tk KEndOfFile e) -> file_der toks p []
| fd_item p q v items : der toks item_grammar [] p q v -> off p < off q -> sub q = None -> valid toks q ->
    file_der toks q items -> file_der toks p (v :: items).

Lemma loop_der toks : wf_toks toks -> forall n pm p items, valid toks p -> sub p = None -> pm_ok toks pm ->
  items_loop toks n pm p = ItemsOk items -> file_der toks p items.
Proof.
  intros WF n. induction n as [|n IH]; intros pm p items V SN P L; [discriminate|]. cbn [items_loop] in L.
  pose proof V as V'. destruct V' as (t & T & _). rewrite T in L. destruct (is_kind KEndOfFile t) eqn:EOF.
  - injection L as <-. destruct t as [k e|]; [|discriminate]. cbn [is_kind] in EOF. apply tkind_eqb_eq in EOF. subst k. econstructor; eauto.
  - pose proof (Items.item_ok toks WF p pm V P SN) as H.
    pose proof (run_der toks WF (parse_fuel (List.length toks)) item_grammar false [] p pm eq_refl V ltac:(discriminate) P) as D.
    destruct (run table toks (parse_fuel (List.length toks)) item_grammar [] pm p) as [pm1 [q v|q e|w]]; [| |tauto].
    2:{ cbn [Peresil.finish] in L. destruct (nth_error toks _); discriminate. }
    cbn [Peresil.finish] in L. destruct H as (P1 & _ & Vq & Lq & Sq & _). rewrite (proj2 (Nat.ltb_lt _ _) Lq) in L.
    destruct (items_loop toks n pm1 q) as [l| |] eqn:E; try discriminate. injection L as <-.
    destruct D as (_ & _ & _ & D). econstructor; eauto.
Qed.

Lemma parse_der toks items : wf_toks toks -> parse_items toks = ItemsOk items -> file_der toks pt_zero items.
Proof.
  intros WF E. eapply loop_der; eauto.
  - now apply valid_zero.
  - now apply pm_ok_new.
Qed.

(** * Numbers *)

Lemma number_token_parts X s off n rest : number_token X s off n rest -> num_ord n.
Proof.
  intros (rx & prefix & base & digits & frac & expo & suffix & -> & _ & _ & _ & _ & _ & _ & _ & ->).
  unfold num_ord. cbn [n_integral n_fractional n_exponent n_type_suffix].
  assert (forall o1 d1 w1 o2 d2 w2, o1 + blen w1 <= o2 -> before (vopt (part_extent o1 d1 w1)) (vopt (part_extent o2 d2 w2))) as PP.
  { intros o1 d1 [|c1 w1] o2 d2 [|c2 w2] L x y; cbn [part_extent vopt extents In]; try tauto; intros [<-|[]] [<-|[]]; cbn [fst snd]; lia. }
  assert (forall x o2 d2 w2, snd x <= o2 -> before (VExt x) (vopt (part_extent o2 d2 w2))) as PE.
  { intros x o2 d2 [|c2 w2] L y z; cbn [part_extent vopt extents In]; [intros _ []|]. intros [<-|[]] [<-|[]]; cbn [fst snd]. lia. }
  pairs; try apply PE; try apply PP; cbn [snd]; rewrite ?blen_app; lia.
Qed.

Lemma tokens_num X code ts : xid_sane X -> tokenize X code = TokOk ts -> forall n, In (TkNumber n) ts -> num_ord n.
Proof.
  intros XS T n. apply tokenize_iff in T; [|exact XS]. induction T as [off|s off t rest ts NE A L IH].
  - intros [H|[]]. discriminate.
  - intros [H|H]; [|auto]. subst t. inversion A; subst. eapply number_token_parts; eauto.
Qed.

(** * Items *)

Section File.
  Variable toks : list token.
  Hypothesis WF : wf_toks toks.
  Hypothesis NUM : forall i n, nth_error toks i = Some (TkNumber n) -> num_ord n.

  Lemma item_laid p q v : valid toks p -> der toks item_grammar [] p q v ->
    Forall (inside (sb toks p) (sb toks q)) (extents v) /\ laid_out v.
  Proof.
    intros V D. pose proof (proj1 (spans_all toks WF NUM) _ _ _ _ _ D) as H.
    destruct (tchk [] 0 still item_grammar) as [r|] eqn:C; [|vm_compute in C; discriminate].
    destruct (der_top toks _ _ _ _ _ _ H V C) as [_ _ R _ _ _ _ _ L]. auto.
  Qed.

  Lemma file_laid p items : valid toks p -> file_der toks p items ->
    (forall x, In x (flat_map extents items) -> sb toks p <= fst x) /\ laid_out (VList items).
  Proof.
    intros V D. induction D as [p e E|p q v items D L SN Vq F IH].
    - split; [intros x []|]. apply laid_nil.
    - destruct (IH Vq) as [I1 I2]. destruct (item_laid _ _ _ V D) as [A B]. rewrite Forall_forall in A. destruct (der_mono _ WF _ _ _ _ _ D V) as [_ Lp].
      pose proof (sb_mono _ WF _ _ V Vq Lp). split.
      + cbn [flat_map]. intros x Hx. apply in_app_iff in Hx as [Hx|Hx].
        * specialize (A x Hx). unfold inside in A. lia.
        * specialize (I1 x Hx). lia.
      + apply laid_list in I2 as [I2 I3]. apply laid_list. split; [now constructor|]. constructor; [|auto].
        apply Forall_forall. intros w Hw x y Hx Hy. specialize (A x Hx). unfold inside in A.
        assert (sb toks q <= fst y) by (apply I1; apply in_flat_map; eauto). lia.
  Qed.
End File.

(** * Stripping a value that holds no whitespace *)

Lemma free_strip v : forall t, typed v t -> wsfree v -> strip v = v.
Proof.
  induction v as [e|b|n|p|n| | |v IH|l IH|a b IHa IHb|k fs IH|en vn p IH] using val_ind'; intros t T F; try reflexivity.
  - inversion T as [| | | | | | |? u Tv| | | | |]; subst. cbn [strip]. f_equal. exact (IH _ Tv F).
  - inversion T as [| | | | | | | |? u Tl| | | |]; subst. cbn [strip]. f_equal. apply free_list in F. rewrite <- (map_id l) at 2. apply map_ext_in.
    rewrite Forall_forall in *. intros x Hx. eauto.
  - assert (t = TN k) as -> by (inversion T; reflexivity). rewrite strip_node. f_equal.
    pose proof (free_no_entries _ _ T F) as W. apply free_node in F. inversion T as [| | | | | | | | | |k' fs' fields S Tf| |]; subst.
    assert (forall i f t b, nth_error fields i = Some (f, t, b) -> String.eqb f "whitespace" = true -> t = TList (TN "Whitespace")) as Q.
    { assert (forallb (fun s => forallb (fun x => let '(f, t, _) := x in
                  implb (String.eqb f "whitespace") match t with TList (TN w) => String.eqb w "Whitespace" | _ => false end) (snd s))
                (structs ++ internal_structs) = true) as H by (vm_compute; reflexivity).
      pose proof (assoc_forallb _ _ _ _ H S) as H1. cbn [snd] in H1. rewrite forallb_forall in H1.
      intros i f t b N E. apply nth_error_In in N. specialize (H1 _ N). cbn beta iota in H1. rewrite E in H1. cbn [implb] in H1.
      destruct t as [| | | | | | |u| |]; try discriminate. destruct u; try discriminate. apply String.eqb_eq in H1. now subst. }
    unfold fields_of. rewrite S. clear -IH F Tf Q.
    induction Tf as [|x [[f t] b] fs fields Hx Tf IHf]; [reflexivity|]. apply Forall_cons_iff in IH as [I1 I2]. apply Forall_cons_iff in F as [F1 F2].
    cbn [strip_fields]. cbn [fst snd] in Hx. rewrite IHf; auto; [|intros i f' t' b' N; exact (Q (S i) f' t' b' N)]. f_equal.
    destruct (String.eqb f "whitespace") eqn:E; [|eauto].
    specialize (Q 0 _ _ _ eq_refl E). subst t. inversion Hx as [| | | | | | | |l u Tl| | | |]; subst. now rewrite (free_ws_list l Tl F1).
  - inversion T as [| | | | | | | | | | |e' n' p' vs' t' E' A' P'|]; subst; [|reflexivity].
    cbn [strip]. f_equal. apply free_payload in F. exact (IH _ P' F).
Qed.

Theorem file_laid_out X code f : xid_sane X -> parse_rust_file X code = FileOk f -> laid_out (strip f).
Proof.
  intros XS E. pose proof (parse_rust_file_ok X code XS) as H. rewrite E in H. destruct H as (ts & parsed & T & P & F).
  destruct (partition_tokens ts []) as [ws toks] eqn:PT.
  destruct (tokens_wf _ _ _ _ _ XS T PT) as [WF WI].
  assert (toks = filter significant ts) as TE by (now rewrite <- (partition_filter ts []), PT). rewrite <- TE in *.
  pose proof (parse_items_ok toks WF (blen code) WI) as H. rewrite P in H. destruct H as (_ & Ty & _).
  destruct F. rewrite fo_strip.
  assert (forall i n, nth_error toks i = Some (TkNumber n) -> num_ord n) as NUM.
  { intros i n Hn. apply nth_error_In in Hn. rewrite TE in Hn. apply filter_In in Hn as [Hn _]. eapply tokens_num; eauto. }
  pose proof (file_laid toks WF NUM _ _ (valid_zero _ WF) (parse_der _ _ WF P)) as [_ L].
  rewrite strip_node. change (fields_of "File") with [("items", TList (TN "Attributed<Item>"), true); ("whitespace", TList (TN "Whitespace"), true)].
  cbn [strip_fields]. cbn [strip String.eqb Ascii.eqb Bool.eqb].
  assert (map strip parsed = parsed) as ->.
  { rewrite <- (map_id parsed) at 2. apply map_ext_in. intros x Hx. rewrite Forall_forall in *. eapply free_strip; eauto. }
  apply laid_node. split; [constructor; [exact L|constructor; [apply laid_nil|constructor]]|]. split.
  - unfold node_ord. cbn -[before]. pairs; cbn [fst snd]; intros _; left; apply before_nil_r; reflexivity.
  - intros _ x G. discriminate.
Qed.

(** * Parts *)

Lemma laid_part w v : part_of w v -> laid_out v -> laid_out w.
Proof.
  induction 1 as [|v P IH|e t v P IH|a b P IH|a b P IH|v l I P IH|v k fs I P IH]; auto.
  - intros [A _]. auto.
  - intros [_ A]. auto.
  - intros L. apply laid_list in L as [L _]. rewrite Forall_forall in L. auto.
  - intros L. apply laid_node in L as [L _]. rewrite Forall_forall in L. auto.
Qed.

Lemma index_nth f fields : forall i, nth_error (map field_name fields) i = Some f -> NoDup (map field_name fields) -> field_index f fields = Some i.
Proof.
  induction fields as [|[[n t] b] fields IH]; intros [|i] H N; try discriminate; cbn [map nth_error field_name fst] in *.
  - injection H as ->. cbn [field_index]. now rewrite String.eqb_refl.
  - inversion N as [|? ? A B]; subst. cbn [field_index]. destruct (String.eqb f n) eqn:E.
    + apply String.eqb_eq in E. subst. exfalso. apply A. eapply nth_error_In; eauto.
    + now rewrite (IH _ H B).
Qed.

Lemma pairs_nth {A} (R : A -> A -> Prop) l : ForallOrdPairs R l -> forall i j x y, i < j -> nth_error l i = Some x -> nth_error l j = Some y -> R x y.
Proof.
  induction 1 as [|a l F O IH]; intros i j x y L X Y; [destruct i; discriminate|]. destruct j as [|j]; [lia|]. cbn [nth_error] in Y.
  destruct i as [|i]; cbn [nth_error] in X.
  - injection X as <-. rewrite Forall_forall in F. apply F. eapply nth_error_In; eauto.
  - apply (IH i j); auto. lia.
Qed.

Lemma combine_nth_error {A B} (l : list A) : forall (m : list B) i x y, nth_error l i = Some x -> nth_error m i = Some y -> nth_error (combine l m) i = Some (x, y).
Proof.
  induction l as [|a l IH]; intros [|b m] [|i] x y X Y; try discriminate; cbn [nth_error combine] in *; auto. now injection X as ->; injection Y as ->.
Qed.

Fixpoint nodupb (l : list string) : bool :=
  match l with [] => true | x :: l' => negb (existsb (String.eqb x) l') && nodupb l' end.

Lemma nodupb_spec l : nodupb l = true -> NoDup l.
Proof.
  induction l as [|x l IH]; cbn [nodupb]; intros H; [constructor|]. apply andb_true_iff in H as [A B]. constructor; [|auto].
  intros I. apply negb_true_iff in A. rewrite <- not_true_iff_false in A. apply A. apply existsb_exists. exists x. split; [auto|]. apply String.eqb_refl.
Qed.

Lemma struct_nodup k fields : struct_fields k = Some fields -> NoDup (map field_name fields).
Proof.
  assert (forallb (fun s => nodupb (map field_name (snd s))) (structs ++ internal_structs) = true) as H by (vm_compute; reflexivity).
  intros S. apply nodupb_spec. exact (assoc_forallb _ _ _ _ H S).
Qed.

Lemma ordered_fields k fs a b x y : node_ord k fs -> declared_before k a b -> get_field a (VNode k fs) = Some x -> get_field b (VNode k fs) = Some y ->
  a <> "extent" -> ~ In (k, a, b) unordered ->
  before x y \/ (k = "Attributed<Expression>" /\ a = "attributes" /\ prefix_operation y = true).
Proof.
  intros N (fields & i & j & SF & L & A & B) Ga Gb NE NU. unfold node_ord in N. rewrite SF in N.
  pose proof (struct_nodup _ _ SF) as ND. unfold get_field in Ga, Gb. rewrite SF in Ga, Gb.
  rewrite (index_nth _ _ _ A ND) in Ga. rewrite (index_nth _ _ _ B ND) in Gb.
  refine (pairs_nth _ _ N i j (a, x) (b, y) L _ _ _); try (apply combine_nth_error; auto).
  cbn [fst snd]. unfold ordered_pair. apply andb_true_iff. split.
  - apply negb_true_iff. now apply String.eqb_neq.
  - apply negb_true_iff. destruct (existsb _ unordered) eqn:E; [|auto]. exfalso. apply existsb_exists in E as ([[k' a'] b'] & I & E).
    apply andb_true_iff in E as [E E3]. apply andb_true_iff in E as [E1 E2]. apply String.eqb_eq in E1, E2, E3. subst. auto.
Qed.

Lemma hollow_spec k : is_hollow k = false <-> ~ In k hollow.
Proof.
  unfold is_hollow. rewrite <- not_true_iff_false. split; intros H I; apply H; clear H.
  - apply existsb_exists. exists k. split; [auto|]. apply String.eqb_refl.
  - apply existsb_exists in I as (x & I & E). apply String.eqb_eq in E. now subst.
Qed.
