(** [parse_rust_file]: total, and what an accepted file looks like. *)

From Coq Require Import String List Arith Bool Lia Permutation Sorted.
From Verif Require Import Base Peresil Token Tokenizer TokenizerSpec TokenizerIter TokenizerWhole.
From Verif Require Import Schema Value Nt Grammar Points Table Static Typing Safety RunOk Apportion Lib
  FileToks Items Whitespace WhitespaceOk Closure Fresh Extents.
Import ListNotations.
Local Open Scope string_scope.
Local Open Scope list_scope.
Local Open Scope nat_scope.

(** * Parsed trees have no whitespace entries *)

Lemma schema_whitespace_field k fields i : struct_fields k = Some fields -> field_index "whitespace" fields = Some i ->
  exists b, nth_error fields i = Some ("whitespace", TList (TN "Whitespace"), b).
Proof.
  assert (forallb (fun s => match field_index "whitespace" (snd s) with
                            | Some i => match nth_error (snd s) i with
                                        | Some (f, TList (TN w), _) => String.eqb f "whitespace" && String.eqb w "Whitespace"
                                        | _ => false
                                        end
                            | None => true
                            end) (structs ++ internal_structs) = true) as H by (vm_compute; reflexivity).
  intros S F. pose proof (assoc_forallb _ _ _ _ H S) as H1. cbn [snd] in H1. rewrite F in H1.
  destruct (nth_error fields i) as [[[f t] b]|]; [|discriminate].
  destruct t as [| | | | | | |u| |]; try discriminate. destruct u as [| | | | | | | | |nm]; try discriminate.
  apply andb_true_iff in H1. destruct H1 as [A B]. apply String.eqb_eq in A. apply String.eqb_eq in B. subst. eauto.
Qed.

Lemma free_ws_list l : (forall v, In v l -> typed v (TN "Whitespace")) -> wsfree (VList l) -> l = [].
Proof. intros T F. unfold wsfree in F. cbn [whitespaces] in F. destruct (ws_values l T) as [_ <-]. exact F. Qed.

Lemma free_no_entries k fs : typed (VNode k fs) (TN k) -> wsfree (VNode k fs) -> whitespace_of (VNode k fs) = [].
Proof.
  intros T F. unfold whitespace_of, get_field. inversion T as [| | | | | | | | | |k' fs' fields S Tf| |]; subst.
  rewrite S. destruct (field_index "whitespace" fields) as [i|] eqn:FI; [|reflexivity].
  destruct (nth_error fs i) as [x|] eqn:N; [|reflexivity]. destruct x as [| | | | | | | |l| | |]; try reflexivity.
  destruct (schema_whitespace_field _ _ _ S FI) as (b & NF).
  assert (typed (VList l) (TList (TN "Whitespace"))) as Tl.
  { clear -Tf N NF. revert i N NF. induction Tf; intros [|i] N NF; try discriminate; cbn in N, NF; eauto.
    injection N as ->. injection NF as ->. exact H. }
  inversion Tl; subst. apply free_ws_list; [auto|]. apply free_node in F. rewrite Forall_forall in F. apply F.
  eapply nth_error_In; eauto.
Qed.

Lemma free_fresh v : forall t, typed v t -> wsfree v -> fresh v.
Proof.
  induction v as [e|b|n|p|n| | |v IH|l IH|a b IHa IHb|k fs IH|en vn p IH] using val_ind';
    intros t T F; try (constructor; fail).
  - inversion T as [| | | | | | |? u Tv| | | | |]; subst. exact (IH _ Tv F).
  - inversion T; subst. apply fresh_list. apply free_list in F. rewrite Forall_forall in *. intros x Hx. eauto.
  - assert (t = TN k) as -> by (inversion T; reflexivity). unfold fresh. rewrite nodes_node.
    constructor; [now apply free_no_entries|]. change (fresh (VList (reached fs (fields_of k)))). apply fresh_list.
    apply free_node in F. inversion T as [| | | | | | | | | |k' fs' fields S Tf| |]; subst.
    unfold fields_of. rewrite S. clear -IH F Tf.
    induction Tf as [|x [[f t] b] fs fields Hx Tf IHf]; [constructor|]. inversion IH; subst. inversion F; subst.
    cbn [reached]. destruct b; [constructor|]; eauto.
  - inversion T as [| | | | | | | | | | |e' n' p' vs' t' E' A' P'|]; subst; [|constructor].
    apply free_payload in F. exact (IH _ P' F).
Qed.

(** * The whitespace map *)

(** The whitespace and comments of a token list, as AST entries. *)
Definition ws_entries (ts : list token) : list val :=
  flat_map (fun t => match whitespace_node t with Some w => [w] | None => [] end) ts.

Definition entry (w : val) : nat * val := (start_of w, w).

Lemma whitespace_node_spec t w : whitespace_node t = Some w ->
  typed w (TN "Whitespace") /\ extent_of w = Some (token_extent t) /\ extents w = [token_extent t] /\
  is_kind KEndOfFile t = false.
Proof.
  destruct t as [k e|]; [|discriminate]. destruct k; try discriminate; intros [= <-]; (split; [|auto]);
    econstructor; try reflexivity; try (econstructor; try reflexivity); constructor.
Qed.

Lemma ws_insert_last k w m : Forall (fun x => fst x < k) m -> ws_insert k w m = m ++ [(k, w)].
Proof.
  induction 1 as [|[k' w'] m H F IH]; [reflexivity|]. cbn [ws_insert fst] in *.
  destruct (Nat.compare_spec k k') as [->|L|L]; [lia|lia|]. now rewrite IH.
Qed.

Lemma partition_map ts : forall m, StronglySorted tok_le ts ->
  Forall (fun t => is_kind KEndOfFile t = false -> fst (token_extent t) < snd (token_extent t)) ts ->
  Forall (fun x => Forall (fun t => fst x < fst (token_extent t) \/ whitespace_node t = None) ts) m ->
  fst (partition_tokens ts m) = m ++ map entry (ws_entries ts).
Proof.
  induction ts as [|t ts IH]; intros m SS NE LT; [now rewrite app_nil_r|].
  inversion SS as [|? ? S1 S2]; subst. inversion NE as [|? ? N1 N2]; subst.
  cbn [partition_tokens]. unfold ws_entries. cbn [flat_map].
  assert (Forall (fun x => Forall (fun t => fst x < fst (token_extent t) \/ whitespace_node t = None) ts) m) as LT'.
  { eapply Forall_impl; [|exact LT]. intros x Hx. now inversion Hx. }
  destruct (whitespace_node t) as [w|] eqn:W.
  - destruct (whitespace_node_spec _ _ W) as (_ & E & _ & K). unfold ws_push. rewrite E.
    rewrite ws_insert_last.
    2:{ eapply Forall_impl; [|exact LT]. intros x Hx. inversion Hx as [|? ? H _]; subst. destruct H; [auto|congruence]. }
    rewrite IH; auto.
    + rewrite <- app_assoc. cbn [app map]. unfold entry at 2, start_of. rewrite E. reflexivity.
    + apply Forall_app. split; [auto|]. constructor; [|constructor]. cbn [fst].
      eapply Forall_impl; [|exact S2]. intros u Hu. left. specialize (N1 K). unfold tok_le in Hu. lia.
  - specialize (IH m S1 N2 LT'). destruct (partition_tokens ts m) as [m' l]. cbn [fst] in *. exact IH.
Qed.

(** What is known of every extent in a file: it lies in the text, it starts at a
    character boundary, and, unless the text has text direction marks, it ends at one. *)
Definition file_extent (code : text) (e : extent) : Prop := inside 0 (blen code) e /\ good_extent code e.

Lemma file_extent_ordered code e : file_extent code e -> fst e <= snd e.
Proof. intros [H _]. unfold inside in H. lia. Qed.

Lemma entries_wsm (Q : extent -> Prop) ts : StronglySorted tok_le ts ->
  Forall (fun t => is_kind KEndOfFile t = false -> fst (token_extent t) < snd (token_extent t)) ts ->
  Forall (fun t => is_kind KEndOfFile t = false -> Q (token_extent t)) ts -> wsm Q (map entry (ws_entries ts)).
Proof.
  intros SS NE WI. induction SS as [|t ts SS IH F]; [split; constructor|].
  inversion NE as [|? ? N1 N2]; subst. inversion WI as [|? ? W1 W2]; subst.
  unfold ws_entries. cbn [flat_map]. destruct (whitespace_node t) as [w|] eqn:W; [|now apply IH].
  destruct (IH N2 W2) as [A B]. destruct (whitespace_node_spec _ _ W) as (T & E & EX & K). specialize (N1 K).
  cbn [app map]. split; constructor; auto.
  - cbn [fst snd entry]. unfold start_of. rewrite E. split; [auto|]. split; [eauto|].
    unfold vq. rewrite EX. constructor; [|constructor]. auto.
  - apply Forall_forall. intros x Hx. apply in_map_iff in Hx. destruct Hx as (w' & <- & Hw).
    unfold ws_entries in Hw. apply in_flat_map in Hw. destruct Hw as (t' & Ht & Hw).
    destruct (whitespace_node t') as [w2|] eqn:W'; [|destruct Hw]. destruct Hw as [<-|[]].
    destruct (whitespace_node_spec _ _ W') as (_ & E' & _). rewrite Forall_forall in F. specialize (F t' Ht).
    cbn [entry fst]. unfold start_of. rewrite E, E'. unfold tok_le in F. lia.
Qed.

Lemma entries_snd l : map snd (map entry l) = l.
Proof. rewrite map_map. cbn [entry snd]. apply map_id. Qed.

(** * The file *)

(** The root takes the entries that no node below it collects. *)
Definition root_placed (f : val) : Prop :=
  StronglySorted (fun a b => start_of a < start_of b) (whitespace_of f) /\
  forall w, In w (whitespace_of f) -> collected (start_of w) (below f) = false.

Record file_ok (code : text) (toks : list token) (ws : list val) (parsed : list val) (f : val) : Prop := {
  fo_typed : typed f (TN "File");
  fo_parsed : Forall (fun v => typed v (TN "Attributed<Item>")) parsed;
  fo_parsed_fresh : Forall wsfree parsed;
  fo_strip : strip f = strip (VNode "File" [VList parsed; VList []]);
  fo_extents : vq (file_extent code) f;
  fo_cover : exists items, get_field "items" f = Some (VList items) /\ covers toks 0 items;
  fo_ws : Permutation (whitespaces f) ws;
  fo_root : root_placed f;
  fo_placed : Forall placed (below f)
}.

Lemma item_strip_extent v : typed v (TN "Attributed<Item>") -> extent_of (strip v) = extent_of v.
Proof.
  intros T. destruct (typed_struct _ _ _ T eq_refl eq_refl) as (fs & -> & F). rewrite strip_node.
  inversion F as [|x ? fs' ? Hx F']; subst. cbn [snd fst] in Hx. inversion Hx; subst. reflexivity.
Qed.

Lemma covers_extents toks : forall items o items', covers toks o items ->
  map extent_of items' = map extent_of items -> covers toks o items'.
Proof.
  intros items o items' C. revert items'. induction C as [o e H|o o' first last v items L F1 F2 E C IH]; intros [|v' items'] M;
    try discriminate.
  - econstructor; eauto.
  - cbn [map] in M. injection M as M1 M2. econstructor; eauto. now rewrite M1.
Qed.

Lemma file_apportioned code toks items m : Forall (fun v => typed v (TN "Attributed<Item>")) items ->
  Forall wsfree items -> Forall (vq (file_extent code)) items -> covers toks 0 items -> wsm (file_extent code) m ->
  exists f, apportion (VNode "File" [VList items; VList []]) m = BOk (f, []) /\
    file_ok code toks (map snd m) items f.
Proof.
  intros T F V C W.
  rewrite (apportion_node "File" _ _ _ eq_refl). cbn [ap_fields]. rewrite apportion_list.
  assert (Forall ap_spec items) as AS by (apply Forall_forall; intros; apply apportion_ok).
  assert (Forall fresh items) as FR.
  { rewrite Forall_forall in *. intros x Hx. eapply free_fresh; eauto. }
  rewrite Forall_forall in T.
  destruct (list_ok (file_extent code) (TN "Attributed<Item>") (file_extent_ordered code) eq_refl items AS m T V W FR)
    as (items' & m' & E & T2 & VV & S2 & C2 & L2 & P2 & PL2 & LN).
  rewrite E. cbn [bbind apportion].
  assert (wsm (file_extent code) m') as W' by (subst m'; now apply wsm_filter).
  assert (forall w, In w (map snd m') -> typed w (TN "Whitespace")) as TW.
  { intros w Hw. apply in_map_iff in Hw. destruct Hw as (x & <- & Hx). destruct W' as [W1 _].
    rewrite Forall_forall in W1. now apply W1. }
  destruct (ws_values _ TW) as [NW WW].
  exists (VNode "File" [VList items'; VList (map snd m')]). split; [reflexivity|].
  assert (typed (VNode "File" [VList items'; VList (map snd m')]) (TN "File")) as TF.
  { econstructor; [reflexivity|]. repeat constructor; auto. }
  assert (nodes (VNode "File" [VList items'; VList (map snd m')]) =
          VNode "File" [VList items'; VList (map snd m')] :: flat_map nodes items') as NN.
  { rewrite nodes_node. f_equal.
    change (reached [VList items'; VList (map snd m')] (fields_of "File")) with [VList items'; VList (map snd m')].
    cbn [flat_map nodes]. rewrite NW, !app_nil_r. reflexivity. }
  assert (whitespace_of (VNode "File" [VList items'; VList (map snd m')]) = map snd m') as WO by reflexivity.
  constructor.
  - exact TF.
  - now apply Forall_forall.
  - exact F.
  - rewrite !strip_node. change (fields_of "File") with [("items", TList (TN "Attributed<Item>"), true); ("whitespace", TList (TN "Whitespace"), true)].
    cbn [strip_fields]. cbn [strip String.eqb Ascii.eqb Bool.eqb]. now rewrite S2.
  - change (vq (file_extent code) (VList [VList items'; VList (map snd m')])). apply vq_forall.
    constructor; [now apply vq_forall|]. constructor; [|constructor]. apply vq_forall.
    apply Forall_forall. intros w Hw. apply in_map_iff in Hw. destruct Hw as (x & <- & Hx). destruct W' as [W1 _].
    rewrite Forall_forall in W1. now apply W1.
  - exists items'. split; [reflexivity|]. eapply covers_extents; [exact C|].
    transitivity (map extent_of (map strip items')).
    + rewrite map_map. apply map_ext_in. intros x Hx. symmetry. apply item_strip_extent. auto.
    + rewrite S2, map_map. apply map_ext_in. intros x Hx. apply item_strip_extent. auto.
  - cbn [whitespaces flat_map]. rewrite app_nil_r, WW. rewrite P2.
    apply free_list in F. unfold wsfree in F. cbn [whitespaces] in F. rewrite F. reflexivity.
  - split; rewrite WO.
    + now apply sorted_starts with (Q := file_extent code).
    + intros w Hw. apply in_map_iff in Hw. destruct Hw as (x & <- & Hx). rewrite (wsm_start _ _ _ W' Hx).
      unfold below. rewrite NN. cbn [tl]. rewrite (collected_map _ _ _ C2). rewrite L2 in Hx. unfold untaken in Hx.
      apply filter_In in Hx. destruct Hx as [_ Hx]. now apply negb_true_iff in Hx.
  - unfold below. rewrite NN. cbn [tl]. exact PL2.
Qed.

Theorem parse_rust_file_ok X code : xid_sane X ->
  match parse_rust_file X code with
  | FileOk f => exists ts parsed, tokenize X code = TokOk ts /\
      parse_items (filter significant ts) = ItemsOk parsed /\
      file_ok code (filter significant ts) (ws_entries ts) parsed f
  | FileTokErr e => tokenize X code = TokErr e
  | FileErr loc errs => errs <> [] /\ exists ts t, tokenize X code = TokOk ts /\
      In t (filter significant ts) /\ loc = fst (token_extent t)
  | FileAbort _ => False
  end.
Proof.
  intros XS. unfold parse_rust_file.
  destruct (tokenize X code) as [ts|e|w] eqn:T.
  2:{ reflexivity. }
  2:{ pose proof (tokenize_spec X code) as H. rewrite T in H. exact H. }
  destruct (partition_tokens ts []) as [ws toks] eqn:P.
  destruct (tokens_wf _ _ _ _ _ XS T P) as [WF WI].
  assert (toks = filter significant ts) as TE by (now rewrite <- (partition_filter ts []), P).
  pose proof (parse_items_ok toks WF (blen code) WI) as H.
  destruct (parse_items toks) as [items|loc errs|w] eqn:PI; [| |tauto].
  - destruct H as (C & Ty & V).
    assert (Forall (vok toks (good_extent code)) items) as G.
    { rewrite TE in PI |- *. eapply items_good; eauto. intros n Hn. discriminate. }
    assert (Forall wsfree items) as F by (eapply Forall_impl; [|exact G]; intros x (Hx & _); exact Hx).
    assert (Forall (vq (file_extent code)) items) as V'.
    { rewrite Forall_forall in *. intros x Hx. specialize (V x Hx). destruct (G x Hx) as (_ & Gx & _).
      unfold vin, vq in *. rewrite Forall_forall in *. intros e He. split; auto. }
    pose proof T as T'. apply tokenize_iff in T'; [|exact XS].
    destruct (lexes_fine _ _ _ _ T') as (_ & SS & W & _).
    destruct (tokens_tile _ _ _ T) as (init & TI & _ & NEi & _).
    assert (Forall (fun t => is_kind KEndOfFile t = false -> fst (token_extent t) < snd (token_extent t)) ts) as NE.
    { rewrite TI. apply Forall_app. split; [eapply Forall_impl; [|exact NEi]; auto|]. constructor; [discriminate|constructor]. }
    assert (ws = map entry (ws_entries ts)) as WS.
    { pose proof (partition_map ts [] SS NE (Forall_nil _)) as PM. rewrite P in PM. exact PM. }
    assert (wsm (file_extent code) ws) as WM.
    { subst ws. apply entries_wsm; auto. apply Forall_forall. intros t Ht K. split.
      - rewrite Forall_forall in W, NE. pose proof (NE t Ht K). destruct (W t Ht) as [A B]. unfold inside. cbn [Nat.add] in B. lia.
      - destruct (extents_valid X code ts T t (token_extent t) Ht) as [(_ & B & C') _]; [|split; auto]. destruct t; now left. }
    destruct (file_apportioned code toks items ws Ty F V' C WM) as (f & A & FO). rewrite A.
    exists ts, items. split; [auto|]. rewrite <- TE. split; [auto|]. rewrite WS, entries_snd in FO. exact FO.
  - destruct H as (NE & t & I & ->). split; [auto|]. exists ts, t. rewrite <- TE. auto.
Qed.
