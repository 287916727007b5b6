(** Soundness of the analysis of [Spans]: every derivation builds values that are
    laid out like the source. *)

From Coq Require Import String List Arith Bool Lia.
From Verif Require Import Base Peresil Token Schema Value Nt Grammar Points Table Static Typing SpanSpec Deriv DerivMono Spans.
Import ListNotations.
Local Open Scope string_scope.
Local Open Scope list_scope.
Local Open Scope nat_scope.

(** * Lists of extents *)

Definition ends (u : nat) (l : list extent) : Prop := Forall (fun e => fst e < snd e -> snd e <= u) l.
Definition insides (x : extent) (l : list extent) : Prop :=
  Forall (fun e => fst e < snd e -> fst x <= fst e /\ snd e <= snd x) l.

Lemma ends_mono u u' l : u <= u' -> ends u l -> ends u' l.
Proof. intros H. apply Forall_impl. intros e. lia. Qed.

Lemma Forall_incl {X} (P : X -> Prop) l l' : incl l' l -> Forall P l -> Forall P l'.
Proof. rewrite !Forall_forall. auto. Qed.

Lemma before_sep a b m : Forall (fun e => snd e <= m) (extents a) -> Forall (fun e => m <= fst e) (extents b) -> before a b.
Proof.
  intros A B x y Hx Hy. rewrite Forall_forall in A, B. specialize (A _ Hx). specialize (B _ Hy). lia.
Qed.

Lemma before_nil_l a b : extents a = [] -> before a b.
Proof. intros E x y Hx. rewrite E in Hx. destruct Hx. Qed.
Lemma before_nil_r a b : extents b = [] -> before a b.
Proof. intros E x y _ Hy. rewrite E in Hy. destruct Hy. Qed.

Lemma laid_all l : fold_right (fun x P => laid_out x /\ P) True l <-> Forall laid_out l.
Proof.
  induction l as [|x l IH]; cbn [fold_right]; [split; [constructor|auto]|].
  rewrite IH. split; [intros [A B]; now constructor|]. intros F. inversion F; auto.
Qed.

Lemma laid_list l : laid_out (VList l) <-> Forall laid_out l /\ ForallOrdPairs before l.
Proof. cbn [laid_out]. now rewrite laid_all. Qed.

Lemma laid_node k fs : laid_out (VNode k fs) <-> Forall laid_out fs /\ node_ord k fs /\ node_in k fs.
Proof. cbn [laid_out]. now rewrite laid_all. Qed.

(** The value's own extent holds the rest of it. *)
Definition selfv (v : val) : Prop := forall x, extent_of v = Some x -> within x v.

Definition hi_le (m : nat) (v : val) : Prop := Forall (fun e => snd e <= m) (extents v).
Definition lo_ge (m : nat) (v : val) : Prop := Forall (fun e => m <= fst e) (extents v).

(** A value of shape [p] whose two parts meet at [m]. *)
Definition splitv (p : po) (m : nat) (v : val) : Prop :=
  match p, v with
  | PoNo, _ => True
  | PoPair, VPair x y => hi_le m x /\ lo_ge m y
  | PoOpt, VNone => True
  | PoOpt, VSome (VPair x y) => hi_le m x /\ lo_ge m y
  | PoCore, VNode k [x; y; z] => k = "DisambiguationCore" /\ hi_le m x /\ lo_ge m y /\ extents z = []
  | _, _ => False
  end.

Definition deinfix (v : val) : val :=
  match v with VVar _ t _ => if String.eqb t "Infix" || String.eqb t "Prefix" then VUnit else v | _ => v end.

Ltac pairs := repeat first [apply FOP_cons | apply FOP_nil | apply Forall_cons | apply Forall_nil].

Section SpansOk.
  Variable toks : list token.
  Hypothesis WF : wf_toks toks.
  Hypothesis NUM : forall i n, nth_error toks i = Some (TkNumber n) -> num_ord n.
  Notation valid := (valid toks).
  Notation sb := (sb toks).
  Notation half_of := (half_of toks).

  (** * Where extents end *)

  Definition prev_end (q : point) : nat :=
    match off q with
    | 0 => 0
    | S i => match nth_error toks i with Some t => snd (token_extent t) | None => 0 end
    end.
  (** The end of an extent of whole tokens, and of any extent, read up to [q]. *)
  Definition eb (q : point) : nat := prev_end q + sub_rank (sub q).
  Definition teb (q : point) : nat := match sub q with None => prev_end q | Some _ => sb q end.

  Lemma prev_end_sb q : valid q -> prev_end q + sub_rank (sub q) <= sb q.
  Proof.
    intros (t & H & _). unfold prev_end, Points.sb. rewrite H. destruct (off q) as [|i] eqn:O; [lia|].
    destruct (nth_error toks i) as [u|] eqn:U; [|lia]. pose proof (wf_next _ WF _ _ _ U H). lia.
  Qed.

  Lemma eb_sb q : valid q -> eb q <= sb q.
  Proof. apply prev_end_sb. Qed.

  Lemma eb_teb q : valid q -> eb q <= teb q.
  Proof.
    intros V. pose proof (prev_end_sb _ V). unfold eb, teb in *. destruct (sub q); cbn [sub_rank] in *; lia.
  Qed.

  Lemma teb_sb q : valid q -> teb q <= sb q.
  Proof.
    intros V. pose proof (prev_end_sb _ V). unfold teb. destruct (sub q); cbn [sub_rank] in *; lia.
  Qed.

  Lemma sb_prev p q : valid p -> valid q -> off p < off q -> sb p <= prev_end q.
  Proof.
    intros Vp Vq L. destruct Vp as (t & Ht & Sp). assert (valid p) as Vp by (exists t; auto).
    pose proof (rank_le _ WF _ _ Ht Vp) as R. destruct Vq as (u & Hu & Sq).
    unfold Points.sb, prev_end. rewrite Ht. destruct (off q) as [|i] eqn:O; [lia|].
    assert (i < length toks) by (assert (S i < length toks) by (apply nth_error_Some; congruence); lia).
    destruct (nth_error toks i) as [w|] eqn:W; [|apply nth_error_None in W; lia].
    destruct (Nat.eq_dec (off p) i) as [E|D]; [rewrite E in Ht; rewrite Ht in W; injection W as ->; lia|].
    pose proof (nth_mono _ WF _ _ _ _ Ht W ltac:(lia)). pose proof (wf_ord _ WF _ _ W). lia.
  Qed.

  Lemma teb_eb p q : valid p -> valid q -> off p < off q -> teb p <= eb q.
  Proof. intros Vp Vq L. pose proof (sb_prev _ _ Vp Vq L). pose proof (teb_sb _ Vp). unfold eb. lia. Qed.

  Lemma eb_mono p q : valid p -> valid q -> pos p <= pos q -> eb p <= eb q.
  Proof.
    intros Vp Vq L. pose proof (pos_off _ _ _ Vp Vq L) as O. destruct (Nat.eq_dec (off p) (off q)) as [E|E].
    - unfold eb, prev_end, pos in *. rewrite E in *. lia.
    - pose proof (sb_prev _ _ Vp Vq ltac:(lia)). pose proof (eb_sb _ Vp). unfold eb in *. lia.
  Qed.

  Lemma teb_mono p q : valid p -> valid q -> pos p <= pos q -> teb p <= teb q.
  Proof.
    intros Vp Vq L. pose proof (pos_off _ _ _ Vp Vq L) as O. destruct (Nat.eq_dec (off p) (off q)) as [E|E].
    - pose proof (sb_mono _ WF _ _ Vp Vq L). pose proof (teb_sb _ Vp). unfold teb at 2.
      destruct (sub q) eqn:Q; [lia|]. unfold teb, prev_end, pos in *. rewrite Q, E in *. cbn [sub_rank] in *.
      destruct (sub p); cbn [sub_rank] in *; lia.
    - pose proof (teb_eb _ _ Vp Vq ltac:(lia)). pose proof (eb_teb _ Vq). lia.
  Qed.

  (** The extent between two points. *)
  Lemma ex_end p q x : valid p -> valid q -> pos p <= pos q -> ex toks p q = BOk x ->
    fst x = sb p /\ fst x <= snd x /\ ((off p < off q /\ snd x = eb q) \/ (off p = off q /\ snd x = sb q /\ (pos p < pos q -> sub q <> None))).
  Proof.
    intros Vp Vq L X. destruct (ex_ok _ WF _ _ Vp Vq L) as (x' & X' & F & O & Sn). rewrite X in X'. injection X' as <-.
    split; [auto|]. split; [auto|]. pose proof (pos_off _ _ _ Vp Vq L) as Oo.
    destruct Vp as (t & Ht & Sp). destruct Vq as (u & Hu & Sq).
    unfold ex in X. rewrite Ht in X. destruct (Nat.compare_spec (off p) (off q)) as [E|E|E]; [| |lia].
    - right. split; [auto|].
      assert (t = u) by congruence. subst u.
      destruct (Nat.compare_spec (sub_rank (sub p)) (sub_rank (sub q))) as [R|R|R].
      + injection X as <-. cbn [fst snd]. unfold start_offset, Points.sb. rewrite Hu. split; [lia|]. unfold pos. lia.
      + injection X as <-. cbn [fst snd]. unfold start_offset, Points.sb. rewrite Hu. split; [lia|].
        intros _ N. rewrite N in R. cbn in R. lia.
      + unfold pos in L. lia.
    - left. split; [auto|]. destruct (off q) as [|i] eqn:Q; [lia|]. replace (S i - 1) with i in X by lia.
      unfold eb, prev_end. rewrite Q. destruct (nth_error toks i) as [w|]; [|discriminate]. injection X as <-. cbn [snd]. lia.
  Qed.

  (** What an extent of whole tokens, or of tokens of which the last is split, holds. *)
  Lemma ex_teb p q x : valid p -> valid q -> pos p <= pos q -> ex toks p q = BOk x -> fst x < snd x -> snd x <= teb q.
  Proof.
    intros Vp Vq L X NE. destruct (ex_end _ _ _ Vp Vq L X) as (F & O & [[A B]|(A & B & C)]).
    - rewrite B. now apply eb_teb.
    - destruct (Nat.eq_dec (pos p) (pos q)) as [E|E].
      + assert (p = q) by (eapply pos_inj; eauto). subst q. lia.
      + unfold teb. destruct (sub q); [lia|]. exfalso. apply C; [lia|auto].
  Qed.

  Lemma ex_eb p q x : valid p -> valid q -> pos p <= pos q -> ex toks p q = BOk x -> stl_p p q -> fst x < snd x -> snd x <= eb q.
  Proof.
    intros Vp Vq L X [->|A] NE; destruct (ex_end _ _ _ Vp Vq L X) as (F & O & [[B C]|(B & C & D)]); lia.
  Qed.

  Lemma ex_holds p q x l : valid p -> valid q -> pos p <= pos q -> ex toks p q = BOk x ->
    Forall (inside (sb p) (sb q)) l -> ends (eb q) l -> insides x l.
  Proof.
    intros Vp Vq L X I E. destruct (ex_end _ _ _ Vp Vq L X) as (F & O & C).
    unfold insides. rewrite Forall_forall in *. intros e He NE. specialize (I _ He). unfold inside in I.
    unfold ends in E. rewrite Forall_forall in E. specialize (E _ He NE).
    destruct C as [[B C]|(B & C & D)]; lia.
  Qed.

  (** * Tokens *)

  Lemma tok_ends m err (pm : pm_t) p q v : valid p -> not_eof_matcher m = true -> tok toks m err pm p = (pm, Success q v) ->
    ends (teb q) (extents v) /\ (whole_matcher m = true -> ends (eb q) (extents v)) /\ laid_out v /\
    (forall k, m = MK k -> exists e, v = VExt e).
  Proof.
    intros V N T. pose proof (tok_ok _ WF m err pm p V N) as O. rewrite T in O. destruct O as [_ O].
    pose proof T as T'. apply tok_half in T' as [[T1 T2]|(k & n & -> & T1 & T2 & T3)].
    - assert (X : Forall (fun e => snd e <= prev_end q) (extents v) /\ laid_out v /\ (forall k, m = MK k -> exists e, v = VExt e)).
      { unfold tok in T. destruct (nth_error toks (off p)) as [t|] eqn:Ht; [|discriminate].
        assert (prev_end q = snd (token_extent t)) as ->.
        { unfold prev_end. rewrite T1. replace (off p + 1) with (S (off p)) by lia. now rewrite Ht. }
        match type of T with match ?c with _ => _ end = _ => destruct c as [u|] eqn:C; [|discriminate] end.
        assert (snd (token_extent u) = snd (token_extent t) /\ (forall n, u = TkNumber n -> t = u)) as [<- U].
        { destruct (sub p) as [n|]; [|injection C as <-; auto].
          destruct (split t n) as [[a b]|] eqn:Sp; [|discriminate]. injection C as <-.
          destruct (split_spec _ _ _ _ Sp) as (ka & kb & -> & -> & _). split; [reflexivity|discriminate]. }
        destruct (convert m u) as [w|] eqn:CV.
        - injection T as <- <-. destruct m as [k|], u as [ku eu|nu]; cbn [convert] in CV; try discriminate.
          + destruct (tkind_eqb k ku); [|discriminate]. injection CV as <-. cbn [extents token_extent]. split; [constructor; auto|].
            split; [exact I|]. eauto.
          + injection CV as <-. rewrite (U _ eq_refl) in Ht. pose proof (wf_num _ WF _ _ Ht) as W.
            assert (NO : num_ord nu) by (eapply NUM; eauto). split; [|split; [|discriminate]].
            * cbn [extents token_extent]. eapply Forall_impl; [|exact W]. unfold inside. intros e He. lia.
            * cbn [laid_out]. split; [|exact NO]. unfold within. cbn [extents]. eapply Forall_impl; [|exact W].
              unfold inside. intros e He _. lia.
        - destruct (split t (sub_rank (sub p))) as [[a b]|]; [|discriminate]. destruct (convert m a); [|discriminate].
          injection T as <- <-. cbn [off] in T1. lia. }
      destruct X as (X & Y & Z). assert (ends (eb q) (extents v)) as Eb.
      { eapply Forall_impl; [|exact X]. intros e He _. cbv beta in He. unfold eb. lia. }
      split; [|auto]. eapply ends_mono; [|exact Eb]. apply eb_teb. apply O.
    - split; [|split; [|split]].
      + unfold teb. rewrite T2. eapply Forall_impl; [|exact (tks_in _ _ _ _ _ O)]. unfold inside. intros e He _. lia.
      + intros W. destruct (tks_whole _ _ _ _ _ O W). lia.
      + pose proof (tks_typed _ _ _ _ _ O) as Ty. cbn [matcher_type] in Ty. inversion Ty; subst. exact I.
      + intros k' _. pose proof (tks_typed _ _ _ _ _ O) as Ty. cbn [matcher_type] in Ty. inversion Ty; subst. eauto.
  Qed.

  (** * Times *)

  Record TL (i : nat) (mv : moves) (tm : nat -> nat) (pt : nat -> point) : Prop := {
    tl_valid : forall k, k <= i -> valid (pt k);
    tl_pos : forall j k, j <= k -> k <= i -> pos (pt j) <= pos (pt k);
    tl_time : forall k, k <= i -> tm (2 * k) = sb (pt k);
    tl_mono : forall j k, j <= k -> k <= 2 * i -> tm j <= tm k;
    tl_adv : forall k, In k (m_adv mv) -> k < i /\ off (pt k) < off (pt (k + 1));
    tl_loose : forall k, k < i -> ~ In k (m_loose mv) -> stl_p (pt k) (pt (k + 1));
    tl_half : forall k h, In (k, h) (m_halves mv) -> k < i /\ (off (pt k) = off (pt (k + 1)) -> half_of (off (pt k)) h)
  }.

  Section Time.
    Variable i : nat.
    Variable mv : moves.
    Variable tm : nat -> nat.
    Variable pt : nat -> point.
    Hypothesis T : TL i mv tm pt.

    Lemma off_le j k : j <= k -> k <= i -> off (pt j) <= off (pt k).
    Proof. intros A B. eapply pos_off; [apply (tl_valid _ _ _ _ T); lia|apply (tl_valid _ _ _ _ T); lia|now apply (tl_pos _ _ _ _ T)]. Qed.

    Lemma between_spec j k n : between_b j k n = true -> j <= n /\ n < k.
    Proof. unfold between_b. intros H. apply andb_true_iff in H as [A B]. apply Nat.leb_le in A. apply Nat.ltb_lt in B. auto. Qed.

    Lemma adv_between_ok j k : adv_between mv j k = true -> k <= i -> off (pt j) < off (pt k).
    Proof.
      intros H K. apply orb_true_iff in H as [H|H].
      - apply existsb_exists in H as (n & I & H). apply between_spec in H as [H1 H2].
        destruct (tl_adv _ _ _ _ T _ I) as [_ A].
        pose proof (off_le j n ltac:(lia) ltac:(lia)). pose proof (off_le (n + 1) k ltac:(lia) ltac:(lia)). lia.
      - destruct (le_lt_dec (off (pt k)) (off (pt j))) as [L|L]; [exfalso|auto].
        eapply (halves_two toks (off (pt j))); [|exact H]. rewrite Forall_forall. intros h I. apply in_map_iff in I as ((n & h') & <- & I).
        apply filter_In in I as [I B]. cbn [fst snd] in *. apply between_spec in B as [B1 B2].
        destruct (tl_half _ _ _ _ T _ _ I) as [_ X].
        pose proof (off_le j n ltac:(lia) ltac:(lia)). pose proof (off_le n (n + 1) ltac:(lia) ltac:(lia)).
        pose proof (off_le (n + 1) k ltac:(lia) ltac:(lia)).
        replace (off (pt j)) with (off (pt n)) by lia. apply X. lia.
    Qed.

    Lemma whole_between_ok j k : whole_between mv j k = true -> j <= k -> k <= i -> stl_p (pt j) (pt k).
    Proof.
      intros H J K. apply orb_true_iff in H as [H|H]; [right; now apply adv_between_ok|].
      apply negb_true_iff in H.
      assert (forall n, j <= n -> n < k -> ~ In n (m_loose mv)) as L.
      { intros n A B I. assert (existsb (between_b j k) (m_loose mv) = true) as X; [|congruence].
        apply existsb_exists. exists n. split; [auto|]. unfold between_b. apply andb_true_iff. split; [now apply Nat.leb_le|now apply Nat.ltb_lt]. }
      clear H. assert (forall d, j + d <= k -> stl_p (pt j) (pt (j + d))) as D.
      { induction d as [|d IH]; intros Hd; [rewrite Nat.add_0_r; apply stl_refl|].
        eapply stl_trans; [apply IH; lia|]. replace (j + S d) with (j + d + 1) by lia.
        apply (tl_loose _ _ _ _ T); [lia|]. apply L; lia. }
      replace k with (j + (k - j)) by lia. apply D. lia.
    Qed.

    (** * What a description says of the extents of a value *)

    Definition wf_at (a : at_t) : Prop :=
      a_lo a <= 2 * i /\ a_hi a <= 2 * i /\ a_ub a <= i /\ match a_md a with Some m => m <= 2 * i | None => True end.
  End Time.

  Record Ex (tm : nat -> nat) (pt : nat -> point) (a : at_t) (l : list extent) : Prop := {
    x_emp : a_emp a = true -> l = [];
    x_in : Forall (inside (tm (a_lo a)) (tm (a_hi a))) l;
    x_end : ends (teb (pt (a_ub a))) l;
    x_sf : a_sf a = true -> ends (eb (pt (a_ub a))) l
  }.

  Record Av (tm : nat -> nat) (pt : nat -> point) (a : at_t) (v : val) : Prop := {
    v_ex : Ex tm pt a (extents v);
    v_slf : a_slf a = true -> selfv v;
    v_po : match a_md a with Some m => splitv (a_po a) (tm m) v | None => exists m, splitv (a_po a) m v end;
    v_ok : laid_out v
  }.

  (** * Facts about single values *)

  Lemma extent_of_in v x : extent_of v = Some x -> In x (extents v).
  Proof.
    induction v as [e| | | | | | | | | |k fs IH|en t v IH] using val_ind'; cbn [extent_of extents]; try discriminate.
    - intros [= ->]. now left.
    - destruct fs as [|[] fs]; try discriminate. intros [= ->]. now left.
    - auto.
  Qed.

  Lemma get_field_in f v u : get_field f v = Some u -> exists k fs, v = VNode k fs /\ In u fs.
  Proof.
    destruct v; cbn [get_field]; try discriminate. destruct (struct_fields k); [|discriminate].
    destruct (field_index f l); [|discriminate]. intros H. apply nth_error_In in H. eauto.
  Qed.

  Lemma get_field_incl f v u : get_field f v = Some u -> incl (extents u) (extents v).
  Proof.
    intros H. apply get_field_in in H as (k & fs & -> & I). cbn [extents]. intros x Hx. apply in_flat_map. eauto.
  Qed.

  Lemma assoc_in {X} k (l : list (string * X)) x : assoc k l = Some x -> In (k, x) l.
  Proof.
    induction l as [|[k' y] l IH]; cbn [assoc]; [discriminate|]. destruct (String.eqb_spec k k') as [->|N].
    - intros [= ->]. now left.
    - right. auto.
  Qed.

  Lemma get_extent v x : get_field "extent" v = Some (VExt x) -> extent_of v = Some x.
  Proof.
    destruct v; cbn [get_field]; try discriminate. destruct (struct_fields k) as [fields|] eqn:S; [|discriminate].
    pose proof schema_is_ok as SO. unfold schema_ok in SO. rewrite forallb_forall in SO.
    specialize (SO _ (assoc_in _ _ _ S)). cbn [snd] in SO. destruct (field_index "extent" fields) as [[|i]|]; try discriminate.
    destruct fs as [|u fs]; [discriminate|]. cbn [nth_error]. intros [= ->]. reflexivity.
  Qed.

  Lemma get_extent_name k fs u fields : get_field "extent" (VNode k fs) = Some u -> struct_fields k = Some fields ->
    exists f rest, fields = f :: rest /\ field_name f = "extent".
  Proof.
    cbn [get_field]. intros G S. rewrite S in G. pose proof schema_is_ok as SO. unfold schema_ok in SO. rewrite forallb_forall in SO.
    specialize (SO _ (assoc_in _ _ _ S)). cbn [snd] in SO. destruct (field_index "extent" fields) as [[|i]|] eqn:F; try discriminate.
    destruct fields as [|[[f t] b] fields]; [discriminate|]. cbn [field_index] in F. destruct (String.eqb_spec "extent" f) as [<-|N].
    - eexists _, _. split; [reflexivity|reflexivity].
    - destruct (field_index "extent" fields); discriminate.
  Qed.

  Lemma within_sub x v w : within x v -> incl (extents w) (extents v) -> within x w.
  Proof. intros H I. eapply Forall_incl; eauto. Qed.

  Lemma split_incl p m v : splitv p m v -> True.
  Proof. auto. Qed.

  (** * Descriptions *)

  Section At.
    Variable i : nat.
    Variable mv : moves.
    Variable tm : nat -> nat.
    Variable pt : nat -> point.
    Hypothesis T : TL i mv tm pt.
    Notation Ex := (Ex tm pt).
    Notation Av := (Av tm pt).
    Notation wf_at := (wf_at i).

    Definition times (a b : at_t) : Prop :=
      a_emp b = a_emp a /\ a_lo b = a_lo a /\ a_hi b = a_hi a /\ a_ub b = a_ub a /\ a_sf b = a_sf a.

    Lemma Ex_times a b l : times a b -> Ex a l -> Ex b l.
    Proof. intros (A & B & C & D & E) []. constructor; rewrite ?A, ?B, ?C, ?D, ?E; auto. Qed.

    Lemma Ex_incl a l l' : Ex a l -> incl l' l -> Ex a l'.
    Proof.
      intros [A B C D] I. constructor.
      - intros E. rewrite (A E) in I. destruct l' as [|x l']; [auto|]. destruct (I x); now left.
      - eapply Forall_incl; eauto.
      - eapply Forall_incl; eauto.
      - intros E. eapply Forall_incl; [exact I|exact (D E)].
    Qed.

    Lemma Ex_nil a : Ex a [].
    Proof. constructor; auto; try constructor. Qed.

    Lemma safe_at_ok u a l : Ex a l -> safe_at mv u a = true -> a_ub a <= u -> u <= i -> ends (eb (pt u)) l.
    Proof.
      intros [A B C D] S U I. apply orb_true_iff in S as [S|S].
      - eapply ends_mono; [|exact (D S)]. apply eb_mono; [apply (tl_valid _ _ _ _ T); lia|apply (tl_valid _ _ _ _ T); lia|].
        apply (tl_pos _ _ _ _ T); lia.
      - eapply ends_mono; [|exact C]. apply teb_eb; [apply (tl_valid _ _ _ _ T); lia|apply (tl_valid _ _ _ _ T); lia|].
        apply (adv_between_ok _ _ _ _ T); auto.
    Qed.

    Lemma teb_time j k : j <= k -> k <= i -> teb (pt j) <= teb (pt k).
    Proof.
      intros J K. apply teb_mono; [apply (tl_valid _ _ _ _ T); lia|apply (tl_valid _ _ _ _ T); lia|].
      apply (tl_pos _ _ _ _ T); lia.
    Qed.

    Lemma join_ok a b l l' : wf_at a -> wf_at b -> Ex a l -> Ex b l' -> Ex (join mv a b) (l ++ l').
    Proof.
      intros Wa Wb Ea Eb. unfold join. destruct (a_emp a) eqn:A.
      - rewrite (x_emp _ _ _ _ Ea A). auto.
      - destruct (a_emp b) eqn:B.
        + rewrite (x_emp _ _ _ _ Eb B), app_nil_r. auto.
        + destruct Wa as (Wa1 & Wa2 & Wa3 & _). destruct Wb as (Wb1 & Wb2 & Wb3 & _).
          constructor; cbn [a_emp a_lo a_hi a_ub a_sf].
          * discriminate.
          * assert (M : forall j k, j <= k -> k <= 2 * i -> tm j <= tm k) by (apply (tl_mono _ _ _ _ T)).
            apply Forall_app. split; [eapply Forall_impl; [|exact (x_in _ _ _ _ Ea)]|eapply Forall_impl; [|exact (x_in _ _ _ _ Eb)]];
              unfold inside; intros e He.
            -- pose proof (M (Nat.min (a_lo a) (a_lo b)) (a_lo a) ltac:(lia) ltac:(lia)).
               pose proof (M (a_hi a) (Nat.max (a_hi a) (a_hi b)) ltac:(lia) ltac:(lia)). lia.
            -- pose proof (M (Nat.min (a_lo a) (a_lo b)) (a_lo b) ltac:(lia) ltac:(lia)).
               pose proof (M (a_hi b) (Nat.max (a_hi a) (a_hi b)) ltac:(lia) ltac:(lia)). lia.
          * apply Forall_app. split.
            -- eapply ends_mono; [|exact (x_end _ _ _ _ Ea)]. apply teb_time; lia.
            -- eapply ends_mono; [|exact (x_end _ _ _ _ Eb)]. apply teb_time; lia.
          * intros S. apply andb_true_iff in S as [S1 S2]. apply Forall_app. split.
            -- apply (safe_at_ok _ _ _ Ea S1); lia.
            -- apply (safe_at_ok _ _ _ Eb S2); lia.
    Qed.

    Lemma join_wf a b : wf_at a -> wf_at b -> wf_at (join mv a b).
    Proof.
      intros Wa Wb. unfold join. destruct (a_emp a); [auto|]. destruct (a_emp b); [auto|].
      destruct Wa as (Wa1 & Wa2 & Wa3 & _). destruct Wb as (Wb1 & Wb2 & Wb3 & _).
      unfold SpansOk.wf_at. cbn [a_lo a_hi a_ub a_md]. repeat split; lia.
    Qed.

    Lemma plain_wf a : wf_at a -> wf_at (plain a).
    Proof. intros (A & B & C & D). unfold SpansOk.wf_at, plain. cbn. auto. Qed.
    Lemma selfish_wf a b : wf_at a -> wf_at (selfish a b).
    Proof. intros (A & B & C & D). unfold SpansOk.wf_at, selfish. cbn. auto. Qed.
    Lemma shaped_wf a p : wf_at a -> wf_at (shaped a p).
    Proof. intros (A & B & C & D). unfold SpansOk.wf_at, shaped. cbn. auto. Qed.
    Lemma nothing_wf : wf_at nothing.
    Proof. unfold SpansOk.wf_at, nothing. cbn. lia. Qed.
    Lemma first_wf p a : wf_at a -> wf_at (first_part p a).
    Proof.
      intros W. unfold first_part. destruct (a_md a) eqn:M; [|now apply plain_wf]. destruct (po_eqb _ _); [|now apply plain_wf].
      destruct W as (A & B & C & D). rewrite M in D. unfold SpansOk.wf_at. cbn. auto.
    Qed.
    Lemma second_wf p a : wf_at a -> wf_at (second_part p a).
    Proof.
      intros W. unfold second_part. destruct (a_md a) eqn:M; [|now apply plain_wf]. destruct (po_eqb _ _); [|now apply plain_wf].
      destruct W as (A & B & C & D). rewrite M in D. unfold SpansOk.wf_at. cbn. auto.
    Qed.

    Lemma Av_nothing v : extents v = [] -> laid_out v -> Av nothing v.
    Proof.
      intros E L. constructor; cbn [nothing a_slf a_md a_po]; [rewrite E; apply Ex_nil|discriminate|now exists 0|auto].
    Qed.

    Lemma Av_plain a v : Ex a (extents v) -> laid_out v -> Av (plain a) v.
    Proof.
      intros E L. constructor; cbn [plain a_slf a_md a_po]; [|discriminate|now exists 0|auto].
      eapply Ex_times; [|exact E]. repeat split.
    Qed.

    Lemma Av_self a b v : Ex a (extents v) -> (b = true -> selfv v) -> laid_out v -> Av (selfish a b) v.
    Proof.
      intros E S L. constructor; cbn [selfish a_slf a_md a_po]; [|auto|now exists 0|auto].
      eapply Ex_times; [|exact E]. repeat split.
    Qed.

    Lemma Av_first p a v u : Av a v -> incl (extents u) (extents v) -> laid_out u ->
      (forall m, splitv p m v -> hi_le m u) -> Av (first_part p a) u.
    Proof.
      intros [E S P O] I L H. unfold first_part. destruct (a_md a) as [m|]; [|apply Av_plain; [eapply Ex_incl; eauto|auto]].
      destruct (po_eqb (a_po a) p) eqn:Q; [|apply Av_plain; [eapply Ex_incl; eauto|auto]].
      assert (a_po a = p) as Q' by (destruct (a_po a), p; try discriminate; auto). rewrite Q' in P. specialize (H _ P).
      assert (Ex a (extents u)) as E' by (eapply Ex_incl; eauto). destruct E' as [E1 E2 E3 E4].
      constructor; cbn [a_slf a_md a_po]; [|discriminate|now exists 0|auto].
      constructor; cbn [a_emp a_lo a_hi a_ub a_sf]; auto.
      unfold hi_le in H. rewrite Forall_forall in *. intros e He. specialize (E2 _ He). specialize (H _ He). unfold inside in *. lia.
    Qed.

    Lemma Av_second p a v u : Av a v -> incl (extents u) (extents v) -> laid_out u ->
      (forall m, splitv p m v -> lo_ge m u) -> Av (second_part p a) u.
    Proof.
      intros [E S P O] I L H. unfold second_part. destruct (a_md a) as [m|]; [|apply Av_plain; [eapply Ex_incl; eauto|auto]].
      destruct (po_eqb (a_po a) p) eqn:Q; [|apply Av_plain; [eapply Ex_incl; eauto|auto]].
      assert (a_po a = p) as Q' by (destruct (a_po a), p; try discriminate; auto). rewrite Q' in P. specialize (H _ P).
      assert (Ex a (extents u)) as E' by (eapply Ex_incl; eauto). destruct E' as [E1 E2 E3 E4].
      constructor; cbn [a_slf a_md a_po]; [|discriminate|now exists 0|auto].
      constructor; cbn [a_emp a_lo a_hi a_ub a_sf]; auto.
      unfold lo_ge in H. rewrite Forall_forall in *. intros e He. specialize (E2 _ He). specialize (H _ He). unfold inside in *. lia.
    Qed.

    (** * Environments *)

    Definition entry_ok (t : entry) (v : val) : Prop :=
      match t with
      | EP j => j <= i /\ v = VPoint (pt j)
      | EV a => wf_at a /\ Av a v
      end.
    Definition envok (se : senv) (e : env) : Prop :=
      forall x t, assoc x se = Some t -> exists v, assoc x e = Some v /\ entry_ok t v.

    Section Exp.
      Variable se : senv.
      Variable e : env.
      Hypothesis EO : envok se e.
      Notation bev := (beval toks (pt i) e).

      Lemma point_ok x j : point_of se x = Some j -> j <= i /\ assoc x e = Some (VPoint (pt j)).
      Proof.
        unfold point_of. destruct (assoc x se) as [[]|] eqn:A; try discriminate. intros [= ->].
        destruct (EO _ _ A) as (v & V & J & ->). auto.
      Qed.

      Lemma bfields_ok fs vs : (fix go (fs : list (string * bexp)) : bres (list val) :=
            match fs with [] => BOk [] | (_, b) :: fs' => bbind (bev b) (fun v => bbind (go fs') (fun l => BOk (v :: l))) end) fs = BOk vs ->
        Forall2 (fun f v => bev (snd f) = BOk v) fs vs.
      Proof.
        revert vs. induction fs as [|[f b] fs IH]; intros vs H; [injection H as <-; constructor|].
        destruct (bev b) as [v|] eqn:B; cbn [bbind] in H; [|discriminate].
        match type of H with bbind ?r _ = _ => destruct r as [l|] eqn:G; cbn [bbind] in H; [|discriminate] end.
        injection H as <-. constructor; auto.
      Qed.

      Lemma root_ok x b v y : is_root x b = true -> bev b = BOk v -> extent_of v = Some y ->
        exists u, assoc x e = Some u /\ extent_of u = Some y.
      Proof.
        unfold is_root. revert v. induction b; intros v0 R B Y; cbn [root] in R; try discriminate.
        - cbn [beval] in B. apply String.eqb_eq in R as ->. destruct (assoc x0 e); [|discriminate]. injection B as ->. eauto.
        - cbn [beval] in B. destruct (bev b) as [w|] eqn:W; cbn [bbind] in B; [|discriminate]. injection B as <-.
          eapply IHb; eauto.
      Qed.

      Lemma from_incl x b u w : from x b = true -> assoc x e = Some u -> bev b = BOk w -> incl (extents w) (extents u).
      Proof.
        intros F U. revert w F.
        induction b as [y|y|y z| | | |b IH|b IH|b IH|b IH|b d IH IHd|k fs IH|en vn b IH|a b IHa IHb|b IH|b IH
                   |f b IH|b IH|b IH|b IH|b IH|s t IHs IHu|s t IHs IHu|s t IHs IHu|b IH] using bexp_ind';
          intros w F B; try discriminate; cbn [beval] in B.
        - cbn [from] in F. apply String.eqb_eq in F as ->. rewrite U in B. injection B as ->. apply incl_refl.
        - injection B as <-. intros z [].
        - injection B as <-. intros z [].
        - injection B as <-. intros z [].
        - cbn [from] in F. destruct (bev b) as [v|]; [|discriminate]. injection B as <-. cbn [extents]. auto.
        - cbn [from] in F. destruct (bev b) as [v|]; [|discriminate]. injection B as <-. cbn [extents flat_map]. rewrite app_nil_r. auto.
        - destruct ((fix go (fs : list (string * bexp)) : bres (list val) :=
            match fs with [] => BOk [] | (_, b) :: fs' => bbind (bev b) (fun v => bbind (go fs') (fun l => BOk (v :: l))) end) fs) as [vs|] eqn:G;
            cbn [bbind] in B; [|discriminate]. injection B as <-. apply bfields_ok in G. cbn [from] in F. rewrite forallb_forall in F.
          cbn [extents]. intros z Hz. apply in_flat_map in Hz as (v & Iv & Hz). clear -IH F G Iv Hz.
          induction G as [|f v' fs vs G1 G2 IHg]; [destruct Iv|]. apply Forall_cons_iff in IH as [IH1 IH2].
          destruct Iv as [->|Iv]; [|apply IHg; auto; intros g Hg; apply F; now right].
          eapply IH1; eauto. apply F. now left.
        - cbn [from] in F. destruct (bev b) as [v|]; [|discriminate]. injection B as <-. cbn [extents]. auto.
        - assert (f = "extent" /\ b = BVar x) as [-> ->].
          { cbn [from] in F. destruct f as [|[] f]; try discriminate. repeat (match type of F with
              | (match ?c with _ => _ end) = true => destruct c; try discriminate end).
            apply String.eqb_eq in F as ->. auto. }
          cbn [beval] in B. rewrite U in B. cbn [bbind] in B. destruct (get_field "extent" u) as [v|] eqn:G; [|discriminate].
          injection B as <-. eapply get_field_incl; eauto.
        - cbn [from] in F. destruct (bev b) as [v|] eqn:V; [|discriminate]. cbn [bbind] in B. destruct (extent_of v) as [y|] eqn:Y; [|discriminate].
          injection B as <-. destruct (root_ok _ _ _ _ F V Y) as (u' & U' & Y'). rewrite U in U'. injection U' as <-.
          cbn [extents]. intros z [<-|[]]. now apply extent_of_in.
      Qed.

      Definition item_ok (f : item) (v : val) : Prop :=
        wf_at (snd f) /\ Av (snd f) v /\ bev (snd (fst f)) = BOk v /\ bat se i mv (snd (fst f)) = Some (snd f).

      Lemma holds_ok be f w u x : holds se i mv be f = true -> item_ok f w ->
        bev be = BOk u -> extent_of u = Some x -> (u = VExt x \/ exists y, be = BVar y) ->
        insides x (extents w).
      Proof.
        intros H (Wf & A & Bw & _) B X C. unfold holds in H.
        assert (M : forall j k, j <= k -> k <= 2 * i -> tm j <= tm k) by (apply (tl_mono _ _ _ _ T)).
        destruct Wf as (W1 & W2 & W3 & _). destruct be as [y|y|y z| | | |b|b|b|b|b d|k fs|en vn b|a b|b|b|f' b|b|b|b|b|s t|s t|s t|b];
          try discriminate.
        - apply andb_true_iff in H as [S F]. cbn [beval] in B. unfold var_self in S.
          destruct (assoc y se) as [[j|a]|] eqn:Y; try discriminate. destruct (EO _ _ Y) as (u' & U & Wa & Aa).
          rewrite U in B. injection B as ->. eapply within_sub; [apply (v_slf _ _ _ _ Aa S); exact X|].
          eapply from_incl; eauto.
        - assert (u = VExt x) as -> by (destruct C as [C|[y' C]]; [auto|discriminate]). clear C X.
          destruct (assoc y se) as [[j|a]|] eqn:Y; try discriminate. destruct (EO _ _ Y) as (u' & U & J & ->).
          apply andb_true_iff in H as [L S]. apply Nat.leb_le in L. cbn [beval] in B. rewrite U in B. cbn [as_point bbind] in B.
          destruct (ex toks (pt j) (pt i)) as [x'|] eqn:XX; cbn [bbind] in B; [|discriminate]. injection B as ->.
          eapply ex_holds; [| | |exact XX| |].
          + apply (tl_valid _ _ _ _ T). lia.
          + apply (tl_valid _ _ _ _ T). lia.
          + apply (tl_pos _ _ _ _ T); lia.
          + eapply Forall_impl; [|exact (x_in _ _ _ _ (v_ex _ _ _ _ A))]. unfold inside. intros z Hz.
            pose proof (M (2 * j) _ L ltac:(lia)). pose proof (M _ (2 * i) W2 ltac:(lia)).
            rewrite (tl_time _ _ _ _ T) in * by lia. lia.
          + apply (safe_at_ok _ _ _ (v_ex _ _ _ _ A) S); lia.
        - assert (u = VExt x) as -> by (destruct C as [C|[y' C]]; [auto|discriminate]). clear C X.
          destruct (assoc y se) as [[j|a]|] eqn:Y; try discriminate. destruct (EO _ _ Y) as (u' & U & J & ->).
          destruct (assoc z se) as [[k|a]|] eqn:Z; try discriminate. destruct (EO _ _ Z) as (u' & U' & J' & ->).
          apply andb_true_iff in H as [H S]. apply andb_true_iff in H as [H L3]. apply andb_true_iff in H as [L1 L2].
          apply Nat.leb_le in L1, L2, L3. cbn [beval] in B. rewrite U, U' in B. cbn [as_point bbind] in B.
          destruct (ex toks (pt j) (pt k)) as [x'|] eqn:XX; cbn [bbind] in B; [|discriminate]. injection B as ->.
          destruct (le_lt_dec j k) as [JK|JK].
          + eapply ex_holds; [| | |exact XX| |].
            * apply (tl_valid _ _ _ _ T). lia.
            * apply (tl_valid _ _ _ _ T). lia.
            * apply (tl_pos _ _ _ _ T); lia.
            * eapply Forall_impl; [|exact (x_in _ _ _ _ (v_ex _ _ _ _ A))]. unfold inside. intros v Hz.
              pose proof (M (2 * j) _ L1 ltac:(lia)). pose proof (M _ (2 * k) L2 ltac:(lia)).
              rewrite !(tl_time _ _ _ _ T) in * by lia. lia.
            * apply (safe_at_ok _ _ _ (v_ex _ _ _ _ A) S); lia.
          + (* the field would have to be empty *)
            pose proof (x_in _ _ _ _ (v_ex _ _ _ _ A)) as I. unfold insides. rewrite Forall_forall in *. intros v Hv NE.
            specialize (I _ Hv). unfold inside in I.
            pose proof (M (2 * j) _ L1 ltac:(lia)). pose proof (M _ (2 * k) L2 ltac:(lia)). pose proof (M (2 * k) (2 * j) ltac:(lia) ltac:(lia)). lia.
        - assert (f' = "extent" /\ exists y, b = BVar y /\ var_self se y && from y (snd (fst f)) = true) as (-> & y & -> & H').
          { clear -H. destruct f' as [|[] f']; try discriminate. repeat (match type of H with
              | (match ?c with _ => _ end) = true => destruct c; try discriminate end). eauto. }
          assert (u = VExt x) as -> by (destruct C as [C|[y' C]]; [auto|discriminate]). clear H C X.
          apply andb_true_iff in H' as [S F]. cbn [beval] in B. unfold var_self in S.
          destruct (assoc y se) as [[j|a]|] eqn:Y; try discriminate. destruct (EO _ _ Y) as (u' & U & Wa & Aa).
          rewrite U in B. cbn [bbind] in B. destruct (get_field "extent" u') as [v|] eqn:G; [|discriminate]. injection B as ->.
          eapply within_sub; [apply (v_slf _ _ _ _ Aa S); now apply get_extent|]. eapply from_incl; eauto.
      Qed.

      Lemma extent_exp_ok b be v x : extent_exp b = Some be -> bev b = BOk v -> extent_of v = Some x ->
        exists u, bev be = BOk u /\ extent_of u = Some x /\ (u = VExt x \/ exists y, be = BVar y).
      Proof.
        revert v. induction b; intros v0 E B X; cbn [extent_exp] in E; try discriminate.
        - injection E as <-. exists v0. eauto.
        - destruct fs as [|[f b] fs]; [discriminate|]. destruct (String.eqb f "extent"); [|discriminate]. injection E as ->.
          cbn [beval] in B. destruct (bev be) as [u|]; cbn [bbind] in B; [|discriminate].
          match type of B with bbind (bbind ?r _) _ = _ => destruct r as [l|]; cbn [bbind] in B; [|discriminate] end.
          injection B as <-. cbn [extent_of] in X. destruct u; try discriminate. injection X as ->. exists (VExt x). eauto.
        - cbn [beval] in B. destruct (bev b) as [w|] eqn:W; cbn [bbind] in B; [|discriminate]. injection B as <-.
          eapply IHb; eauto.
      Qed.

      Lemma contains_ok be f w x : contains se i mv be f = true -> item_ok f w -> bev be = BOk (VExt x) -> insides x (extents w).
      Proof.
        intros H I B. unfold contains in H. apply orb_true_iff in H as [H|H]; [apply orb_true_iff in H as [H|H]|].
        - destruct I as (_ & A & _). rewrite (x_emp _ _ _ _ (v_ex _ _ _ _ A) H). constructor.
        - eapply holds_ok; eauto.
        - destruct be; try discriminate. destruct (extent_exp be) as [be'|] eqn:E; [|discriminate].
          cbn [beval] in B. destruct (bev be) as [v|] eqn:V; cbn [bbind] in B; [|discriminate].
          destruct (extent_of v) as [y|] eqn:Y; [|discriminate]. injection B as ->.
          destruct (extent_exp_ok _ _ _ _ E V Y) as (u & U1 & U2 & U3). eapply holds_ok; eauto.
      Qed.

      Lemma block_before l b : ForallOrdPairs before l -> before (VList (fst (block_split l b))) (snd (block_split l b)).
      Proof.
        intros F. unfold block_split. destruct (rev l) as [|v r] eqn:R; [apply before_nil_r; reflexivity|].
        assert (l = rev r ++ [v]) as -> by (rewrite <- (rev_involutive l), R; reflexivity).
        assert (before (VList (rev r)) v) as B.
        { clear R. induction (rev r) as [|y l IH]; [apply before_nil_l; reflexivity|]. cbn [app] in F. inversion F as [|? ? F1 F2]; subst.
          intros z z' Hz Hz'. cbn [extents flat_map] in Hz. apply in_app_or in Hz as [Hz|Hz].
          - rewrite Forall_forall in F1. eapply (F1 v); eauto. apply in_or_app. right. now left.
          - eapply IH; eauto. }
        destruct v; try (apply before_nil_r; reflexivity).
        destruct (string_dec v "Expression") as [->|N].
        - destruct b; [apply before_nil_r; reflexivity|]. cbn [fst snd extents]. exact B.
        - assert (match v with "Expression" => if b then (rev r ++ [VVar e0 v v0], VNone) else (rev r, VSome v0)
                             | _ => (rev r ++ [VVar e0 v v0], VNone) end = (rev r ++ [VVar e0 v v0], VNone)) as ->.
          { clear -N. repeat (match goal with
              | |- (match ?c with _ => _ end) = _ => destruct c; try reflexivity end). now destruct N. }
          apply before_nil_r. reflexivity.
      Qed.

      Lemma precedes_ok x y vx vy : precedes x y = true -> item_ok x vx -> item_ok y vy -> before vx vy.
      Proof.
        intros H (Wx & Ax & Bx & Tx) (Wy & Ay & By & Ty). unfold precedes in H.
        assert (M : forall j k, j <= k -> k <= 2 * i -> tm j <= tm k) by (apply (tl_mono _ _ _ _ T)).
        apply orb_true_iff in H as [H|H]; [apply orb_true_iff in H as [H|H]; [apply orb_true_iff in H as [H|H]|]|].
        - apply before_nil_l. exact (x_emp _ _ _ _ (v_ex _ _ _ _ Ax) H).
        - apply before_nil_r. exact (x_emp _ _ _ _ (v_ex _ _ _ _ Ay) H).
        - apply Nat.leb_le in H. apply before_sep with (m := tm (a_hi (snd x))).
          + eapply Forall_impl; [|exact (x_in _ _ _ _ (v_ex _ _ _ _ Ax))]. unfold inside. intros e0. lia.
          + eapply Forall_impl; [|exact (x_in _ _ _ _ (v_ex _ _ _ _ Ay))]. unfold inside. intros e0.
            pose proof (M _ _ H ltac:(destruct Wy; lia)). lia.
        - destruct (snd (fst x)) as [ | | | | | | | | | | | | | | | | | | | | |s1 t1| | | ]; try discriminate.
          destruct s1; try discriminate. destruct t1; try discriminate.
          destruct (snd (fst y)) as [ | | | | | | | | | | | | | | | | | | | | | |s1 t1| | ]; try discriminate.
          destruct s1; try discriminate. destruct t1; try discriminate.
          apply andb_true_iff in H as [H1 H2]. apply String.eqb_eq in H1 as <-. apply String.eqb_eq in H2 as <-.
          cbn [beval] in Bx, By. destruct (assoc x0 e) as [v|] eqn:V; cbn [bbind] in *; [|discriminate].
          destruct (assoc x1 e) as [v'|] eqn:V'; cbn [bbind] in *; [|discriminate].
          destruct v; try discriminate. destruct v'; try discriminate. injection Bx as <-. injection By as <-.
          apply block_before. cbn [bat] in Tx. destruct (assoc x1 se) as [[]|]; try discriminate. cbn [obind] in Tx.
          destruct (assoc x0 se) as [[]|] eqn:S; try discriminate. destruct (EO _ _ S) as (v & V1 & _ & Av).
          rewrite V in V1. injection V1 as <-. exact (proj2 (proj1 (laid_list l) (v_ok _ _ _ _ Av))).
      Qed.

      Lemma in_order_ok k l vs : in_order k l = true -> Forall2 item_ok l vs ->
        ForallOrdPairs (fun x y => ordered_pair k (fst x) (fst y) = true -> before (snd x) (snd y))
          (combine (map (fun f : item => fst (fst f)) l) vs).
      Proof.
        intros H F. induction F as [|f v l vs F1 F2 IH]; cbn [map combine]; [constructor|].
        cbn [in_order] in H. apply andb_true_iff in H as [H1 H2]. constructor; [|auto].
        clear -H1 F1 F2 T EO WF. induction F2 as [|g w l vs G1 G2 IHl]; cbn [map combine]; [constructor|].
        cbn [forallb] in H1. apply andb_true_iff in H1 as [H H1]. constructor; [|auto]. cbn [fst snd]. intros O. rewrite O in H.
        eapply precedes_ok; eauto.
      Qed.

      Lemma names_ok k (l : list item) : names_match k l = true ->
        exists fields, struct_fields k = Some fields /\ map field_name fields = map (fun f : item => fst (fst f)) l.
      Proof.
        unfold names_match. destruct (struct_fields k) as [fields|]; [|discriminate]. intros H.
        apply andb_true_iff in H as [L N]. apply Nat.eqb_eq in L. exists fields. split; [reflexivity|].
        revert l L N. induction fields as [|f fields IH]; intros [|g l] L N; try discriminate; [reflexivity|].
        cbn [combine forallb] in N. apply andb_true_iff in N as [N1 N2]. cbn [map]. f_equal; [now apply String.eqb_eq in N1|].
        apply IH; auto.
      Qed.

      Lemma all_ok (l : list item) vs : Forall2 item_ok l vs ->
        wf_at (fold_right (fun x a => join mv (snd x) a) nothing l) /\
        Ex (fold_right (fun x a => join mv (snd x) a) nothing l) (flat_map extents vs).
      Proof.
        induction 1 as [|f v l vs (W & A & _) F [IH1 IH2]]; cbn [fold_right flat_map].
        - split; [apply nothing_wf|apply Ex_nil].
        - split; [now apply join_wf|]. apply join_ok; auto. exact (v_ex _ _ _ _ A).
      Qed.

      Lemma split_point u v : before u v -> exists m, hi_le m u /\ lo_ge m v.
      Proof.
        intros B. exists (fold_right Nat.max 0 (map snd (extents u))). split.
        - unfold hi_le. apply Forall_forall. intros e0 He. apply (in_map snd) in He. revert He.
          generalize (snd e0) as n. induction (map snd (extents u)) as [|m q IH]; intros n I; [destruct I|]. cbn [fold_right].
          destruct I as [->|I]; [lia|]. specialize (IH _ I). lia.
        - unfold lo_ge. apply Forall_forall. intros e0 He.
          assert (forall e1, In e1 (extents u) -> snd e1 <= fst e0) as B' by (intros e1 H1; exact (B e1 e0 H1 He)).
          clear -B'. induction (extents u) as [|e1 l IH]; cbn [map fold_right]; [lia|].
          pose proof (B' e1 ltac:(now left)). specialize (IH (fun e2 H2 => B' e2 (or_intror H2))). lia.
      Qed.

      Lemma mk_at_ok k l vs a : mk_at se i mv k l = Some a -> Forall2 item_ok l vs -> wf_at a /\ Av a (VNode k vs).
      Proof.
        intros H F. unfold mk_at in H. destruct (names_match k l) eqn:N; [|discriminate]. destruct (in_order k l) eqn:O; [|discriminate].
        cbn [andb] in H. destruct (all_ok _ _ F) as [W E].
        destruct (names_ok _ _ N) as (fields & SF & NM). pose proof (in_order_ok _ _ _ O F) as OK.
        assert (NO : node_ord k vs).
        { unfold node_ord. rewrite SF, NM. clear -OK. induction OK as [|x l0 F O IH]; constructor; [|auto].
          eapply Forall_impl; [|exact F]. cbv beta. auto. }
        assert (LA : Forall laid_out vs).
        { clear -F. induction F as [|f v l0 vs (_ & A & _) F IH]; constructor; [exact (v_ok _ _ _ _ A)|auto]. }
        assert (node_in k vs -> laid_out (VNode k vs)) as LO by (intros NI; apply laid_node; auto).
        destruct (String.eqb_spec k "DisambiguationCore") as [->|NC].
        - destruct l as [|x [|y [|z [|]]]]; try discriminate. injection H as <-.
          inversion F as [|? v1 ? ? X F1]; subst. inversion F1 as [|? v2 ? ? Y F2]; subst. inversion F2 as [|? v3 ? ? Z F3]; subst. inversion F3; subst.
          split; [apply shaped_wf, plain_wf; exact W|].
          constructor; cbn [shaped plain a_slf a_md a_po]; [|discriminate| |].
          + eapply Ex_times; [|exact E]. repeat split.
          + destruct (precedes x y && a_emp (snd z)) eqn:P; [|now exists 0]. apply andb_true_iff in P as [P1 P2].
            destruct Z as (_ & Z & _). pose proof (x_emp _ _ _ _ (v_ex _ _ _ _ Z) P2) as Z'.
            pose proof (precedes_ok _ _ _ _ P1 X Y) as B.
            destruct (split_point _ _ B) as (m & M1 & M2). exists m. cbn [splitv]. auto.
          + apply LO. intros _ x0 G. exfalso. destruct (get_extent_name _ _ _ _ G SF) as (f & rest & -> & FN).
            vm_compute in SF. injection SF as <- <-. vm_compute in FN. discriminate.
        - destruct (is_hollow k) eqn:HK.
          + injection H as <-. split; [now apply plain_wf|]. apply Av_plain; [exact E|]. apply LO. intros C. congruence.
          + destruct l as [|[[f be] a0] l].
            * injection H as <-. split; [now apply plain_wf|]. apply Av_plain; [exact E|]. apply LO. intros _ x G. exfalso.
              destruct (get_extent_name _ _ _ _ G SF) as (f & rest & -> & FN). discriminate.
            * destruct (String.eqb_spec f "extent") as [->|NE].
              -- cbn [andb] in H. destruct (forallb (contains se i mv be) l) eqn:C; [|discriminate]. injection H as <-.
                 inversion F as [|? v1 ? vs' X F1]; subst.
                 assert (IN : forall x, v1 = VExt x -> insides x (flat_map extents (v1 :: vs'))).
                 { intros x ->. cbn [flat_map extents app]. constructor; [intros _; lia|].
                   destruct X as (_ & _ & B & _). cbn [fst snd] in B.
                   clear -C F1 B T EO WF. induction F1 as [|g w l vs G1 G2 IH]; cbn [flat_map]; [constructor|].
                   cbn [forallb] in C. apply andb_true_iff in C as [C1 C2]. apply Forall_app. split; [|auto].
                   eapply contains_ok; eauto. }
                 split; [now apply selfish_wf|]. apply Av_self; [exact E| |].
                 ++ intros _ x X'. cbn [extent_of] in X'. destruct v1; try discriminate. injection X' as ->. apply IN. reflexivity.
                 ++ apply LO. intros _ x G. apply get_extent in G. cbn [extent_of] in G. destruct v1; try discriminate.
                    injection G as ->. apply IN. reflexivity.
              -- injection H as <-. split; [now apply plain_wf|]. apply Av_plain; [exact E|]. apply LO. intros _ x G. exfalso.
                 destruct (get_extent_name _ _ _ _ G SF) as (f' & rest & -> & FN). cbn [map fst] in NM. injection NM as NM _. congruence.
      Qed.

      Lemma ex_av j k x : j <= k -> k <= i -> ex toks (pt j) (pt k) = BOk x ->
        Av (mkAt false (2 * j) (2 * k) k (whole_between mv j k) true None PoNo) (VExt x).
      Proof.
        intros J K X.
        assert (valid (pt j)) as Vj by (apply (tl_valid _ _ _ _ T); lia). assert (valid (pt k)) as Vk by (apply (tl_valid _ _ _ _ T); lia).
        assert (pos (pt j) <= pos (pt k)) as L by (apply (tl_pos _ _ _ _ T); lia).
        destruct (ex_ok _ WF _ _ Vj Vk L) as (x' & X' & E1 & E2 & E3). rewrite X in X'. injection X' as <-.
        constructor; cbn [a_slf a_md a_po extents]; [|intros _ y [= <-]; constructor; [intros _; lia|constructor]|now exists 0|exact I].
        constructor; cbn [a_emp a_lo a_hi a_ub a_sf].
        - discriminate.
        - constructor; [|constructor]. unfold inside. rewrite !(tl_time _ _ _ _ T) by lia. lia.
        - constructor; [|constructor]. exact (ex_teb _ _ _ Vj Vk L X).
        - intros W. constructor; [|constructor]. apply (ex_eb _ _ _ Vj Vk L X). eapply whole_between_ok; eauto.
      Qed.

      Lemma laid_field k fs v : laid_out (VNode k fs) -> In v fs -> laid_out v.
      Proof. intros L I. apply laid_node in L as (F & _). rewrite Forall_forall in F. auto. Qed.

      Lemma block_cases l b : block_split l b = (l, VNone) \/
        exists en l' v, l = l' ++ [VVar en "Expression" v] /\ block_split l b = (l', VSome v).
      Proof.
        unfold block_split. destruct (rev l) as [|v r] eqn:R; [now left|].
        assert (l = rev r ++ [v]) as L by (rewrite <- (rev_involutive l), R; reflexivity).
        destruct v; try (now left). destruct (string_dec v "Expression") as [->|N].
        - destruct b; [now left|]. right. exists e0, (rev r), v0. auto.
        - left. clear -N. repeat (match goal with
              | |- (match ?c with _ => _ end) = _ => destruct c; try reflexivity end). now destruct N.
      Qed.

      Lemma paren_ok x l n : insides x (flat_map extents l) -> laid_out (VList l) ->
        laid_out (paren_or_tuple x l n) /\ selfv (paren_or_tuple x l n) /\ incl (extents (paren_or_tuple x l n)) (x :: flat_map extents l).
      Proof.
        intros I L. pose proof (proj1 (laid_list _) L) as [L1 L2].
        assert (P : laid_out (VVar "Expression" "Tuple" (VNode "Tuple" [VExt x; VList l; VList []])) /\
                    selfv (VVar "Expression" "Tuple" (VNode "Tuple" [VExt x; VList l; VList []])) /\
                    incl (extents (VVar "Expression" "Tuple" (VNode "Tuple" [VExt x; VList l; VList []]))) (x :: flat_map extents l)).
        { assert (within x (VList [VExt x; VList l; VList []])) as W.
          { unfold within. cbn [extents flat_map app]. rewrite app_nil_r. constructor; [intros _; lia|exact I]. }
          split; [|split].
          - change (laid_out (VNode "Tuple" [VExt x; VList l; VList []])). apply laid_node. split; [|split].
            + repeat constructor; auto. apply laid_all. auto.
            + unfold node_ord. cbn -[before]. pairs; cbn -[before]; try discriminate. intros _. left. apply before_nil_r. reflexivity.
            + intros _ y G. apply get_extent in G. injection G as <-. exact W.
          - intros y [= <-]. exact W.
          - cbn [extents flat_map app]. rewrite app_nil_r. apply incl_refl. }
        unfold paren_or_tuple. destruct l as [|v [|]]; [exact P| |exact P]. destruct n; [|exact P]. clear P.
        assert (within x (VList [VExt x; v; VList []])) as W.
        { unfold within. cbn [extents flat_map app] in *. rewrite app_nil_r in *. constructor; [intros _; lia|exact I]. }
        split; [|split].
        - change (laid_out (VNode "Parenthetical" [VExt x; v; VList []])). apply laid_node. split; [|split].
          + apply Forall_cons_iff in L1 as [L1 _]. repeat constructor; auto.
          + unfold node_ord. cbn -[before]. pairs; cbn -[before]; try discriminate. intros _. left. apply before_nil_r. reflexivity.
          + intros _ y G. apply get_extent in G. injection G as <-. exact W.
        - intros y [= <-]. exact W.
        - cbn [extents flat_map app]. apply incl_refl.
      Qed.

      Lemma number_ok n : laid_out (VNum n) ->
        laid_out (convert_number n) /\ selfv (convert_number n) /\ incl (extents (convert_number n)) (extents (VNum n)).
      Proof.
        intros [W N]. unfold num_ord in N.
        pose (fs := [VExt (n_extent n); VExt (n_integral n); vopt (n_fractional n); vopt (n_exponent n); vopt (n_type_suffix n)]).
        assert (XX : flat_map extents fs = extents (VNum n)).
        { cbn [extents]. unfold number_extents, fs. cbn [flat_map extents app]. rewrite app_nil_r.
          destruct (n_fractional n), (n_exponent n), (n_type_suffix n); reflexivity. }
        assert (forall o, laid_out (vopt o)) as LV by (intros []; exact I).
        assert (NN : laid_out (VNode ("Number" ++ radix_name (n_radix n)) fs)).
        { apply laid_node. split; [|split].
          - unfold fs. repeat apply Forall_cons; auto; exact I.
          - unfold fs. destruct (n_radix n); unfold node_ord; cbn -[before vopt];
                repeat (match goal with F : ForallOrdPairs _ (_ :: _) |- _ => inversion F; clear F; subst end);
                repeat (match goal with F : Forall _ (_ :: _) |- _ => inversion F; clear F; subst end);
                pairs; cbn -[before vopt]; try discriminate; intros _; left; assumption.
          - intros _ x G. apply get_extent in G. injection G as <-. unfold within. cbn [extents]. rewrite XX. exact W. }
        assert (CN : convert_number n = VNode "Number" [VExt (n_extent n); VNone; VVar "NumberValue" (radix_name (n_radix n))
            (VNode ("Number" ++ radix_name (n_radix n)) fs); VList []]) by reflexivity.
        clearbody fs. rewrite CN. clear CN N.
        assert (W' : within (n_extent n) (VList [VExt (n_extent n); VNone; VVar "NumberValue" (radix_name (n_radix n))
            (VNode ("Number" ++ radix_name (n_radix n)) fs); VList []])).
        { unfold within. cbn [extents flat_map app]. rewrite XX, app_nil_r. constructor; [intros _; lia|exact W]. }
        split; [|split].
        - apply laid_node. split; [|split].
          + repeat apply Forall_cons; auto; try exact I. split; [exact I|constructor].
          + unfold node_ord. cbn -[before]. pairs; cbn -[before]; try discriminate; intros _; left;
              try (apply before_nil_r; reflexivity); apply before_nil_l; reflexivity.
          + intros _ x G. apply get_extent in G. injection G as <-. exact W'.
        - intros x [= <-]. exact W'.
        - cbn [extents flat_map app]. rewrite XX, app_nil_r. intros y [<-|Hy]; [now left|exact Hy].
      Qed.

      Lemma Av_weak a v u : wf_at a -> Av a v -> incl (extents u) (extents v) -> laid_out u -> wf_at (plain a) /\ Av (plain a) u.
      Proof.
        intros W A I L. split; [now apply plain_wf|]. apply Av_plain; [|auto]. eapply Ex_incl; [exact (v_ex _ _ _ _ A)|auto].
      Qed.

      Lemma laid_nil : laid_out (VList []).
      Proof. split; [exact I|constructor]. Qed.

      Lemma mk_at_wf k l a : mk_at se i mv k l = Some a -> Forall (fun f => wf_at (snd f)) l -> wf_at a.
      Proof.
        intros H F. assert (wf_at (fold_right (fun x a => join mv (snd x) a) nothing l)) as W.
        { clear H. induction F; cbn [fold_right]; [apply nothing_wf|now apply join_wf]. }
        unfold mk_at in H. destruct (names_match k l && in_order k l); [|discriminate].
        destruct (String.eqb k "DisambiguationCore").
        - destruct l as [|x [|y [|z [|]]]]; try discriminate. injection H as <-. now apply shaped_wf, plain_wf.
        - destruct (is_hollow k); [injection H as <-; now apply plain_wf|]. destruct l as [|[[f be] a0] l]; [injection H as <-; now apply plain_wf|].
          destruct (String.eqb f "extent"); [|injection H as <-; now apply plain_wf].
          destruct (true && forallb (contains se i mv be) l); [|discriminate]. injection H as <-. now apply selfish_wf.
      Qed.

      Lemma bat_wf b : forall a, bat se i mv b = Some a -> wf_at a.
      Proof.
        induction b as [x|x|x y| | | |b IH|b IH|b IH|b IH|b d IH IHd|k fs IH|en vn b IH|b b' IHa IHb|b IH|b IH
                   |f b IH|b IH|b IH|b IH|b IH|s t IHs IHu|s t IHs IHu|s t IHs IHu|b IH] using bexp_ind';
          intros a A; cbn [bat] in A.
        1: destruct (assoc x se) as [[|a']|] eqn:X; try discriminate; injection A as ->; destruct (EO _ _ X) as (u & U & W & Au); exact W.
        1: destruct (point_of se x) as [j|] eqn:P; [|discriminate]; injection A as <-; destruct (point_ok _ _ P) as [J U];
           unfold SpansOk.wf_at; cbn [a_lo a_hi a_ub a_md]; lia.
        1: destruct (point_of se x) as [j|] eqn:P; [|discriminate]; cbn [obind] in A; destruct (point_of se y) as [k|] eqn:Q; [|discriminate]; cbn [obind] in A;
           destruct (Nat.leb_spec j k) as [L|]; [|discriminate]; injection A as <-;
           destruct (point_ok _ _ P) as [J U]; destruct (point_ok _ _ Q) as [J' U']; unfold SpansOk.wf_at; cbn [a_lo a_hi a_ub a_md]; lia.
        1-3: injection A as <-; apply nothing_wf.
        1-4: destruct (bat se i mv b) as [a'|]; [|discriminate]; injection A as <-; apply plain_wf; auto.
        1: destruct (bat se i mv b) as [a'|]; [|discriminate]; cbn [obind] in A; destruct (bat se i mv d) as [ad|]; [|discriminate];
           injection A as <-; apply plain_wf, join_wf; auto.
        1: { match type of A with obind ?r _ = _ => destruct r as [l|] eqn:G; cbn [obind] in A; [|discriminate] end.
          eapply mk_at_wf; [exact A|]. clear A. revert l G. induction fs as [|[f b] fs IHg]; intros l G; [injection G as <-; constructor|].
          apply Forall_cons_iff in IH as [IH1 IH2]. cbn [snd] in *.
          destruct (bat se i mv b) as [a'|] eqn:Ba; cbn [obind] in G; [|discriminate].
          match type of G with omap _ ?r = _ => destruct r as [l'|] eqn:G3; cbn [omap] in G; [|discriminate] end.
          injection G as <-. constructor; [cbn [snd]; auto|apply IHg; auto]. }
        1: destruct (bat se i mv b) as [a'|]; [|discriminate]; injection A as <-; apply selfish_wf; auto.
        1: destruct (bat se i mv b) as [a'|]; [|discriminate]; cbn [obind] in A; destruct (bat se i mv b') as [ad|]; [|discriminate];
           injection A as <-; apply shaped_wf, plain_wf, join_wf; auto.
        1: destruct (bat se i mv b) as [a'|]; [|discriminate]; injection A as <-; apply first_wf; auto.
        1: destruct (bat se i mv b) as [a'|]; [|discriminate]; injection A as <-; apply second_wf; auto.
        1: { destruct (bat se i mv b) as [a'|]; [|discriminate]; injection A as <-. specialize (IH _ eq_refl).
          destruct (String.eqb f "extent"); [now apply plain_wf|]. destruct (String.eqb f "from_type"); [now apply first_wf|].
          destruct (String.eqb f "to_type"); [now apply second_wf|]. destruct (String.eqb f "whitespace" && po_eqb (a_po a') PoCore); [apply nothing_wf|now apply plain_wf]. }
        1: destruct (bat se i mv b) as [a'|]; [|discriminate]; injection A as <-; apply selfish_wf; auto.
        1: destruct (bat se i mv b) as [a'|]; [|discriminate]; injection A as <-; apply nothing_wf.
        1: destruct (bat se i mv b) as [a'|]; [|discriminate]; injection A as <-; apply first_wf; auto.
        1: destruct (bat se i mv b) as [a'|]; [|discriminate]; injection A as <-; apply second_wf; auto.
        1-2: destruct (bat se i mv t) as [at'|]; [|discriminate]; cbn [obind] in A;
          destruct (bat se i mv s) as [a'|]; [|discriminate]; injection A as <-; apply plain_wf; auto.
        1: destruct (bat se i mv s) as [ax|] eqn:As; [|discriminate]; cbn [obind] in A;
          destruct (bat se i mv t) as [a'|] eqn:At'; [|discriminate]; cbn [obind] in A;
          destruct (contains se i mv s (("", t), a')) eqn:C; [|discriminate]; injection A as <-; apply selfish_wf, join_wf; auto.
        1: destruct (bat se i mv b) as [a'|]; [|discriminate]; injection A as <-; apply selfish_wf; auto.
      Qed.

      Lemma bat_ok b : forall a v, bat se i mv b = Some a -> bev b = BOk v -> wf_at a /\ Av a v.
      Proof.
        assert (NW : forall u, extents u = [] -> laid_out u -> wf_at nothing /\ Av nothing u).
        { intros u E L. split; [apply nothing_wf|now apply Av_nothing]. }
        pose proof laid_nil as LN.
        induction b as [x|x|x y| | | |b IH|b IH|b IH|b IH|b d IH IHd|k fs IH|en vn b IH|b b' IHa IHb|b IH|b IH
                   |f b IH|b IH|b IH|b IH|b IH|s t IHs IHu|s t IHs IHu|s t IHs IHu|b IH] using bexp_ind';
          intros a v A B; cbn [bat] in A; cbn [beval] in B.
        - (* BVar *) destruct (assoc x se) as [[|a']|] eqn:X; try discriminate. injection A as ->.
          destruct (EO _ _ X) as (u & U & W & Au). rewrite U in B. injection B as <-. auto.
        - (* BEx *) destruct (point_of se x) as [j|] eqn:P; [|discriminate]. injection A as <-. destruct (point_ok _ _ P) as [J U].
          rewrite U in B. cbn [as_point bbind] in B. destruct (ex toks (pt j) (pt i)) as [r|] eqn:X; cbn [bbind] in B; [|discriminate].
          injection B as <-. split; [|apply ex_av; auto; lia]. unfold SpansOk.wf_at. cbn [a_lo a_hi a_ub a_md]. lia.
        - (* BExTo *) destruct (point_of se x) as [j|] eqn:P; [|discriminate]. cbn [obind] in A.
          destruct (point_of se y) as [k|] eqn:Q; [|discriminate]. cbn [obind] in A.
          destruct (Nat.leb_spec j k) as [L|]; [|discriminate]. injection A as <-.
          destruct (point_ok _ _ P) as [J U]. destruct (point_ok _ _ Q) as [J' U'].
          rewrite U, U' in B. cbn [as_point bbind] in B. destruct (ex toks (pt j) (pt k)) as [r|] eqn:X; cbn [bbind] in B; [|discriminate].
          injection B as <-. split; [|apply ex_av; auto]. unfold SpansOk.wf_at. cbn [a_lo a_hi a_ub a_md]. lia.
        - injection A as <-. injection B as <-. apply NW; [reflexivity|exact I].
        - injection A as <-. injection B as <-. apply NW; [reflexivity|exact LN].
        - injection A as <-. injection B as <-. apply NW; [reflexivity|exact I].
        - (* BSome *) destruct (bat se i mv b) as [a'|]; [|discriminate]. injection A as <-.
          destruct (bev b) as [u|]; cbn [bbind] in B; [|discriminate]. injection B as <-. destruct (IH _ _ eq_refl eq_refl) as [W Au].
          eapply Av_weak; [exact W|exact Au|apply incl_refl|exact (v_ok _ _ _ _ Au)].
        - (* BSingle *) destruct (bat se i mv b) as [a'|]; [|discriminate]. injection A as <-.
          destruct (bev b) as [u|]; cbn [bbind] in B; [|discriminate]. injection B as <-. destruct (IH _ _ eq_refl eq_refl) as [W Au].
          eapply Av_weak; [exact W|exact Au|cbn [extents flat_map]; rewrite app_nil_r; apply incl_refl|].
          apply laid_list. split; [constructor; [exact (v_ok _ _ _ _ Au)|constructor]|]. constructor; constructor.
        - (* BIntoAppend *) destruct (bat se i mv b) as [a'|]; [|discriminate]. injection A as <-.
          destruct (bev b) as [u|]; cbn [bbind] in B; [|discriminate]. destruct (IH _ _ eq_refl eq_refl) as [W Au].
          pose proof (v_ok _ _ _ _ Au) as L. destruct u; try discriminate; injection B as <-.
          + eapply Av_weak; [exact W|exact Au|intros z []|exact LN].
          + eapply Av_weak; [exact W|exact Au|cbn [extents flat_map]; rewrite app_nil_r; apply incl_refl|].
            apply laid_list. split; [constructor; [exact L|constructor]|]. constructor; constructor.
          + eapply Av_weak; [exact W|exact Au|apply incl_refl|exact L].
        - (* BUnwrapNil *) destruct (bat se i mv b) as [a'|]; [|discriminate]. injection A as <-.
          destruct (bev b) as [u|]; cbn [bbind] in B; [|discriminate]. destruct (IH _ _ eq_refl eq_refl) as [W Au].
          pose proof (v_ok _ _ _ _ Au) as L. destruct u; try discriminate; injection B as <-.
          + eapply Av_weak; [exact W|exact Au|intros z []|exact LN].
          + eapply Av_weak; [exact W|exact Au|apply incl_refl|exact L].
        - (* BUnwrapOr *) destruct (bat se i mv b) as [a'|]; [|discriminate]. cbn [obind] in A.
          destruct (bat se i mv d) as [ad|] eqn:Ad; [|discriminate]. injection A as <-.
          destruct (bev b) as [u|]; cbn [bbind] in B; [|discriminate]. destruct (IH _ _ eq_refl eq_refl) as [W Au].
          pose proof (v_ok _ _ _ _ Au) as L.
          pose proof (bat_wf _ _ Ad) as Wd.
          split; [apply plain_wf; now apply join_wf|]. apply Av_plain.
          + destruct u; try discriminate.
            * destruct (IHd _ _ eq_refl B) as [_ Ad']. replace (extents v) with ([] ++ extents v) by reflexivity.
              apply join_ok; auto; [apply Ex_nil|exact (v_ex _ _ _ _ Ad')].
            * injection B as <-. replace (extents u) with (extents u ++ []) by apply app_nil_r.
              apply join_ok; auto; [exact (v_ex _ _ _ _ Au)|apply Ex_nil].
          + destruct u; try discriminate; [destruct (IHd _ _ eq_refl B) as [_ Ad']; exact (v_ok _ _ _ _ Ad')|].
            injection B as <-. exact L.
        - (* BMk *)
          match type of A with obind ?r _ = _ => destruct r as [l|] eqn:G; cbn [obind] in A; [|discriminate] end.
          match type of B with bbind ?r _ = _ => destruct r as [vs|] eqn:G'; cbn [bbind] in B; [|discriminate] end.
          injection B as <-. apply bfields_ok in G'. eapply mk_at_ok; [exact A|]. clear A.
          revert l G. induction G' as [|[f b] v fs vs G1 G2 IHg]; intros l G; [injection G as <-; constructor|].
          apply Forall_cons_iff in IH as [IH1 IH2]. cbn [snd] in *.
          destruct (bat se i mv b) as [a'|] eqn:Ba; cbn [obind] in G; [|discriminate].
          match type of G with omap _ ?r = _ => destruct r as [l'|] eqn:G3; cbn [omap] in G; [|discriminate] end.
          injection G as <-. destruct (IH1 _ _ eq_refl G1) as [W1 A1]. constructor; [|apply IHg; auto].
          unfold item_ok. cbn [fst snd]. auto.
        - (* BVariant *) destruct (bat se i mv b) as [a'|]; [|discriminate]. injection A as <-.
          destruct (bev b) as [u|]; cbn [bbind] in B; [|discriminate]. injection B as <-. destruct (IH _ _ eq_refl eq_refl) as [W Au].
          split; [now apply selfish_wf|]. apply Av_self; [exact (v_ex _ _ _ _ Au)|exact (v_slf _ _ _ _ Au)|exact (v_ok _ _ _ _ Au)].
        - (* BPair *) destruct (bat se i mv b) as [a1|] eqn:A1; [|discriminate]. cbn [obind] in A.
          destruct (bat se i mv b') as [a2|] eqn:A2; [|discriminate]. injection A as <-.
          destruct (bev b) as [u1|] eqn:B1; cbn [bbind] in B; [|discriminate]. destruct (bev b') as [u2|] eqn:B2; cbn [bbind] in B; [|discriminate].
          injection B as <-. destruct (IHa _ _ eq_refl eq_refl) as [W1 Au1]. destruct (IHb _ _ eq_refl eq_refl) as [W2 Au2].
          split; [apply shaped_wf, plain_wf; now apply join_wf|].
          constructor; cbn [shaped plain a_slf a_md a_po]; [|discriminate| |split; [exact (v_ok _ _ _ _ Au1)|exact (v_ok _ _ _ _ Au2)]].
          + eapply Ex_times; [|cbn [extents]; apply (join_ok _ _ _ _ W1 W2 (v_ex _ _ _ _ Au1) (v_ex _ _ _ _ Au2))]. repeat split.
          + destruct (precedes _ _) eqn:P; [|now exists 0].
            assert (before u1 u2) as BB.
            { eapply precedes_ok; [exact P| |]; unfold item_ok; cbn [fst snd]; auto. }
            destruct (split_point _ _ BB) as (m & M1 & M2). exists m. cbn [splitv]. auto.
        - (* BFst *) destruct (bat se i mv b) as [a'|]; [|discriminate]. injection A as <-.
          destruct (bev b) as [u|]; cbn [bbind] in B; [|discriminate]. destruct (IH _ _ eq_refl eq_refl) as [W Au].
          split; [now apply first_wf|]. destruct u; try discriminate. injection B as <-. destruct (v_ok _ _ _ _ Au) as [L1 L2].
          eapply Av_first; [exact Au|cbn [extents]; apply incl_appl, incl_refl|auto|]. cbn [splitv]. tauto.
        - (* BSnd *) destruct (bat se i mv b) as [a'|]; [|discriminate]. injection A as <-.
          destruct (bev b) as [u|]; cbn [bbind] in B; [|discriminate]. destruct (IH _ _ eq_refl eq_refl) as [W Au].
          split; [now apply second_wf|]. destruct u; try discriminate. injection B as <-. destruct (v_ok _ _ _ _ Au) as [L1 L2].
          eapply Av_second; [exact Au|cbn [extents]; apply incl_appr, incl_refl|auto|]. cbn [splitv]. tauto.
        - (* BField *) destruct (bat se i mv b) as [a'|]; [|discriminate]. injection A as <-.
          destruct (bev b) as [u|]; cbn [bbind] in B; [|discriminate]. destruct (IH _ _ eq_refl eq_refl) as [W Au].
          destruct (get_field f u) as [w|] eqn:G; [|discriminate]. injection B as <-. pose proof (get_field_incl _ _ _ G) as IN.
          assert (laid_out w) as L.
          { destruct (get_field_in _ _ _ G) as (k & fs & -> & Iw). eapply laid_field; [exact (v_ok _ _ _ _ Au)|exact Iw]. }
          destruct (String.eqb_spec f "extent") as [->|N1]; [eapply Av_weak; eauto|].
          destruct (String.eqb_spec f "from_type") as [->|N2].
          { split; [now apply first_wf|]. eapply Av_first; [exact Au|exact IN|exact L|]. intros m M. cbn [splitv] in M.
            destruct u as [| | | | | | | | | |k [|x [|y [|z [|]]]]|]; try destruct M. subst k. vm_compute in G. injection G as <-. tauto. }
          destruct (String.eqb_spec f "to_type") as [->|N3].
          { split; [now apply second_wf|]. eapply Av_second; [exact Au|exact IN|exact L|]. intros m M. cbn [splitv] in M.
            destruct u as [| | | | | | | | | |k [|x [|y [|z [|]]]]|]; try destruct M. subst k. vm_compute in G. injection G as <-. tauto. }
          destruct (String.eqb_spec f "whitespace") as [->|N4]; cbn [andb]; [|eapply Av_weak; eauto].
          destruct (po_eqb (a_po a') PoCore) eqn:PC; [|eapply Av_weak; eauto].
          assert (exists m, splitv PoCore m u) as [m M].
          { pose proof (v_po _ _ _ _ Au) as P. assert (a_po a' = PoCore) as Q by (destruct (a_po a'); try discriminate; auto).
            rewrite Q in P. destruct (a_md a'); eauto. }
          cbn [splitv] in M. destruct u as [| | | | | | | | | |k [|x [|y [|z [|]]]]|]; try destruct M. subst k. vm_compute in G. injection G as <-.
          apply NW; tauto.
        - (* BExtentOf *) destruct (bat se i mv b) as [a'|]; [|discriminate]. injection A as <-.
          destruct (bev b) as [u|]; cbn [bbind] in B; [|discriminate]. destruct (IH _ _ eq_refl eq_refl) as [W Au].
          destruct (extent_of u) as [x|] eqn:X; [|discriminate]. injection B as <-.
          split; [now apply selfish_wf|]. apply Av_self.
          + eapply Ex_incl; [exact (v_ex _ _ _ _ Au)|]. intros z [<-|[]]. now apply extent_of_in.
          + intros _ y [= <-]. constructor; [intros _; lia|constructor].
          + exact I.
        - (* BIsSome *) destruct (bat se i mv b) as [a'|]; [|discriminate]. injection A as <-.
          destruct (bev b) as [u|]; cbn [bbind] in B; [|discriminate]. destruct u; try discriminate; injection B as <-; apply NW; try reflexivity; exact I.
        - (* BOptFst *) destruct (bat se i mv b) as [a'|]; [|discriminate]. injection A as <-.
          destruct (bev b) as [u|]; cbn [bbind] in B; [|discriminate]. destruct (IH _ _ eq_refl eq_refl) as [W Au].
          split; [now apply first_wf|]. destruct u as [| | | | | | |u| | | |]; try discriminate.
          + injection B as <-. eapply Av_first; [exact Au|intros z []|exact I|]. intros m _. constructor.
          + destruct u; try discriminate. injection B as <-. destruct (v_ok _ _ _ _ Au) as [L1 L2].
            eapply Av_first; [exact Au|cbn [extents]; apply incl_appl, incl_refl|auto|]. cbn [splitv]. unfold hi_le. cbn [extents]. tauto.
        - (* BOptSnd *) destruct (bat se i mv b) as [a'|]; [|discriminate]. injection A as <-.
          destruct (bev b) as [u|]; cbn [bbind] in B; [|discriminate]. destruct (IH _ _ eq_refl eq_refl) as [W Au].
          split; [now apply second_wf|]. destruct u as [| | | | | | |u| | | |]; try discriminate.
          + injection B as <-. eapply Av_second; [exact Au|intros z []|exact I|]. intros m _. constructor.
          + destruct u; try discriminate. injection B as <-. destruct (v_ok _ _ _ _ Au) as [L1 L2].
            eapply Av_second; [exact Au|cbn [extents]; apply incl_appr, incl_refl|auto|]. cbn [splitv]. unfold lo_ge. cbn [extents]. tauto.
        - (* BStmts *) destruct (bat se i mv t) as [at'|]; [|discriminate]. cbn [obind] in A.
          destruct (bat se i mv s) as [a'|]; [|discriminate]. injection A as <-.
          destruct (bev s) as [u|]; cbn [bbind] in B; [|discriminate]. destruct (bev t) as [ut|]; cbn [bbind] in B; [|discriminate].
          destruct (IHs _ _ eq_refl eq_refl) as [W Au]. destruct u; try discriminate. destruct ut; try discriminate. injection B as <-.
          pose proof (v_ok _ _ _ _ Au) as L. destruct (block_cases l b) as [E|(en & l' & w & E1 & E2)].
          + rewrite E. eapply Av_weak; [exact W|exact Au|apply incl_refl|exact L].
          + rewrite E2. cbn [fst]. eapply Av_weak; [exact W|exact Au| |].
            * rewrite E1. cbn [extents]. rewrite flat_map_app. apply incl_appl, incl_refl.
            * apply laid_list in L as [L1 L2]. rewrite E1 in L1, L2. apply laid_list. apply Forall_app in L1 as [L1 _]. split; [auto|].
              clear -L2. induction l' as [|y l' IH]; [constructor|]. cbn [app] in L2. inversion L2 as [|? ? F O]; subst.
              constructor; [|auto]. apply Forall_app in F as [F _]. auto.
        - (* BTrailing *) destruct (bat se i mv t) as [at'|]; [|discriminate]. cbn [obind] in A.
          destruct (bat se i mv s) as [a'|]; [|discriminate]. injection A as <-.
          destruct (bev s) as [u|]; cbn [bbind] in B; [|discriminate]. destruct (bev t) as [ut|]; cbn [bbind] in B; [|discriminate].
          destruct (IHs _ _ eq_refl eq_refl) as [W Au]. destruct u; try discriminate. destruct ut; try discriminate. injection B as <-.
          pose proof (v_ok _ _ _ _ Au) as L. destruct (block_cases l b) as [E|(en & l' & w & E1 & E2)].
          + rewrite E. eapply Av_weak; [exact W|exact Au|intros z []|exact I].
          + rewrite E2. cbn [snd]. eapply Av_weak; [exact W|exact Au| |].
            * rewrite E1. cbn [extents]. rewrite flat_map_app. apply incl_appr. cbn [flat_map extents]. rewrite app_nil_r. apply incl_refl.
            * apply laid_list in L as [L1 L2]. rewrite E1 in L1. apply Forall_app in L1 as [_ L1]. apply Forall_cons_iff in L1 as [L1 _]. exact L1.
        - (* BParen *) destruct (bat se i mv s) as [ax|] eqn:As; [|discriminate]. cbn [obind] in A.
          destruct (bat se i mv t) as [a'|] eqn:At'; [|discriminate]. cbn [obind] in A.
          destruct (contains se i mv s (("", t), a')) eqn:C; [|discriminate]. injection A as <-.
          destruct (bev s) as [u|] eqn:Bs; cbn [bbind] in B; [|discriminate]. destruct (bev t) as [ut|] eqn:Bt; cbn [bbind] in B; [|discriminate].
          destruct (IHs _ _ eq_refl eq_refl) as [W Au]. destruct (IHu _ _ eq_refl eq_refl) as [Wt Aut].
          destruct u; try discriminate. destruct ut as [| | | | | | | | |l r| |]; try discriminate.
          destruct l; try discriminate. destruct r as [| | | | | | | | |n r| |]; try discriminate. destruct n; try discriminate. injection B as <-.
          assert (insides e0 (flat_map extents l)) as IN.
          { eapply Forall_incl; [|eapply (contains_ok _ _ _ _ C); [|exact Bs]; unfold item_ok; cbn [fst snd]; eauto].
            cbn [extents]. apply incl_appl, incl_refl. }
          destruct (v_ok _ _ _ _ Aut) as [L _].
          destruct (paren_ok e0 l n IN L) as (P1 & P2 & P3).
          split; [apply selfish_wf; now apply join_wf|]. apply Av_self; [|auto|auto].
          eapply Ex_incl; [apply (join_ok _ _ _ _ W Wt (v_ex _ _ _ _ Au) (v_ex _ _ _ _ Aut))|].
          intros z Hz. apply P3 in Hz. cbn [extents app]. destruct Hz as [<-|Hz]; [now left|]. right. apply in_or_app. now left.
        - (* BNumber *) destruct (bat se i mv b) as [a'|]; [|discriminate]. injection A as <-.
          destruct (bev b) as [u|]; cbn [bbind] in B; [|discriminate]. destruct (IH _ _ eq_refl eq_refl) as [W Au].
          destruct u; try discriminate. injection B as <-. destruct (number_ok _ (v_ok _ _ _ _ Au)) as (N1 & N2 & N3).
          split; [now apply selfish_wf|]. apply Av_self; [|auto|auto]. eapply Ex_incl; [exact (v_ex _ _ _ _ Au)|exact N3].
      Qed.
    End Exp.
  End At.
End SpansOk.
