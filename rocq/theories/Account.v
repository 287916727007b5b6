(** Every token of a file is accounted for. *)

From Coq Require Import String List NArith Arith Bool Lia.
From Verif Require Import Base Peresil Token Tokenizer TokenizerSpec TokenizerWhole.
From Verif Require Import Schema Value Nt Grammar Points Table Static Typing Safety Apportion Lib FileToks Items
  Whitespace WhitespaceOk Fresh Extents LibOk FileSpec SpanSpec Deriv DerivMono DerivOk SpansOk SpansDer SpansFile Split MarkSpec LandSpec Expect
  CoverSpec Cover CoverOk CoverTidy CoverFile DropSpec Drops DropsOk DropsNeat DropsVals DropsFile Origin DropsSplit DropsWhole AccountSpec.
Import ListNotations.
Local Open Scope string_scope.
Local Open Scope list_scope.
Local Open Scope nat_scope.

(** Every kind of node with an extent is one of these. *)
Definition sorted_out (k : string) : bool :=
  existsb (String.eqb k) tidy || is_frayed k || is_led k || String.eqb k "TypeFunction" || existsb (String.eqb k) leaves || existsb (String.eqb k) hollow || String.eqb k "File".

(** * Values of the declared types *)

Fixpoint public (t : ty) : bool :=
  match t with
  | TPoint | TNumber => false
  | TOpt t | TList t => public t
  | TPair a b => public a && public b
  | TN k => existsb (fun s => String.eqb k (fst s)) structs || existsb (fun s => String.eqb k (fst s)) enums
  | _ => true
  end.
Fixpoint distinct (l : list string) : bool := match l with [] => true | x :: l' => negb (existsb (String.eqb x) l') && distinct l' end.
Definition struct_ok (s : string * list (string * ty * bool)) : bool :=
  sorted_out (fst s) && distinct (map field_name (snd s)) &&
  forallb (fun f => public (snd (fst f)) && (negb (String.eqb (fst (fst f)) "extent") || match snd (fst f) with TExt => true | _ => false end)) (snd s).
Lemma structs_ok : forallb struct_ok structs = true. Proof. vm_compute. reflexivity. Qed.
Lemma enums_ok : forallb (fun s => forallb (fun v => match snd v with Some t => public t | None => true end) (snd s)) enums = true. Proof. vm_compute. reflexivity. Qed.
Lemma internal_ok : forallb (fun s => negb (public (TN (fst s)))) internal_structs && forallb (fun s => negb (public (TN (fst s)))) internal_enums = true.
Proof. vm_compute. reflexivity. Qed.

Lemma public_struct k fields : public (TN k) = true -> struct_fields k = Some fields -> In (k, fields) structs.
Proof.
  intros P H. unfold struct_fields in H. apply SpansOk.assoc_in, in_app_iff in H as [H|H]; [auto|].
  pose proof internal_ok as I. apply andb_true_iff in I as [I _]. rewrite forallb_forall in I. specialize (I _ H). cbn [fst] in I. now rewrite P in I.
Qed.
Lemma public_enum k vs : public (TN k) = true -> enum_variants k = Some vs -> In (k, vs) enums.
Proof.
  intros P H. unfold enum_variants in H. apply SpansOk.assoc_in, in_app_iff in H as [H|H]; [auto|].
  pose proof internal_ok as I. apply andb_true_iff in I as [_ I]. rewrite forallb_forall in I. specialize (I _ H). cbn [fst] in I. now rewrite P in I.
Qed.
Lemma public_fields k fields : In (k, fields) structs -> struct_ok (k, fields) = true.
Proof. intros H. pose proof structs_ok as S. rewrite forallb_forall in S. exact (S _ H). Qed.
Lemma public_variant k vs v t : In (k, vs) enums -> assoc v vs = Some (Some t) -> public t = true.
Proof.
  intros H A. pose proof enums_ok as S. rewrite forallb_forall in S. specialize (S _ H). cbn [snd] in S. rewrite forallb_forall in S.
  apply SpansOk.assoc_in in A. exact (S _ A).
Qed.

Lemma index_of fields : forall (fs : list val) g v, distinct (map field_name fields) = true -> In (g, v) (combine (map field_name fields) fs) ->
  exists i, field_index g fields = Some i /\ nth_error fs i = Some v.
Proof.
  induction fields as [|[[f ty] fl] fields IH]; intros [|w fs] g v D I; try (destruct I; fail). cbn [map field_name distinct combine] in *.
  change (field_name (f, ty, fl)) with f in *. apply andb_true_iff in D as [D1 D2]. cbn [field_index]. destruct I as [[= -> ->]|I].
  - exists 0. rewrite String.eqb_refl. auto.
  - destruct (IH _ _ _ D2 I) as (i & X & N). exists (S i). destruct (String.eqb_spec g f) as [->|_].
    + exfalso. apply in_combine_l in I. apply negb_true_iff in D1. assert (existsb (String.eqb f) (map field_name fields) = true) as Q; [|congruence].
      apply existsb_exists. exists f. split; [auto|apply String.eqb_refl].
    + rewrite X. auto.
Qed.

Lemma named_in fields : forall fs v, Forall2 (fun v (f : string * ty * bool) => typed v (snd (fst f))) fs fields -> In v fs ->
  exists g ty fl, In (g, ty, fl) fields /\ In (g, v) (combine (map field_name fields) fs) /\ typed v ty.
Proof.
  intros fs v F. induction F as [|w [[g ty] fl] fs fields T F IH]; [intros []|]. intros [->|I].
  - exists g, ty, fl. split; [now left|]. split; [now left|exact T].
  - destruct (IH I) as (g' & ty' & fl' & A & B & C). exists g', ty', fl'. split; [now right|]. split; [now right|exact C].
Qed.

(** * One token *)

Section Account.
  Variables (toks : list token) (F : val) (t : token).
  Hypothesis In_t : In t toks.
  Hypothesis Some_t : fst (token_extent t) < snd (token_extent t).
  Hypothesis Simple_t : compound t = false.
  Hypothesis Tidy : forall k fs, part_of (VNode k fs) F -> tidied toks (VNode k fs).
  Hypothesis Frays : forall k fs, part_of (VNode k fs) F -> is_frayed k = true -> frays toks k fs.
  Hypothesis Led : forall k fs, part_of (VNode k fs) F -> is_led k = true -> leads toks k fs.
  Hypothesis Among : forall fs, part_of (VNode "TypeFunction" fs) F -> amongst toks "arguments" "TypeFunction" fs.
  Hypothesis Hollow : forall k fs x, part_of (VNode k fs) F -> In k hollow -> get_field "extent" (VNode k fs) = Some (VExt x) -> snd x <= fst x.

  Definition told (v : val) : Prop := forall ty, typed v ty -> public ty = true -> (forall w, part_of w v -> part_of w F) ->
    forall z, In z (extents v) -> lies_in t z -> accounted toks F t \/ bare z v.

  Lemma told_node k fs : Forall told fs -> told (VNode k fs).
  Proof.
    intros IH ty T P S z Z L. left. inversion T; subst. rename H1 into SF. rename H3 into FF. pose proof (public_struct _ _ P SF) as J.
    pose proof (public_fields _ _ J) as O. unfold struct_ok in O. cbn [fst snd] in O. apply andb_true_iff in O as [O PF]. apply andb_true_iff in O as [SO DI].
    rewrite forallb_forall in PF. rewrite Forall_forall in IH.
    assert (part_of (VNode k fs) F) as PN by (apply S; constructor).
    (* a part that holds the token *)
    assert (forall z, In z (inner_extents k fs) -> lies_in t z -> accounted toks F t) as Inner.
    { clear z Z L. intros z Z L. unfold inner_extents in Z. rewrite SF in Z. apply in_flat_map in Z as ([g v] & I & Z). cbn [fst snd] in Z.
      destruct (String.eqb_spec g "extent") as [->|NE]; [destruct Z|].
      pose proof (in_combine_r _ _ _ _ I) as Iv. destruct (named_in _ _ _ FF Iv) as (g' & ty & fl & A & B & C).
      specialize (PF _ A). apply andb_true_iff in PF as [PF _]. cbn [fst snd] in PF.
      destruct (IH _ Iv ty C PF) with (z := z) as [H|H]; auto; [intros w W; apply S; econstructor; eauto|].
      destruct (index_of _ _ _ _ DI I) as (i & X & N). eapply by_mark; [exact PN|exact NE| |exact H|exact L]. unfold get_field. now rewrite SF, X. }
    cbn [extents] in Z. apply in_flat_map in Z as (v & Iv & Z). destruct (named_in _ _ _ FF Iv) as (g & ty & fl & A & B & C).
    pose proof (PF _ A) as Pg. apply andb_true_iff in Pg as [Pg Ex]. cbn [fst snd] in Pg, Ex.
    destruct (String.eqb_spec g "extent") as [->|NE].
    - cbn [negb orb] in Ex. destruct ty; try discriminate. inversion C; subst. cbn [extents] in Z. destruct Z as [<-|[]]. rename e into x.
      destruct (index_of _ _ _ _ DI B) as (i & X & N). assert (get_field "extent" (VNode k fs) = Some (VExt x)) as G by (unfold get_field; now rewrite SF, X).
      assert (node_at F k fs x) as NA by (split; auto).
      unfold sorted_out in SO. repeat rewrite orb_true_iff in SO. destruct SO as [[[[[[K|K]|K]|K]|K]|K]|K].
      + pose proof (Tidy _ _ PN) as H. cbn [tidied] in H. destruct H as [_ H]. destruct (H K x t G In_t Some_t Simple_t L) as [(w & e & E & W)|(z & Z & Lz)]; [|eauto].
        eapply by_word; eauto. unfold words_of. apply in_app_iff. auto.
      + destruct (Frays _ _ PN K x t G In_t Some_t Simple_t L) as [(w & e & E & W)|[(z & Z & Lz)|(g & Ig & D & Op)]]; [|eauto|].
        * eapply by_word; eauto. unfold words_of. rewrite !in_app_iff. auto.
        * eapply by_list; eauto.
      + destruct (Led _ _ PN K x t G In_t Some_t Simple_t L) as [(w & e & E & W)|[(z & Z & Lz)|D]]; [|eauto|].
        * eapply by_word; eauto. unfold words_of. rewrite !in_app_iff. auto.
        * eapply by_attribute; eauto. unfold is_led in K. apply existsb_exists in K as (y & Iy & E). apply String.eqb_eq in E. subst k. now apply in_map.
      + apply String.eqb_eq in K. subst k. destruct (Among _ PN x t G In_t Some_t Simple_t L) as [(w & e & E & W)|[(z & Z & Lz)|D]]; [|eauto|].
        * eapply by_word; eauto. unfold words_of. rewrite !in_app_iff. auto.
        * eapply by_variadic; eauto.
      + apply existsb_exists in K as (y & Iy & E). apply String.eqb_eq in E. subst y. eapply by_leaf; eauto.
      + apply existsb_exists in K as (y & Iy & E). apply String.eqb_eq in E. subst y. pose proof (Hollow _ _ _ PN Iy G) as Em. unfold lies_in in L. lia.
      + apply String.eqb_eq in K. subst k. vm_compute in SF. injection SF as <-. cbn in A. destruct A as [A|[A|[]]]; discriminate.
    - apply (Inner z); [|exact L]. unfold inner_extents. rewrite SF. apply in_flat_map. exists (g, v). split; [exact B|]. cbn [fst snd].
      destruct (String.eqb_spec g "extent") as [->|_]; [contradiction|exact Z].
  Qed.

  Theorem all_told v : told v.
  Proof.
    induction v as [e|b|n|r|n| | |v IH|l IH|a b IHa IHb|k fs IH|en vn v IH] using val_ind'; try (apply told_node; exact IH);
      intros ty T P S z Z L; cbn [extents] in Z; try (destruct Z; fail).
    - destruct Z as [<-|[]]. right. constructor.
    - inversion T; subst. discriminate.
    - inversion T; subst. destruct (IH t0 H0 P) with (z := z) as [H|H]; auto; [intros w W; apply S; constructor; auto|right; constructor; auto].
    - inversion T; subst. apply in_flat_map in Z as (v & I & Z). rewrite Forall_forall in IH.
      destruct (IH v I t0 (H0 _ I) P) with (z := z) as [H|H]; auto; [intros w W; apply S; econstructor; eauto|right; econstructor; eauto].
    - inversion T; subst. cbn [public] in P. apply andb_true_iff in P as [P1 P2]. apply in_app_iff in Z as [Z|Z].
      + destruct (IHa _ H1 P1) with (z := z) as [H|H]; auto; [intros w W; apply S; constructor; auto|right; constructor; auto].
      + destruct (IHb _ H3 P2) with (z := z) as [H|H]; auto; [intros w W; apply S; now constructor|right; now constructor].
    - inversion T; subst; [|destruct Z].
      match goal with H : enum_variants _ = Some _, A : assoc _ _ = Some (Some ?ty), Tv : typed v ?ty |- _ =>
        pose proof (public_variant _ _ _ _ (public_enum _ _ P H) A) as Pv; destruct (IH ty Tv Pv) with (z := z) as [Q|Q]; auto end;
        [intros w W; apply S; constructor; auto|right; constructor; auto].
  Qed.
End Account.

(** * The file *)

Lemma ex_self toks p x : ex toks p p = BOk x -> snd x = fst x.
Proof.
  unfold ex. destruct (nth_error toks (off p)) as [first|]; [|discriminate]. rewrite Nat.compare_refl, Nat.compare_refl. intros [= <-]. reflexivity.
Qed.

Lemma made_field : In ("StructLiteralField", N_expr_value_struct_literal_field) made. Proof. vm_compute. tauto. Qed.
Lemma made_name : In ("PatternName", N_pattern_name) made. Proof. vm_compute. tauto. Qed.

Lemma hollow_empty toks k fs x : wf_toks toks -> origin toks k fs -> In k hollow -> get_field "extent" (VNode k fs) = Some (VExt x) -> snd x <= fst x.
Proof.
  intros WF O H G. destruct H as [<-|[<-|[]]].
  - destruct (O _ made_field) as (p & q & V & D). apply inv_nt in D. cbn [table] in D. apply inv_seq in D as (e' & D & B). apply beval_mk in B.
    inversion B; subst. cbn in G. injection G as ->. cbn [snd beval] in H1. destruct (as_point (assoc "spt" e')) as [r|]; cbn [bbind] in H1; [|discriminate].
    destruct (ex toks r r) as [x'|] eqn:X; cbn [bbind] in H1; [|discriminate]. injection H1 as ->. apply ex_self in X. lia.
  - destruct (O _ made_name) as (p & q & V & D). apply inv_nt in D. cbn [table] in D. apply inv_seq in D as (e' & D & B). apply beval_mk in B.
    inversion B; subst. cbn in G. injection G as ->. cbn [snd beval] in H1. destruct (as_point (assoc "spt" e')) as [r|]; cbn [bbind] in H1; [|discriminate].
    destruct (ex toks r r) as [x'|] eqn:X; cbn [bbind] in H1; [|discriminate]. injection H1 as ->. apply ex_self in X. lia.
Qed.

Lemma covered toks : wf_toks toks -> (forall e, In (Tk KEndOfFile e) toks -> fst e = snd e) -> forall o items, covers toks o items ->
  forall i t, nth_error toks i = Some t -> o <= i -> fst (token_extent t) < snd (token_extent t) ->
  exists v x, In v items /\ extent_of v = Some x /\ lies_in t x.
Proof.
  intros WF Eof o items C. induction C as [o e E|o o' first last v items L N1 N2 X C IH]; intros i t N Le So.
  - exfalso. pose proof (wf_eof _ WF _ _ E eq_refl) as Len. assert (i < length toks) as Li by (apply nth_error_Some; congruence). assert (i = o) as -> by lia.
    rewrite E in N. injection N as <-. apply nth_error_In, Eof in E. cbn [token_extent] in So. lia.
  - destruct (le_lt_dec o' i) as [G|G].
    + destruct (IH _ _ N G So) as (w & x & I & Y & Z). exists w, x. split; [now right|auto].
    + eexists v, _. split; [now left|]. split; [exact X|]. split; cbn [fst snd].
      * destruct (Nat.eq_dec o i) as [->|Ne]; [rewrite N1 in N; injection N as <-; lia|]. pose proof (nth_mono _ WF _ _ _ _ N1 N ltac:(lia)). pose proof (wf_ord _ WF _ _ N1). lia.
      * destruct (Nat.eq_dec i (o' - 1)) as [->|Ne]; [rewrite N2 in N; injection N as <-; lia|]. pose proof (nth_mono _ WF _ _ _ _ N N2 ltac:(lia)). pose proof (wf_ord _ WF _ _ N2). lia.
Qed.

Lemma extent_among v : forall x, extent_of v = Some x -> In x (extents v).
Proof.
  induction v as [e|b|n|r|n| | |v IH|l IH|a b IHa IHb|k fs IH|en vn v IH] using val_ind'; cbn [extent_of extents]; intros x H; try discriminate; auto.
  - injection H as ->. now left.
  - destruct fs as [|[e| | | | | | | | | | |] fs]; try discriminate. injection H as ->. cbn [flat_map extents app]. now left.
Qed.

Theorem file_accounted X code f ts t : xid_sane X -> parse_rust_file X code = FileOk f -> tokenize X code = TokOk ts ->
  In t ts -> significant t = true -> fst (token_extent t) < snd (token_extent t) -> compound t = false -> accounted (filter significant ts) (strip f) t.
Proof.
  intros XS E T I Sg So Co.
  destruct (file_orig X code f XS E) as (ts' & T' & WF & NUM & O). rewrite T in T'. injection T' as <-.
  destruct (file_tidy X code f XS E) as (ts' & T' & TD). rewrite T in T'. injection T' as <-.
  destruct (file_neat X code f XS E) as (ts' & T' & NE). rewrite T in T'. injection T' as <-.
  pose proof (parse_rust_file_ok X code XS) as H. rewrite E in H. destruct H as (ts' & parsed & T' & P & Fo). rewrite T in T'. injection T' as <-.
  destruct (partition_tokens ts []) as [ws toks] eqn:PT.
  destruct (tokens_wf _ _ _ _ _ XS T PT) as [_ WI].
  assert (toks = filter significant ts) as TE by (now rewrite <- (partition_filter ts []), PT). rewrite <- TE in *.
  pose proof (parse_items_ok toks WF (blen code) WI) as H. rewrite P in H. destruct H as (Cov & Ty & _).
  assert (In t toks) as It by (rewrite TE; apply filter_In; auto). apply In_nth_error in It as (i & Ni).
  assert (forall e, In (Tk KEndOfFile e) toks -> fst e = snd e) as Eof.
  { intros e He. rewrite TE in He. apply filter_In in He as [He _]. destruct (eof_once X XS code) as [[er Er]|(ts2 & init & T2 & -> & No & _)]; [congruence|].
    rewrite T in T2. injection T2 as ->. apply in_app_iff in He as [He|[He|[]]]; [destruct (No _ He)|]. injection He as <-. reflexivity. }
  destruct (covered toks WF Eof _ _ Cov i t Ni (Nat.le_0_l _) So) as (v & x & Iv & Xv & L).
  rewrite Forall_forall in Ty. pose proof (Ty _ Iv) as Tv.
  assert (strip f = VNode "File" [VList parsed; VList []]) as SE.
  { destruct Fo. rewrite fo_strip. rewrite strip_node. change (fields_of "File") with [("items", TList (TN "Attributed<Item>"), true); ("whitespace", TList (TN "Whitespace"), true)].
    cbn [strip_fields]. cbn [strip String.eqb Ascii.eqb Bool.eqb].
    assert (map strip parsed = parsed) as ->; [|reflexivity].
    rewrite <- (map_id parsed) at 2. apply map_ext_in. intros y Hy. rewrite Forall_forall in *. eapply free_strip; eauto. }
  destruct (all_told toks (strip f) t (nth_error_In _ _ Ni) So Co) with (v := v) (ty := TN "Attributed<Item>") (z := x) as [A|A]; auto.
  - intros k fs Pt. exact (tidied_part _ _ _ Pt TD).
  - intros k fs Pt K. rewrite TE. exact (file_frays X code f ts k fs XS E T Pt K).
  - intros k fs Pt K. pose proof (neat_part _ _ _ Pt NE) as H. cbn [neat] in H. exact (proj2 (proj2 H) K).
  - intros fs Pt. rewrite TE. exact (file_amongst X code f ts fs XS E T Pt).
  - intros k fs y Pt K G. pose proof (orig_part _ _ _ Pt O) as H. cbn [orig] in H. exact (hollow_empty toks k fs y WF (proj2 H) K G).
  - intros w W. rewrite SE. econstructor; [now left|]. econstructor; eauto.
  - now apply extent_among.
  - exfalso. inversion A; subst; inversion Tv; subst; match goal with H : enum_variants _ = Some _ |- _ => vm_compute in H; discriminate H end.
Qed.
