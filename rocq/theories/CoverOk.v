(** Soundness of the analysis of [Cover]: the tokens between the parts of a node
    are the words of its construct. *)

From Coq Require Import String List Arith Bool Lia.
From Verif Require Import Base Peresil Token Schema Value Nt Grammar Points Table Static Typing FileToks Split SpanSpec MarkSpec LandSpec Deriv DerivMono.
From Verif Require Import Marks MarksOk Spans SpansOk SpansDer Expect Honest CoverSpec Cover.
Import ListNotations.
Local Open Scope string_scope.
Local Open Scope list_scope.
Local Open Scope nat_scope.

Lemma kmem_in k l : kmem k l = true -> In k l.
Proof. unfold kmem. intros H. apply existsb_exists in H as (k' & I & E). apply tkind_eqb_eq in E. now subst. Qed.

Lemma kadd_in k a b : In k a \/ In k b -> In k (kadd a b).
Proof.
  induction a as [|x a IH]; cbn [kadd fold_right]; [intros [[]|H]; auto|]. fold (kadd a b). intros H.
  destruct (kmem x (kadd a b)) eqn:M; cbn [In] in *; [|intuition]. destruct H as [[->|H]|H]; [now apply kmem_in|auto|auto].
Qed.

Lemma ksub_ok a b : ksub a (Some b) = true -> exists a', a = Some a' /\ incl a' b.
Proof.
  cbn [ksub]. destruct a as [a|]; [|discriminate]. intros H. exists a. split; [auto|]. rewrite forallb_forall in H.
  intros k I. apply kmem_in. auto.
Qed.

Lemma kjoin_some a b W : kjoin a b = Some W -> exists a' b', a = Some a' /\ b = Some b' /\ incl a' W /\ incl b' W.
Proof.
  destruct a as [a|], b as [b|]; try discriminate. cbn [kjoin]. intros [= <-]. exists a, b.
  repeat split; intros k I; apply kadd_in; auto.
Qed.

Lemma kall_in {A} (f : A -> kset) l W x : kall f l = Some W -> In x l -> exists a, f x = Some a /\ incl a W.
Proof.
  revert W. induction l as [|y l IH]; intros W H I; [destruct I|]. cbn [kall fold_right] in H. fold (kall f l) in H.
  apply kjoin_some in H as (a & b & A1 & B1 & I1 & I2). destruct I as [->|I]; [eauto|].
  destruct (IH _ B1 I) as (c & C & I3). exists c. split; [auto|]. eapply incl_tran; eauto.
Qed.

Lemma nread_ok n W : nread n = Some W -> exists a, tread (table n) = Some a /\ incl a W.
Proof.
  intros H. pose proof nread_checked as C. rewrite forallb_forall in C. specialize (C n (all_nts_complete n)). rewrite H in C. now apply ksub_ok.
Qed.
Lemma ncov_ok n W : ncov n = Some W -> exists a, tcov (table n) = Some a /\ incl a W.
Proof.
  intros H. pose proof ncov_checked as C. rewrite forallb_forall in C. specialize (C n (all_nts_complete n)). rewrite H in C. now apply ksub_ok.
Qed.
Lemma gtidy_table n : gtidy (table n) = true.
Proof. pose proof gtidy_checked as H. rewrite forallb_forall in H. exact (H n (all_nts_complete n)). Qed.

Lemma mem_str_in x l : mem_str x l = false -> ~ In x l.
Proof.
  unfold mem_str. intros H I. assert (existsb (String.eqb x) l = true) as E; [|congruence]. apply existsb_exists. exists x. split; [auto|apply String.eqb_refl].
Qed.

Section CoverOk.
  Variable toks : list token.
  Hypothesis WF : wf_toks toks.
  Notation valid := (valid toks).
  Notation sb := (sb toks).
  Notation eb := (eb toks).

  (** * The tokens of an extent *)

  Lemma valid_whole p t : valid p -> nth_error toks (off p) = Some t -> compound t = false -> sub p = None.
  Proof.
    intros (u & U & S) H C. rewrite H in U. injection U as <-. destruct (sub p) as [n|]; [|auto]. destruct (S (compound_split t C n)).
  Qed.

  Lemma ex_has p q x i t : valid p -> valid q -> pos p <= pos q -> ex toks p q = BOk x -> nth_error toks i = Some t -> compound t = false ->
    off p <= i < off q -> lies_in t x.
  Proof.
    intros Vp Vq L X H C [A B]. destruct (ex_end _ WF _ _ _ Vp Vq L X) as (F & O & [[D E]|[D _]]); [|lia]. split.
    - rewrite F. unfold Points.sb. destruct (Nat.eq_dec i (off p)) as [->|N].
      + rewrite H, (valid_whole _ _ Vp H C). cbn [sub_rank]. lia.
      + destruct Vp as (u & U & S). rewrite U. pose proof (nth_mono _ WF _ _ _ _ U H ltac:(lia)).
        pose proof (rank_le _ WF p u U (ex_intro _ u (conj U S))). lia.
    - rewrite E. unfold SpansOk.eb, prev_end. destruct (off q) as [|j] eqn:Q; [lia|].
      destruct (nth_error toks j) as [u|] eqn:U.
      + destruct (Nat.eq_dec i j) as [->|N]; [rewrite H in U; injection U as <-; lia|].
        pose proof (nth_mono _ WF _ _ _ _ H U ltac:(lia)). pose proof (wf_ord _ WF _ _ U). lia.
      + apply nth_error_None in U. destruct Vq as (w & Hw & _). rewrite Q in Hw. assert (S j < length toks) by (apply nth_error_Some; congruence). lia.
  Qed.

  Lemma in_ex p q x i t : valid p -> valid q -> pos p <= pos q -> ex toks p q = BOk x -> nth_error toks i = Some t -> compound t = false ->
    fst (token_extent t) < snd (token_extent t) -> lies_in t x -> off p <= i < off q.
  Proof.
    intros Vp Vq L X H C S [A B]. destruct (ex_ok _ WF _ _ Vp Vq L) as (x' & X' & F & O & E). rewrite X in X'. injection X' as <-.
    destruct (ex_end _ WF _ _ _ Vp Vq L X) as (_ & _ & K). split.
    - destruct (le_lt_dec (off p) i) as [|G]; [auto|exfalso]. destruct Vp as (u & U & _). pose proof (nth_mono _ WF _ _ _ _ H U G).
      unfold Points.sb in F. rewrite U in F. lia.
    - destruct (le_lt_dec (off q) i) as [G|]; [exfalso|auto]. destruct (Nat.eq_dec i (off q)) as [->|N].
      + pose proof (valid_whole _ _ Vq H C) as N. unfold Points.sb in E. rewrite H, N in E. cbn [sub_rank] in E. lia.
      + pose proof Vq as (u & U & _). pose proof (nth_mono _ WF _ _ _ _ U H ltac:(lia)). pose proof (rank_le _ WF _ _ U Vq).
        unfold Points.sb in E. rewrite U in E. lia.
  Qed.

  (** * What is read *)

  Definition word (W : list tkind) (t : token) : Prop := exists w e, t = Tk w e /\ In w W.
  Definition within_some (l : list extent) (t : token) : Prop := exists z, In z l /\ lies_in t z.
  Definition reads (W : list tkind) (p q : point) : Prop :=
    forall i t, nth_error toks i = Some t -> compound t = false -> off p <= i < off q -> word W t.
  Definition holds (W : list tkind) (p q : point) (l : list extent) : Prop :=
    forall i t, nth_error toks i = Some t -> compound t = false -> off p <= i < off q -> word W t \/ within_some l t.

  Lemma word_incl W W' t : incl W W' -> word W t -> word W' t.
  Proof. intros I (w & e & -> & J). exists w, e. auto. Qed.
  Lemma reads_incl W W' p q : incl W W' -> reads W p q -> reads W' p q.
  Proof. intros I H i t N C R. eapply word_incl; [exact I|]. eauto. Qed.
  Lemma some_incl l l' t : incl l l' -> within_some l t -> within_some l' t.
  Proof. intros I (z & Z & H). exists z. auto. Qed.
  Lemma holds_incl W W' p q l l' : incl W W' -> incl l l' -> holds W p q l -> holds W' p q l'.
  Proof.
    intros I J H i t N C R. destruct (H i t N C R) as [K|K]; [left; eapply word_incl; eauto|right; eapply some_incl; eauto].
  Qed.
  Lemma reads_nil W p q : off q <= off p -> reads W p q.
  Proof. intros E i t N C R. lia. Qed.
  Lemma holds_nil W p q l : off q <= off p -> holds W p q l.
  Proof. intros E i t N C R. lia. Qed.
  Lemma reads_app W p q r : reads W p q -> reads W q r -> reads W p r.
  Proof. intros A B i t N C R. destruct (le_lt_dec (off q) i); [apply (B i)|apply (A i)]; auto; lia. Qed.
  Lemma holds_app W p q r l : holds W p q l -> holds W q r l -> holds W p r l.
  Proof. intros A B i t N C R. destruct (le_lt_dec (off q) i); [apply (B i)|apply (A i)]; auto; lia. Qed.
  Lemma reads_holds W p q l : reads W p q -> holds W p q l.
  Proof. intros A i t N C R. left. eauto. Qed.
  Lemma ex_all W p q x l : valid p -> valid q -> pos p <= pos q -> ex toks p q = BOk x -> In x l -> holds W p q l.
  Proof. intros Vp Vq L X I i t N C R. right. exists x. split; [auto|]. exact (ex_has _ _ _ _ _ Vp Vq L X N C R). Qed.

  (** A token that is read is of the kind that is asked for. *)
  Lemma tok_whole m err (pm : pm_t) p q v i t : valid p -> tok toks m err pm p = (pm, Success q v) -> nth_error toks i = Some t -> compound t = false ->
    off p <= i < off q -> i = off p /\ convert m t = Some v.
  Proof.
    intros V T H C R. destruct m as [k|].
    2: { destruct (tk_number _ _ _ _ _ _ V T) as (n & -> & U & _ & Q & _). assert (i = off p) as -> by lia. split; [auto|]. rewrite U in H. injection H as <-. reflexivity. }
    apply Split.tok_success in T as (u & U & [[Q (c & C1 & C2)]|[Q (a & b & C1 & C2)]]); subst q; cbn [off] in R; [|lia].
    assert (i = off p) as -> by lia. split; [auto|]. rewrite U in H. injection H as ->. 
    rewrite (valid_whole _ _ V U C) in C1. injection C1 as <-. exact C2.
  Qed.

  Lemma tok_reads k err (pm : pm_t) p q v : valid p -> tok toks (MK k) err pm p = (pm, Success q v) -> reads [k] p q.
  Proof.
    intros V T i t H C R. destruct (tok_whole _ _ _ _ _ _ _ _ V T H C R) as [_ E]. destruct t as [k' x|n]; [|discriminate].
    cbn [convert] in E. destruct (tkind_eqb k k') eqn:K; [|discriminate]. apply tkind_eqb_eq in K. subst k'. exists k, x. split; [auto|now left].
  Qed.

  Definition reado (s : kset) (p q : point) : Prop := forall W, s = Some W -> reads W p q.

  Lemma list_words sep f W : (if tfip sep && tfip f then kjoin (tread sep) (tread f) else None) = Some W ->
    tfip sep = true /\ tfip f = true /\ exists a b, tread sep = Some a /\ tread f = Some b /\ incl a W /\ incl b W.
  Proof. destruct (tfip sep); [|discriminate]. destruct (tfip f); [|discriminate]. intros H. apply kjoin_some in H. auto. Qed.

  Definition items_read (so : option g) (f : g) (e : env) (p q : point) : Prop := valid p -> forall W a,
    tread f = Some a -> incl a W -> (so = None \/ tfip f = true) ->
    match so with None => True | Some s => tfip s = true /\ exists b, tread s = Some b /\ incl b W end -> reads W p q.
  Definition between_read (so : option g) (e : env) (p q : point) : Prop := valid p -> forall W,
    match so with None => True | Some s => tfip s = true /\ exists b, tread s = Some b /\ incl b W end -> reads W p q.

  Theorem read_all :
    (forall x e p q v, der toks x e p q v -> valid p -> reado (tread x) p q) /\
    (forall steps e p e' q, ders toks steps e p e' q -> valid p -> reado (kall (fun s => tread (snd s)) steps) p q) /\
    (forall so f e p q vs, items toks so f e p q vs -> items_read so f e p q) /\
    (forall so e p q, between toks so e p q -> between_read so e p q) /\
    (forall c, etree toks c -> True).
  Proof.
    assert (forall x, tread x = readg nread x) as RE by reflexivity.
    apply (der_all toks (fun x e p q v => valid p -> reado (tread x) p q)
      (fun steps e p e' q => valid p -> reado (kall (fun s => tread (snd s)) steps) p q)
      (fun so f e p q vs => items_read so f e p q) (fun so e p q => between_read so e p q) (fun c => True)); auto;
      try (intros; intros W X; discriminate).
    - intros m err e p q v pm N K V W X. destruct m as [k|]; [|discriminate]. injection X as <-. eapply tok_reads; eauto.
    - intros n e p q v D IH V W X. change (nread n = Some W) in X. apply nread_ok in X as (a & A & I). eapply reads_incl; [exact I|]. exact (IH V _ A).
    - intros e p V W X. apply reads_nil. auto.
    - intros gs x e p q v J D IH V W X. change (kall tread gs = Some W) in X. destruct (kall_in _ _ _ _ X J) as (a & A & I).
      eapply reads_incl; [exact I|]. exact (IH V _ A).
    - intros x e p V W X. apply reads_nil. auto.
    - intros x e p q l D IH V W X. eapply (IH V W W); [exact X|apply incl_refl|now left|exact I].
    - intros app sep f e p q l vs n b B D IH Ch V W X. apply list_words in X as (S & F & a & b' & A & B' & I1 & I2). eapply (IH V W); eauto.
    - intros sep f e p q vs n b D IH NE Ch V W X. apply list_words in X as (S & F & a & b' & A & B' & I1 & I2). eapply (IH V W); eauto.
    - intros sep f e p p1 q vs Bt IHb D IH Ch V W X. apply list_words in X as (S & F & a & b' & A & B' & I1 & I2).
      destruct (between_mono _ WF _ _ _ _ Bt V) as [V1 _]. eapply reads_app; [eapply (IHb V W); eauto|eapply (IH V1 W); eauto].
    - intros sep f e p V W X. apply reads_nil. auto.
    - intros sep f e p q vs n b D IH Ch V W X. apply list_words in X as (S & F & a & b' & A & B' & I1 & I2). eapply (IH V W); eauto.
    - intros x e p q v D IH V W X. apply reads_nil. auto.
    - intros a b e p q v D IH V W X. change (kjoin (tread a) (tread b) = Some W) in X. apply kjoin_some in X as (a' & b' & A & B & I1 & I2).
      eapply reads_incl; [exact I1|]. exact (IH V _ A).
    - intros a b e p q v D IH V W X. change (kjoin (tread a) (tread b) = Some W) in X. apply kjoin_some in X as (a' & b' & A & B & I1 & I2).
      eapply reads_incl; [exact I2|]. exact (IH V _ B).
    - intros e p V W X. apply reads_nil. auto.
    - intros pt x steps e p q v e1 e' r D IH B DS IHs V W X. cbn [kall fold_right snd] in X. apply kjoin_some in X as (a & b & A & B' & I1 & I2).
      destruct (der_mono _ WF _ _ _ _ _ D V) as [V1 _]. eapply reads_app; [eapply reads_incl; [exact I1|]; exact (IH V _ A)|].
      eapply reads_incl; [exact I2|]. exact (IHs V1 _ B').
    - intros so f e p q Vq L E1 _ V W a A I O _. rewrite (E1 O). now apply reads_nil.
    - intros so f e p p1 p2 q v vs D IH Bt IHb DI IHi V W a A I O S. destruct (der_mono _ WF _ _ _ _ _ D V) as [V1 _].
      destruct (between_mono _ WF _ _ _ _ Bt V1) as [V2 _]. eapply reads_app; [eapply reads_incl; [exact I|]; exact (IH V _ A)|].
      eapply reads_app; [exact (IHb V1 W S)|]. eapply (IHi V2 W); eauto.
    - intros so e p V W S. now apply reads_nil.
    - intros sep e p q v D IH V W (F & b & B & I). eapply reads_incl; [exact I|]. exact (IH V _ B).
    - intros sep e p q F Vq L V W (F' & _). congruence.
  Qed.

  Lemma der_reads x e p q v W : der toks x e p q v -> valid p -> tread x = Some W -> reads W p q.
  Proof. intros D V X. exact (proj1 read_all _ _ _ _ _ D V _ X). Qed.

  (** * What a builder keeps *)

  Definition keptok (e : env) (l : list extent) (k : kept) : Prop :=
    match k with
    | KAll x => forall w, assoc x e = Some w -> incl (extents w) l
    | KFst x => forall w, assoc x e = Some w -> w = VNone \/ exists a b, (w = VPair a b \/ w = VSome (VPair a b)) /\ incl (extents a) l
    | KSnd x => forall w, assoc x e = Some w -> w = VNone \/ exists a b, (w = VPair a b \/ w = VSome (VPair a b)) /\ incl (extents b) l
    end.

  Lemma keptok_incl e l l' k : incl l l' -> keptok e l k -> keptok e l' k.
  Proof.
    intros I. destruct k as [x|x|x]; cbn [keptok]; intros H w A; specialize (H w A).
    - eapply incl_tran; eauto.
    - destruct H as [->|(a & b & E & J)]; [now left|right]. exists a, b. split; [auto|]. eapply incl_tran; eauto.
    - destruct H as [->|(a & b & E & J)]; [now left|right]. exists a, b. split; [auto|]. eapply incl_tran; eauto.
  Qed.
  Lemma keptoks_incl e l l' ks : incl l l' -> Forall (keptok e l) ks -> Forall (keptok e l') ks.
  Proof. intros I. apply Forall_impl. intros k. now apply keptok_incl. Qed.

  Lemma keeps_ok pt e b : forall v, beval toks pt e b = BOk v -> Forall (keptok e (extents v)) (keeps b).
  Proof.
    induction b as [y|y|y z| | | |b IH|b IH|b IH|b IH|b d IH IHd|k fs IH|en vn b IH|a b IHa IHb|b IH|b IH
                 |f b IH|b IH|b IH|b IH|b IH|s t IHs IHu|s t IHs IHu|s t IHs IHu|b IH] using bexp_ind'; intros v B; cbn [keeps]; try (constructor; fail); cbn [beval] in B.
    - constructor; [|constructor]. intros w A. rewrite A in B. injection B as <-. apply incl_refl.
    - destruct (beval toks pt e b) as [u|] eqn:U; cbn [bbind] in B; [|discriminate]. injection B as <-. exact (IH _ eq_refl).
    - destruct (beval toks pt e b) as [u|] eqn:U; cbn [bbind] in B; [|discriminate]. injection B as <-. cbn [extents flat_map]. rewrite app_nil_r. exact (IH _ eq_refl).
    - destruct (beval toks pt e b) as [u|] eqn:U; cbn [bbind] in B; [|discriminate]. specialize (IH _ eq_refl).
      destruct u; try discriminate; injection B as <-; cbn [extents flat_map] in *; rewrite ?app_nil_r; auto.
    - destruct (beval toks pt e b) as [u|] eqn:U; cbn [bbind] in B; [|discriminate]. specialize (IH _ eq_refl).
      destruct u; try discriminate; injection B as <-; auto.
    - destruct (beval toks pt e b) as [u|] eqn:U; cbn [bbind] in B; [|discriminate]. specialize (IH _ eq_refl).
      destruct u; try discriminate; [|injection B as <-; auto]. eapply keptoks_incl; [|exact IH]. intros z [].
    - match type of B with bbind ?r _ = _ => destruct r as [vs|] eqn:G; cbn [bbind] in B; [|discriminate] end. injection B as <-.
      apply fields_eval in G. cbn [extents]. induction G as [|f v fs vs G1 G2 IHg]; [constructor|]. apply Forall_cons_iff in IH as [IH1 IH2]. cbn [flat_map].
      apply Forall_app. split; [eapply keptoks_incl; [|exact (IH1 _ G1)]; apply incl_appl, incl_refl|eapply keptoks_incl; [|exact (IHg IH2)]; apply incl_appr, incl_refl].
    - destruct (beval toks pt e b) as [u|] eqn:U; cbn [bbind] in B; [|discriminate]. injection B as <-. exact (IH _ eq_refl).
    - destruct (beval toks pt e a) as [u|] eqn:U; cbn [bbind] in B; [|discriminate]. destruct (beval toks pt e b) as [u'|] eqn:U'; cbn [bbind] in B; [|discriminate].
      injection B as <-. cbn [extents]. apply Forall_app. split; [eapply keptoks_incl; [|exact (IHa _ eq_refl)]; apply incl_appl, incl_refl|eapply keptoks_incl; [|exact (IHb _ eq_refl)]; apply incl_appr, incl_refl].
    - destruct b as [x| | | | | | | | | | | | | | | | | | | | | | | |]; try (constructor; fail). constructor; [|constructor]. intros w A. cbn [beval] in B. rewrite A in B. cbn [bbind] in B.
      destruct w; try discriminate. injection B as <-. right. eexists _, _. split; [left; reflexivity|apply incl_refl].
    - destruct b as [x| | | | | | | | | | | | | | | | | | | | | | | |]; try (constructor; fail). constructor; [|constructor]. intros w A. cbn [beval] in B. rewrite A in B. cbn [bbind] in B.
      destruct w; try discriminate. injection B as <-. right. eexists _, _. split; [left; reflexivity|apply incl_refl].
    - destruct b as [x| | | | | | | | | | | | | | | | | | | | | | | |]; try (constructor; fail). constructor; [|constructor]. intros w A. cbn [beval] in B. rewrite A in B. cbn [bbind] in B.
      destruct w as [| | | | | | |w| | | |]; try discriminate; [now left|]. destruct w; try discriminate. injection B as <-. right. eexists _, _. split; [right; reflexivity|apply incl_refl].
    - destruct b as [x| | | | | | | | | | | | | | | | | | | | | | | |]; try (constructor; fail). constructor; [|constructor]. intros w A. cbn [beval] in B. rewrite A in B. cbn [bbind] in B.
      destruct w as [| | | | | | |w| | | |]; try discriminate; [now left|]. destruct w; try discriminate. injection B as <-. right. eexists _, _. split; [right; reflexivity|apply incl_refl].
    - destruct (beval toks pt e b) as [u|] eqn:U; cbn [bbind] in B; [|discriminate]. specialize (IH _ eq_refl). destruct u; try discriminate. injection B as <-.
      eapply keptoks_incl; [|exact IH]. cbn [extents]. destruct n as [rd x y f ee ss u]. unfold convert_number, number_extents. cbn. 
      destruct f, ee, ss; cbn; intros z Hz; cbn [In] in *; intuition.
  Qed.

  Lemma has_kept_in ks k : has_kept ks k = true -> In k ks.
  Proof.
    unfold has_kept. intros H. apply existsb_exists in H as (k' & I & E).
    destruct k, k'; cbn [kept_eqb] in E; try discriminate; apply String.eqb_eq in E; now subst.
  Qed.

  (** * The steps of a sequence *)

  Fixpoint binds (p : pat) (v : val) (later : list string) (e : env) : Prop :=
    match p with
    | PVar x => mem_str x later = false -> assoc x e = Some v
    | PPair a b => exists va vb, v = VPair va vb /\ binds a va (pat_vars b ++ later) e /\ binds b vb later e
    end.

  Lemma mem_app x a b : mem_str x (a ++ b) = mem_str x a || mem_str x b.
  Proof. unfold mem_str. apply existsb_app. Qed.

  Lemma bind_other p : forall v e e' x, bind_pat p v e = Some e' -> mem_str x (pat_vars p) = false -> assoc x e' = assoc x e.
  Proof.
    induction p as [y|a IHa b IHb]; intros v e e' x B N; cbn [bind_pat pat_vars] in *.
    - injection B as <-. cbn [assoc]. unfold mem_str in N. cbn [existsb] in N. rewrite orb_false_r in N. now rewrite N.
    - destruct v; try discriminate. destruct (bind_pat a v1 e) as [e1|] eqn:E; [|discriminate]. rewrite mem_app in N. apply orb_false_iff in N as [N1 N2].
      rewrite (IHb _ _ _ _ B N2). eauto.
  Qed.

  Lemma binds_bind p : forall v later e e1 e', bind_pat p v e = Some e1 -> (forall x, mem_str x later = false -> assoc x e' = assoc x e1) -> binds p v later e'.
  Proof.
    induction p as [y|a IHa b IHb]; intros v later e e1 e' B K; cbn [bind_pat binds] in *.
    - intros N. rewrite (K _ N). injection B as <-. cbn [assoc]. now rewrite String.eqb_refl.
    - destruct v; try discriminate. destruct (bind_pat a v1 e) as [e2|] eqn:E; [|discriminate]. exists v1, v2. split; [auto|]. split.
      + eapply IHa; [exact E|]. intros x N. rewrite mem_app in N. apply orb_false_iff in N as [N1 N2]. rewrite (K _ N2). eapply bind_other; eauto.
      + eapply IHb; eauto.
  Qed.

  Lemma ders_other steps e p e' q : ders toks steps e p e' q -> forall x, mem_str x (steps_vars steps) = false -> assoc x e' = assoc x e.
  Proof.
    induction steps as [|[pt y] steps IH] in e, p |- *; intros D x N.
    - apply inv_nil in D as [-> _]. auto.
    - apply inv_steps in D as (r & v & e1 & _ & B & D). unfold steps_vars in N. cbn [flat_map fst] in N. rewrite mem_app in N. apply orb_false_iff in N as [N1 N2].
      rewrite (IH _ _ D x N2). eapply bind_other; eauto.
  Qed.

  (** All that is known of a step: [H] is what is known of its values. *)
  Section Segs.
    Variable e' : env.
    Fixpoint segs (later : list string) (steps : list (pat * g)) (p q : point) : Prop :=
      match steps with
      | [] => q = p
      | (pt, y) :: rest =>
          exists r v, valid r /\ pos p <= pos r /\ (forall W, tcov y = Some W -> holds W p r (extents v)) /\ reado (tread y) p r /\
            (lists y = true -> exists a b, v = VPair a b /\ extents b = []) /\ (y = GPoint -> r = p /\ v = VPoint p) /\
            binds pt v (steps_vars rest ++ later) e' /\ segs later rest r q
      end.

    Lemma segs_mono later steps : forall p q, valid p -> segs later steps p q -> valid q /\ pos p <= pos q.
    Proof.
      induction steps as [|[pt y] steps IH]; intros p q V S; cbn [segs] in S; [subst; auto|].
      destruct S as (r & v & Vr & L & _ & _ & _ & _ & _ & S). destruct (IH _ _ Vr S). split; [auto|lia].
    Qed.

    Lemma keeps_pat_ok ks l e0 : forall later p v, Forall (keptok e0 l) ks -> e0 = e' -> forall ls,
      keeps_pat ks ls later p = true -> (ls = true -> exists a b, v = VPair a b /\ extents b = []) -> binds p v later e' -> incl (extents v) l.
    Proof.
      intros later p. revert later. induction p as [x|a IHa b IHb]; intros later v K -> ls H P B; cbn [keeps_pat binds] in *.
      - apply andb_true_iff in H as [N H]. apply negb_true_iff in N. specialize (B N). rewrite Forall_forall in K.
        apply orb_true_iff in H as [H|H]; [exact (K _ (has_kept_in _ _ H) _ B)|]. apply andb_true_iff in H as [H1 H2].
        destruct (K _ (has_kept_in _ _ H1) _ B) as [->|(a & b & E & I)]; [intros z []|].
        apply orb_true_iff in H2 as [H2| ->].
        + destruct (K _ (has_kept_in _ _ H2) _ B) as [->|(a' & b' & E' & I')]; [intros z []|].
          assert (a' = a /\ b' = b) as [-> ->] by (destruct E as [->| ->], E' as [E'|E']; try discriminate; injection E' as -> ->; auto).
          destruct E as [->| ->]; cbn [extents]; apply incl_app; auto.
        + destruct (P eq_refl) as (a' & b' & E' & Z). destruct E as [->| ->]; [|discriminate]. injection E' as <- <-. cbn [extents]. rewrite Z, app_nil_r. auto.
      - apply andb_true_iff in H as [H1 H2]. destruct B as (va & vb & -> & B1 & B2). cbn [extents]. apply incl_app.
        + eapply (IHa _ va K eq_refl false H1); [discriminate|exact B1].
        + apply orb_true_iff in H2 as [->|H2].
          * destruct (P eq_refl) as (a' & b' & [= <- <-] & Z). rewrite Z. intros z [].
          * eapply (IHb _ vb K eq_refl false H2); [discriminate|exact B2].
    Qed.

    Lemma segs_holds ks l later steps : Forall (keptok e' l) ks -> forall W p q, steps_cov tcov ks later steps = Some W -> segs later steps p q -> holds W p q l.
    Proof.
      intros K. induction steps as [|[pt y] steps IH]; intros W p q C S; cbn [segs] in S; [subst q; now apply holds_nil|].
      cbn [steps_cov] in C. apply kjoin_some in C as (a & b & A & B & I1 & I2). destruct S as (r & v & Vr & L & H1 & H2 & H3 & H4 & H5 & S).
      apply (holds_app _ _ r); [|eapply holds_incl; [exact I2|apply incl_refl|]; eauto]. unfold step_cov in A.
      destruct (keeps_pat ks (lists y) (steps_vars steps ++ later) pt) eqn:KP.
      - eapply holds_incl; [exact I1| |exact (H1 _ A)]. eapply keeps_pat_ok; eauto.
      - apply reads_holds. eapply reads_incl; [exact I1|]. exact (H2 _ A).
    Qed.

    Lemma segs_from x steps : forall l p q, valid p -> steps_from x steps = Some l -> segs [] steps p q ->
      exists r, assoc x e' = Some (VPoint r) /\ valid r /\ pos p <= pos r /\ segs [] l r q.
    Proof.
      induction steps as [|[pt y] steps IH]; intros l p q V F S; [discriminate|]. cbn [segs] in S. destruct S as (r & v & Vr & L & _ & _ & _ & G & B & S).
      assert (steps_from x steps = Some l -> exists r, assoc x e' = Some (VPoint r) /\ valid r /\ pos p <= pos r /\ segs [] l r q) as K.
      { intros F'. destruct (IH _ _ _ Vr F' S) as (r' & A & V' & L' & S'). exists r'. repeat split; auto. lia. }
      cbn [steps_from] in F. destruct pt as [z|]; [|auto]. destruct y; auto.
      destruct (String.eqb x z && negb (mem_str x (steps_vars steps))) eqn:E; [|auto]. apply andb_true_iff in E as [E1 E2]. apply String.eqb_eq in E1. subst z.
      apply negb_true_iff in E2. injection F as <-. destruct (G eq_refl) as [-> ->]. cbn [binds] in B. rewrite app_nil_r in B. exists p. auto.
    Qed.

    Lemma segs_to x steps : forall m later p q, valid p -> steps_to x steps = Some (m, later) -> segs [] steps p q ->
      exists r, assoc x e' = Some (VPoint r) /\ valid r /\ pos p <= pos r /\ segs later m p r.
    Proof.
      induction steps as [|[pt y] steps IH]; intros m later p q V F S; [discriminate|]. cbn [segs] in S. destruct S as (r & v & Vr & L & H1 & H2 & H3 & G & B & S).
      cbn [steps_to] in F. destruct (match pt, y with PVar z, GPoint => String.eqb x z && negb (mem_str x (steps_vars steps)) | _, _ => false end) eqn:E.
      - injection F as <- <-. destruct pt as [z|]; [|discriminate]. destruct y; try discriminate. apply andb_true_iff in E as [E1 E2]. apply String.eqb_eq in E1. subst z.
        apply negb_true_iff in E2. destruct (G eq_refl) as [-> ->]. cbn [binds] in B. rewrite app_nil_r in B. exists p. cbn [segs]. auto.
      - destruct (steps_to x steps) as [[m' l']|] eqn:F'; [|discriminate]. cbn [option_map fst snd] in F. injection F as <- <-.
        destruct (IH _ _ _ _ Vr eq_refl S) as (r' & A & V' & L' & S'). exists r'. split; [auto|]. split; [auto|]. split; [lia|].
        cbn [segs]. exists r, v. repeat split; auto; try (apply G; assumption).
        assert (steps_vars m' ++ l' = steps_vars steps) as ->; [|now rewrite app_nil_r in B].
        clear -F'. revert m' l' F'. induction steps as [|[pt y] steps IH]; intros m l F; [discriminate|]. cbn [steps_to] in F.
        match type of F with (if ?c then _ else _) = _ => destruct c end; [injection F as <- <-; reflexivity|].
        destruct (steps_to x steps) as [[m' l']|]; [|discriminate]. cbn [option_map fst snd] in F. injection F as <- <-.
        unfold steps_vars at 1. cbn [flat_map fst]. rewrite <- app_assoc. fold (steps_vars m'). now rewrite (IH _ _ eq_refl).
    Qed.

    Lemma starts_ok x steps : forall p q, starts_at x steps = true -> segs [] steps p q -> assoc x e' = Some (VPoint p).
    Proof.
      induction steps as [|[pt y] steps IH]; intros p q H S; [discriminate|]. cbn [segs] in S. destruct S as (r & v & Vr & L & _ & _ & _ & G & B & S).
      unfold starts_at in H. destruct pt as [z|]; [|discriminate]. destruct y; try discriminate. fold (starts_at x steps) in H. destruct (G eq_refl) as [-> ->].
      apply orb_true_iff in H as [H|H]; [|eauto]. apply andb_true_iff in H as [E1 E2]. apply String.eqb_eq in E1. subst z. apply negb_true_iff in E2.
      cbn [binds] in B. rewrite app_nil_r in B. auto.
    Qed.

    Lemma whole_ok steps p q : segs [] steps p q -> forall b v, whole steps b = true -> beval toks q e' b = BOk v -> exists x, ex toks p q = BOk x /\ In x (extents v).
    Proof.
      intros S. induction b as [y|y|y z| | | |b IH|b IH|b IH|b IH|b d IH IHd|k fs IH|en vn b IH|a b IHa IHb|b IH|b IH
                 |f b IH|b IH|b IH|b IH|b IH|s t IHs IHu|s t IHs IHu|s t IHs IHu|b IH] using bexp_ind'; intros v H B; cbn [whole] in H; try discriminate; cbn [beval] in B.
      - rewrite (starts_ok _ _ _ _ H S) in B. cbn [as_point bbind] in B. destruct (ex toks p q) as [x|]; cbn [bbind] in B; [|discriminate]. injection B as <-. exists x. split; [auto|now left].
      - destruct (beval toks q e' b) as [u|] eqn:U; cbn [bbind] in B; [|discriminate]. injection B as <-. exact (IH _ H eq_refl).
      - destruct (beval toks q e' b) as [u|] eqn:U; cbn [bbind] in B; [|discriminate]. injection B as <-. cbn [extents flat_map]. rewrite app_nil_r. exact (IH _ H eq_refl).
      - destruct (beval toks q e' b) as [u|] eqn:U; cbn [bbind] in B; [|discriminate]. specialize (IH _ H eq_refl).
        destruct u; try discriminate; injection B as <-; cbn [extents flat_map] in *; rewrite ?app_nil_r; auto.
      - destruct (beval toks q e' b) as [u|] eqn:U; cbn [bbind] in B; [|discriminate]. specialize (IH _ H eq_refl).
        destruct u; try discriminate; injection B as <-; auto.
      - match type of B with bbind ?r _ = _ => destruct r as [vs|] eqn:G; cbn [bbind] in B; [|discriminate] end. injection B as <-.
        apply fields_eval in G. cbn [extents]. induction G as [|f v fs vs G1 G2 IHg]; [discriminate|]. apply Forall_cons_iff in IH as [IH1 IH2]. cbn [existsb flat_map] in *.
        apply orb_true_iff in H as [H|H]; [destruct (IH1 _ H G1) as (x & X & I)|destruct (IHg IH2 H) as (x & X & I)]; exists x; (split; [auto|]); apply in_app_iff; auto.
      - destruct (beval toks q e' b) as [u|] eqn:U; cbn [bbind] in B; [|discriminate]. injection B as <-. exact (IH _ H eq_refl).
      - destruct (beval toks q e' a) as [u|] eqn:U; cbn [bbind] in B; [|discriminate]. destruct (beval toks q e' b) as [u'|] eqn:U'; cbn [bbind] in B; [|discriminate].
        injection B as <-. cbn [extents]. apply orb_true_iff in H as [H|H]; [destruct (IHa _ H eq_refl) as (x & X & I)|destruct (IHb _ H eq_refl) as (x & X & I)]; exists x; (split; [auto|]); apply in_app_iff; auto.
      - destruct (beval toks q e' s) as [u|] eqn:U; cbn [bbind] in B; [|discriminate]. destruct (beval toks q e' t) as [u'|] eqn:U'; cbn [bbind] in B; [|discriminate].
        destruct (IHs _ H eq_refl) as (x & X & I). exists x. split; [auto|]. destruct u as [y| | | | | | | | | | |]; try discriminate. destruct I as [->|[]].
        destruct u' as [| | | | | | | | |c d| |]; try discriminate. destruct c as [| | | | | | | |l| | |]; try discriminate. destruct d as [| | | | | | | | |c' d'| |]; try discriminate.
        destruct c'; try discriminate. injection B as <-. unfold paren_or_tuple. destruct l as [|w [|w' l]]; [now left|destruct n; now left|now left].
    Qed.
  End Segs.

  (** * Coverage *)

  Definition dcov (x : g) (e : env) (p q : point) (v : val) : Prop := valid p ->
    (forall W, tcov x = Some W -> holds W p q (extents v)) /\ (lists x = true -> exists a b, v = VPair a b /\ extents b = []).
  Definition icov (so : option g) (f : g) (e : env) (p q : point) (vs : list val) : Prop := valid p -> forall W a,
    tcov f = Some a -> incl a W -> (so = None \/ tfip f = true) ->
    match so with None => True | Some s => tfip s = true /\ exists b, tread s = Some b /\ incl b W end -> holds W p q (flat_map extents vs).
  Definition ecov (c : car val) : Prop := valid (c_spt c) -> holds [] (c_spt c) (c_ept c) (extents (c_val c)).

  Lemma list_cover sep f W : (if tfip sep && tfip f then kjoin (tread sep) (tcov f) else None) = Some W ->
    tfip sep = true /\ tfip f = true /\ exists a b, tread sep = Some a /\ tcov f = Some b /\ incl a W /\ incl b W.
  Proof. destruct (tfip sep); [|discriminate]. destruct (tfip f); [|discriminate]. intros H. apply kjoin_some in H. auto. Qed.

  Lemma between_reads so e p q W : between toks so e p q -> valid p ->
    match so with None => True | Some s => tfip s = true /\ exists b, tread s = Some b /\ incl b W end -> reads W p q.
  Proof. intros B V S. exact (proj1 (proj2 (proj2 (proj2 read_all))) _ _ _ _ B V W S). Qed.

  Lemma list_pair vs n b : exists a c, vtailed vs n b = VPair a c /\ extents c = [].
  Proof. unfold vtailed. eexists _, _. split; reflexivity. Qed.

  Ltac inside := first [left; reflexivity|right; simpl; repeat (rewrite in_app_iff; cbn [In]); auto 10].

  Lemma postfix_holds op c s e c' : apply_one toks [c] (OpPostfix op) s e = AOk [c'] -> valid (c_spt c) -> valid e -> pos (c_spt c) <= pos e ->
    holds [] (c_spt c) e (extents (c_val c')).
  Proof.
    intros A V1 V2 L. destruct op as [| | | | | | | | | | |en' k w]; cbn [apply_one] in A; try discriminate.
    repeat match type of A with (if ?b then _ else _) = _ => destruct b end; try discriminate;
      apply apply_postfix_val in A as (x & X & ->); (eapply ex_all; [exact V1|exact V2|exact L|exact X|]); unfold into_attributed, expr_node; inside.
  Qed.

  Theorem cover_all :
    (forall x e p q v, der toks x e p q v -> dcov x e p q v) /\
    (forall steps e p e' q, ders toks steps e p e' q -> valid p -> segs e' [] steps p q) /\
    (forall so f e p q vs, items toks so f e p q vs -> icov so f e p q vs) /\
    (forall so e p q, between toks so e p q -> True) /\
    (forall c, etree toks c -> ecov c).
  Proof.
    apply (der_all toks dcov (fun steps e p e' q => valid p -> segs e' [] steps p q) icov (fun so e p q => True) ecov); auto.
    - (* GTok *) intros m err e p q v pm N K V. split; [|discriminate]. intros W _ i t H C R.
      destruct (tok_whole _ _ _ _ _ _ _ _ V K H C R) as [_ E]. right. exists (token_extent t). split; [|split; lia].
      destruct t as [k x|n]; destruct m as [k'|]; cbn [convert] in E; try discriminate.
      + destruct (tkind_eqb k' k); [|discriminate]. injection E as <-. now left.
      + injection E as <-. now left.
    - intros n e p q v D IH V. destruct (IH V) as [H _]. split; [|discriminate]. intros W X. change (ncov n = Some W) in X. apply ncov_ok in X as (a & A & I).
      eapply holds_incl; [exact I|apply incl_refl|]. auto.
    - intros e p V. split; [|discriminate]. intros W _. now apply holds_nil.
    - (* GSeq *) intros steps b e e' p q v D IH B V. specialize (IH V). split.
      + intros W X. destruct (segs_mono _ _ _ _ _ V IH) as [Vq L]. unfold tcov in X. cbn [covg] in X. fold tcov in X.
        destruct (whole steps b) eqn:Wh.
        * injection X as <-. destruct (whole_ok _ _ _ _ IH _ _ Wh B) as (x & Ex & I). eapply ex_all; eauto.
        * eapply segs_holds; [eapply keeps_ok; exact B|exact X|exact IH].
      + intros Ls. cbn [lists] in Ls. destruct steps as [|[pt y] steps]; [discriminate|]. destruct pt as [x|]; [|discriminate]. destruct steps; [|discriminate].
        destruct b as [| | | | | | | | | | | | |c d| | | | | | | | | | |]; try discriminate. destruct c as [| | | | | | | | | | | | | |c| | | | | | | | | |]; try discriminate.
        destruct c as [x1| | | | | | | | | | | | | | | | | | | | | | | |]; try discriminate. destruct d as [| | | | | | | | | | | | | | |d| | | | | | | | |]; try discriminate.
        destruct d as [| | | | | | | | | | | | | | |d| | | | | | | | |]; try discriminate. destruct d as [x2| | | | | | | | | | | | | | | | | | | | | | | |]; try discriminate.
        apply andb_true_iff in Ls as [Ls L3]. apply andb_true_iff in Ls as [L1 L2]. apply String.eqb_eq in L1, L2. subst x1 x2.
        cbn [segs] in IH. destruct IH as (r & w & _ & _ & _ & _ & H & _ & Bd & _). destruct (H L3) as (a & c & -> & Z). specialize (Bd eq_refl).
        cbn [beval] in B. rewrite Bd in B. cbn [bbind] in B. destruct c as [| | | | | | | | |c d| |]; try discriminate. injection B as <-. exists a, d. split; [auto|].
        cbn [extents] in Z. now apply app_eq_nil in Z.
    - intros gs x e p q v J D IH V. split; [|discriminate]. intros W X. change (kall tcov gs = Some W) in X. destruct (kall_in _ _ _ _ X J) as (a & A & I).
      eapply holds_incl; [exact I|apply incl_refl|]. apply (IH V). exact A.
    - intros x e p q v D IH V. split; [|discriminate]. intros W X. apply (IH V). exact X.
    - intros x e p V. split; [|discriminate]. intros W X. now apply holds_nil.
    - intros x e p q l D IH V. split; [|discriminate]. intros W X. eapply (IH V W W); [exact X|apply incl_refl|now left|exact I].
    - intros app sep f e p q l vs n b B D IH Ch V. split; [|intros _; apply list_pair]. intros W X. apply list_cover in X as (S & F & a & b' & A & B' & I1 & I2).
      eapply holds_incl; [apply incl_refl| |eapply (IH V W); eauto]. cbn [vtailed extents]. rewrite app_nil_r, flat_map_app. apply incl_appr, incl_refl.
    - intros sep f e p q vs n b D IH NE Ch V. split; [|intros _; apply list_pair]. intros W X. apply list_cover in X as (S & F & a & b' & A & B' & I1 & I2).
      eapply holds_incl; [apply incl_refl| |eapply (IH V W); eauto]. cbn [vtailed extents]. rewrite app_nil_r. apply incl_refl.
    - intros sep f e p p1 q vs Bt _ D IH Ch V. split; [|discriminate]. intros W X. apply list_cover in X as (S & F & a & b' & A & B' & I1 & I2).
      destruct (between_mono _ WF _ _ _ _ Bt V) as [V1 _]. eapply holds_app; [apply reads_holds; eapply (between_reads (Some sep)); eauto|eapply (IH V1 W); eauto].
    - intros sep f e p V. split; [|discriminate]. intros W X. now apply holds_nil.
    - intros sep f e p q vs n b D IH Ch V. split; [|intros _; apply list_pair]. intros W X. apply list_cover in X as (S & F & a & b' & A & B' & I1 & I2).
      eapply holds_incl; [apply incl_refl| |eapply (IH V W); eauto]. cbn [vtailed extents]. rewrite app_nil_r. apply incl_refl.
    - (* GNested *) intros o c e p q v pm S K V. split; [|discriminate]. intros W _.
      destruct (der_mono _ WF _ _ _ _ _ (D_Nested toks o c e p q v pm S K) V) as [Vq L].
      unfold nested in K. destruct (ex toks p _) as [x|] eqn:X; [|discriminate]. injection K as <- <-. eapply ex_all; eauto. now left.
    - intros x e p q v r D IH X V. split; [|discriminate]. intros W _. destruct (der_mono _ WF _ _ _ _ _ D V) as [Vq L]. eapply ex_all; eauto. now left.
    - intros x e p q v D IH V. split; [|discriminate]. intros W X. now apply holds_nil.
    - intros x err e p q v D IH V. split; [|discriminate]. intros W X. apply (IH V). exact X.
    - (* GSimple *) intros x err e p q n r D IH S V. split; [|discriminate]. intros W X. unfold tcov in X. cbn [covg] in X. destruct x; try discriminate. destruct m; [discriminate|].
      apply inv_tok in D as [_ (pm & K)]. intros i t H C R. destruct (tok_whole _ _ _ _ _ _ _ _ V K H C R) as [_ E]. right. exists r. split; [now left|].
      destruct t as [k x|n']; [discriminate|]. injection E as ->. unfold into_simple in S. cbn [token_extent].
      destruct (n_radix n), (n_fractional n), (n_exponent n), (n_type_suffix n), (n_underscores n); try discriminate; injection S as <-; split; cbn [token_extent]; lia.
    - intros err x e p q v D IH V. split; [|discriminate]. intros W X. apply (IH V). exact X.
    - intros a b e p q v D IH V. split; [|discriminate]. intros W X. change (kjoin (tcov a) (tcov b) = Some W) in X. apply kjoin_some in X as (a' & b' & A & B & I1 & I2).
      eapply holds_incl; [exact I1|apply incl_refl|]. apply (IH V). exact A.
    - intros a b e p q v D IH V. split; [|discriminate]. intros W X. change (kjoin (tcov a) (tcov b) = Some W) in X. apply kjoin_some in X as (a' & b' & A & B & I1 & I2).
      eapply holds_incl; [exact I2|apply incl_refl|]. apply (IH V). exact B.
    - intros stmt e c T IH V. split; [|discriminate]. intros W X. injection X as <-. exact (IH V).
    - intros e p V. reflexivity.
    - (* a step *) intros pt x steps e p q v e1 e' r D IH B DS IHs V. destruct (der_mono _ WF _ _ _ _ _ D V) as [Vq L]. destruct (IH V) as [H1 H2].
      cbn [segs]. exists q, v. split; [auto|]. split; [auto|]. split; [auto|]. split; [exact (proj1 read_all _ _ _ _ _ D V)|]. split; [auto|].
      split; [intros ->; now apply inv_point in D|]. split; [|auto]. eapply binds_bind; [exact B|]. intros z N. rewrite app_nil_r in N. eapply ders_other; eauto.
    - intros so f e p q Vq L E1 _ V W a A I O _. rewrite (E1 O). now apply holds_nil.
    - intros so f e p p1 p2 q v vs D IH Bt IHb DI IHi V W a A I O S. destruct (der_mono _ WF _ _ _ _ _ D V) as [V1 _].
      destruct (between_mono _ WF _ _ _ _ Bt V1) as [V2 _]. cbn [flat_map].
      eapply holds_app; [eapply holds_incl; [exact I|apply incl_appl, incl_refl|]; apply (IH V); exact A|].
      eapply holds_app; [apply reads_holds; exact (between_reads so e p1 p2 W Bt V1 S)|]. eapply holds_incl; [apply incl_refl|apply incl_appr, incl_refl|]. eapply (IHi V2 W); eauto.
    - (* an atom *) intros p q en v D IH L V. cbn [c_spt c_ept c_val] in *. destruct (der_mono _ WF _ _ _ _ _ D V) as [Vq Lq].
      apply inv_nt in D. cbn [table] in D. apply inv_alt in D as (x & I & D).
      destruct I as [<-|[<-|[]]]; apply inv_wrap in D as (w & E & D); [discriminate|]. injection E as _ ->.
      apply inv_attributed in D as (m & x & l & w' & e1 & -> & X & _). eapply ex_all; eauto. now left.
    - (* a prefix operator *) intros en op s c c' res D IH L T IHt A E1 E2 V. rewrite E1 in *. rewrite E2.
      destruct (der_mono _ WF _ _ _ _ _ D V) as [V1 L1]. destruct (etree_mono _ WF _ T V1) as [V2 L2].
      apply inv_prefix in D as (m & x & l & w & -> & X & _).
      destruct w as [| | | | | | | | | | |en' k w]; cbn [apply_one] in A; try discriminate.
      repeat match type of A with (if ?b then _ else _) = _ => destruct b end; unfold apply_maybe_prefix in A;
        apply apply_prefix_val in A as (y & Y & ->); (eapply ex_all; [exact V|exact V2|lia|exact Y|]); unfold expr_node; inside.
    - intros en op s e c' D IH L A E1 E2 V. rewrite E1 in *. rewrite E2. destruct (der_mono _ WF _ _ _ _ _ D V) as [V1 L1].
      apply inv_prefix in D as (m & x & l & w & -> & X & _).
      destruct w as [| | | | | | | | | | |en' k w]; cbn [apply_one] in A; try discriminate.
      repeat match type of A with (if ?b then _ else _) = _ => destruct b; [try discriminate|] end; try discriminate;
        unfold apply_maybe_prefix in A; rewrite X in A; cbn [a_of_b abind] in A; injection A as <-; cbn [c_val] in *;
        (eapply ex_all; [exact V|exact V1|lia|exact X|]); unfold expr_node; inside.
    - (* an infix operator *) intros en op l r c' Tl IHl Tr IHr D IH L A E1 E2 V. rewrite E1 in *. rewrite E2.
      destruct (etree_mono _ WF _ Tl V) as [V1 L1]. destruct (der_mono _ WF _ _ _ _ _ D V1) as [V2 L2]. destruct (etree_mono _ WF _ Tr V2) as [V3 L3].
      destruct op as [| | | | | | | | | | |en' k w]; cbn [apply_one] in A; try discriminate.
      repeat match type of A with (if ?b then _ else _) = _ => destruct b end; unfold apply_maybe_infix in A; cbn [length Nat.leb] in A;
        apply apply_infix_val in A as (x & X & ->); (eapply ex_all; [exact V|exact V3|lia|exact X|]); unfold into_attributed, expr_node; inside.
    - intros en op l e c' Tl IHl D IH L A E1 E2 V. rewrite E1 in *. rewrite E2. destruct (etree_mono _ WF _ Tl V) as [V1 L1]. destruct (der_mono _ WF _ _ _ _ _ D V1) as [V2 L2].
      destruct op as [| | | | | | | | | | |en' k w]; cbn [apply_one] in A; try discriminate.
      repeat match type of A with (if ?b then _ else _) = _ => destruct b; [try discriminate|] end; try discriminate;
        unfold apply_maybe_infix in A; cbn [length Nat.leb pop_expression abind] in A;
        (destruct (ex toks (c_spt l) e) as [y|] eqn:Y; cbn [a_of_b abind] in A; [|discriminate]); injection A as <-; cbn [c_val] in *;
        (eapply ex_all; [exact V|exact V2|lia|exact Y|]); unfold into_attributed, expr_node; inside.
    - (* a postfix operator *) intros en op c e c' T IHt D IH L A E1 E2 V. rewrite E1 in *. rewrite E2. destruct (etree_mono _ WF _ T V) as [V1 L1].
      destruct (der_mono _ WF _ _ _ _ _ D V1) as [V2 L2]. eapply postfix_holds; eauto; lia.
    - intros op c e c' T IHt D IH L A E1 E2 V. rewrite E1 in *. rewrite E2. destruct (etree_mono _ WF _ T V) as [V1 L1].
      destruct (der_mono _ WF _ _ _ _ _ D V1) as [V2 L2]. eapply postfix_holds; eauto; lia.
  Qed.
End CoverOk.
