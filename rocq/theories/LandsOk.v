(** Soundness of the analysis of [Lands]: the values of every derivation satisfy
    the tables of [LandSpec]. *)

From Coq Require Import String List Arith Bool Lia.
From Verif Require Import Base Peresil Token Schema Value Nt Grammar Points Table Static Typing FileToks Split SpanSpec MarkSpec LandSpec Deriv DerivMono.
From Verif Require Import Marks MarksOk Spans SpansOk SpansDer Lands.
Import ListNotations.
Local Open Scope string_scope.
Local Open Scope list_scope.
Local Open Scope nat_scope.

Lemma incl_b_in a b : incl_b a b = true -> incl a b.
Proof. unfold incl_b. rewrite forallb_forall. intros H m I. apply mem_in. auto. Qed.

Lemma dedup_in ms l : In ms (dedup l) -> In ms l.
Proof.
  induction l as [|a l IH]; cbn [dedup fold_right]; [auto|]. fold (dedup l). destruct (existsb _ _); cbn [In]; intuition.
Qed.

Lemma common_in ms a b : In ms (common a b) -> (exists x, In x a /\ incl x ms) /\ (exists y, In y b /\ incl y ms).
Proof.
  unfold common. destruct (_ <=? _); [|intros []]. intros I. apply dedup_in in I. apply in_flat_map in I as (x & Ix & I).
  apply in_map_iff in I as (y & <- & Iy). split; [exists x|exists y]; (split; [auto|]); intros m Im; apply add_all_in; auto.
Qed.

Lemma commons_in ms l a : In ms (commons l) -> In a l -> exists x, In x a /\ incl x ms.
Proof.
  revert ms. induction l as [|b l IH]; intros ms H I; [destruct I|]. destruct l as [|c l].
  - destruct I as [->|[]]. exists ms. split; [exact H|apply incl_refl].
  - change (In ms (common b (commons (c :: l)))) in H. apply common_in in H as [H1 (y & H2 & H3)]. destruct I as [->|I]; [auto|].
    destruct (IH y H2 I) as (x & X1 & X2). exists x. split; [auto|]. eapply incl_tran; eauto.
Qed.

Lemma some_in_ok ms l : some_in ms l = true -> exists a, In a l /\ incl a ms.
Proof. unfold some_in. intros H. apply existsb_exists in H as (a & I & E). exists a. split; [auto|]. now apply incl_b_in. Qed.

Lemma nmust_ok n ms : In ms (nmust n) -> exists a, In a (tmust (table n)) /\ incl a ms.
Proof.
  intros I. pose proof nmust_checked as H. rewrite forallb_forall in H. specialize (H n (all_nts_complete n)).
  rewrite forallb_forall in H. apply some_in_ok. auto.
Qed.

Lemma nla_table n : nla n = tla [] 0 still (table n).
Proof.
  unfold nla, lookup. rewrite <- nla_checked. apply nth_error_nth. rewrite nth_error_map, all_nts_nth. reflexivity.
Qed.

Lemma lchk_table n : lchk [] 0 still (table n) = true.
Proof. pose proof lchk_checked as H. rewrite forallb_forall in H. exact (H n (all_nts_complete n)). Qed.

Lemma tchk_table n : exists r, tchk [] 0 still (table n) = Some r.
Proof.
  pose proof spans_checked as H. rewrite forallb_forall in H. specialize (H n (all_nts_complete n)). unfold span_ok in H.
  destruct (tchk [] 0 still (table n)); [eauto|discriminate].
Qed.

Lemma neighbours_cons a l x y : neighbours (a :: l) x y -> (x = a /\ exists l', l = y :: l') \/ neighbours l x y.
Proof.
  intros (i & X & Y). destruct i as [|i].
  - cbn [nth_error Nat.add] in *. injection X as ->. left. split; [auto|]. destruct l as [|z l]; [discriminate|]. injection Y as ->. eauto.
  - right. exists i. auto.
Qed.

Lemma walk_cons p y rest se i mv R : walk tchk ((p, y) :: rest) se i mv = Some R ->
  walk tchk rest (step_env p y se i mv) (i + 1) (moved i y mv) = Some R.
Proof.
  intros H. cbn [walk] in H. unfold step_env. cbn [walk].
  match type of H with match ?o with _ => _ end = _ => destruct o as [se'|] end; [exact H|discriminate].
Qed.

Section LandsOk.
  Variable toks : list token.
  Hypothesis WF : wf_toks toks.
  Hypothesis NUM : forall i n, nth_error toks i = Some (TkNumber n) -> num_ord n.
  Notation valid := (valid toks).
  Notation sb := (sb toks).
  Notation teb := (teb toks).
  Notation eb := (eb toks).
  Notation W := (written toks).
  Notation tk := (tk toks).
  Notation TL := (TL toks).
  Notation Av := (Av toks).
  Notation envok := (SpansOk.envok toks).
  Notation landed := (landed W).
  Notation parted := (parted W).

  (** * Tokens that are read *)

  Definition rd (ms : list matcher) (p q p' q' : point) : Prop :=
    valid p' /\ (exists m, In m ms /\ tk m p' q') /\ pos p <= pos p' /\ pos q' <= pos q.
  Definition reads (ms : list matcher) (p q : point) : Prop := exists p' q', rd ms p q p' q'.

  Lemma rd_incl a ms p q p' q' : incl a ms -> rd a p q p' q' -> rd ms p q p' q'.
  Proof. intros I (V & (m & M & T) & L). split; [auto|]. split; [exists m; auto|auto]. Qed.
  Lemma rd_wide ms p q a b p' q' : pos a <= pos p -> pos q <= pos b -> rd ms p q p' q' -> rd ms a b p' q'.
  Proof. intros L1 L2 (V & T & L3 & L4). split; [auto|]. split; [auto|]. lia. Qed.
  Lemma reads_wide ms p q a b : pos a <= pos p -> pos q <= pos b -> reads ms p q -> reads ms a b.
  Proof. intros L1 L2 (p' & q' & R). exists p', q'. eapply rd_wide; eauto. Qed.
  Lemma reads_incl a ms p q : incl a ms -> reads a p q -> reads ms p q.
  Proof. intros I (p' & q' & R). exists p', q'. eapply rd_incl; eauto. Qed.

  (** All sets of a list are read. *)
  Definition musts (l : msets) (p q : point) : Prop := forall ms, In ms l -> reads ms p q.

  Theorem must_all :
    (forall x e p q v, der toks x e p q v -> valid p -> musts (tmust x) p q) /\
    (forall steps e p e' q, ders toks steps e p e' q -> valid p -> musts (flat_map (fun s => tmust (snd s)) steps) p q) /\
    (forall so f e p q vs, items toks so f e p q vs -> valid p -> vs <> [] -> musts (tmust f) p q) /\
    (forall so e p q, between toks so e p q -> True) /\
    (forall c, etree toks c -> True).
  Proof.
    assert (NO : forall p q, musts [] p q) by (intros p q ms []).
    apply (der_all toks (fun x e p q v => valid p -> musts (tmust x) p q)
      (fun steps e p e' q => valid p -> musts (flat_map (fun s => tmust (snd s)) steps) p q)
      (fun so f e p q vs => valid p -> vs <> [] -> musts (tmust f) p q) (fun so e p q => True) (fun c => True)); auto;
      try (intros; apply NO).
    - intros m err e p q v pm N T V ms [<-|[]]. exists p, q. split; [auto|]. split; [|lia]. exists m. split; [now left|]. split; [auto|]. eauto.
    - intros n e p q v D IH V ms I. apply nmust_ok in I as (a & Ia & In_). eapply reads_incl; [exact In_|]. now apply IH.
    - intros gs x e p q v I D IH V ms H. unfold tmust in H. cbn [mustg] in H. destruct (commons_in _ _ (tmust x) H) as (a & A1 & A2).
      { apply in_map_iff. exists x. auto. }
      eapply reads_incl; [exact A2|]. now apply IH.
    - intros a b e p q v D IH V ms H. unfold tmust in H. cbn [mustg] in H. apply common_in in H as [(x & X1 & X2) _].
      eapply reads_incl; [exact X2|]. now apply IH.
    - intros a b e p q v D IH V ms H. unfold tmust in H. cbn [mustg] in H. apply common_in in H as [_ (x & X1 & X2)].
      eapply reads_incl; [exact X2|]. now apply IH.
    - intros pt x steps e p q v e1 e' r D IH B DS IHs V ms I. destruct (der_mono _ WF _ _ _ _ _ D V) as [V1 L1].
      destruct (ders_mono _ WF _ _ _ _ _ DS V1) as [V2 L2]. cbn [flat_map snd] in I. apply in_app_iff in I as [I|I].
      + eapply reads_wide; [| |exact (IH V _ I)]; lia.
      + eapply reads_wide; [| |exact (IHs V1 _ I)]; lia.
    - intros so f e p q Vq L _ _ V NE. destruct (NE eq_refl).
    - intros so f e p p1 p2 q v vs D IH Bt _ DI _ V _ ms I. destruct (der_mono _ WF _ _ _ _ _ D V) as [V1 L1].
      destruct (between_mono _ WF _ _ _ _ Bt V1) as [V2 L2]. destruct (items_mono _ WF _ _ _ _ _ _ DI V2) as [V3 L3].
      eapply reads_wide; [| |exact (IH V _ I)]; lia.
  Qed.

  (** * Values *)

  Definition row (P : val -> Prop) (ms : list matcher) (l : list val) : Prop := forall a b, neighbours l a b -> P a \/ parted ms a b.

  Fixpoint savok (s : sav) (v : val) : Prop :=
    match s with
    | SAny => True
    | SNone => v = VNone
    | SList ms => exists l, v = VList l /\ row (fun _ => False) ms l
    | SSelf ms => exists l, v = VList l /\ row (fun a => is_implicit_separator a = true) ms l
    | SFst s => exists a b, v = VPair a b /\ savok s a
    | SOpt s => v = VNone \/ exists w, v = VSome w /\ savok s w
    end.

  Lemma parted_incl a ms x y : incl a ms -> parted a x y -> parted ms x y.
  Proof. intros I (z & (m & M & Z) & L). exists z. split; [exists m; auto|auto]. Qed.
  Lemma row_incl P a ms l : incl a ms -> row P a l -> row P ms l.
  Proof. intros I R x y N. destruct (R x y N); [now left|right]. eapply parted_incl; eauto. Qed.

  Lemma add_all_l a b : incl a (add_all a b).
  Proof. intros m I. apply add_all_in. now left. Qed.
  Lemma add_all_r a b : incl b (add_all a b).
  Proof. intros m I. apply add_all_in. now right. Qed.

  Lemma sav_or_ok a : forall b v, (savok a v -> savok (sav_or a b) v) /\ (savok b v -> savok (sav_or a b) v).
  Proof.
    induction a as [| |l|l|s IH|s IH]; intros b v; destruct b as [| |l'|l'|s'|s']; cbn [sav_or]; try (split; intros; exact I); try (split; auto; fail).
    - cbn [savok]. split; [auto|intros H; exact H].
    - cbn [savok]. split; intros (w & -> & R); exists w; (split; [auto|]); (eapply row_incl; [|exact R]); [apply add_all_l|apply add_all_r].
    - cbn [savok]. split; intros (x & y & -> & R); exists x, y; (split; [auto|]); first [exact (proj1 (IH _ _) R)|exact (proj2 (IH _ _) R)].
    - cbn [savok]. split; [intros H; exact H|auto].
    - cbn [savok]. split; (intros [H|(w & -> & R)]; [now left|right]); exists w; (split; [auto|]); first [exact (proj1 (IH _ _) R)|exact (proj2 (IH _ _) R)].
  Qed.

  (** A token of the set in front of, or behind, everything in the value. *)
  Definition leads (ms : list matcher) (p q : point) (v : val) : Prop :=
    exists p' q', rd ms p q p' q' /\ Forall (fun z => sb q' <= fst z) (extents v).
  Definition trails (ms : list matcher) (p q : point) (v : val) : Prop :=
    exists p' q', rd ms p q p' q' /\ Forall (fun z => snd z <= sb p') (extents v).

  Record Lv (a : la) (p q : point) (v : val) : Prop := {
    lv_lead : extents v <> [] -> forall ms, In ms (lead a) -> leads ms p q v;
    lv_trail : extents v <> [] -> forall ms, In ms (trail a) -> trails ms p q v;
    lv_sep : savok (lsep a) v
  }.

  Lemma leads_incl a ms p q v : incl a ms -> leads a p q v -> leads ms p q v.
  Proof. intros I (p' & q' & R & F). exists p', q'. split; [eapply rd_incl; eauto|auto]. Qed.
  Lemma trails_incl a ms p q v : incl a ms -> trails a p q v -> trails ms p q v.
  Proof. intros I (p' & q' & R & F). exists p', q'. split; [eapply rd_incl; eauto|auto]. Qed.
  Lemma leads_sub ms p q a b v w : pos a <= pos p -> pos q <= pos b -> incl (extents w) (extents v) -> leads ms p q v -> leads ms a b w.
  Proof. intros L1 L2 I (p' & q' & R & F). exists p', q'. split; [eapply rd_wide; eauto|eapply Forall_incl; eauto]. Qed.
  Lemma trails_sub ms p q a b v w : pos a <= pos p -> pos q <= pos b -> incl (extents w) (extents v) -> trails ms p q v -> trails ms a b w.
  Proof. intros L1 L2 I (p' & q' & R & F). exists p', q'. split; [eapply rd_wide; eauto|eapply Forall_incl; eauto]. Qed.

  Lemma nonempty_incl {A} (a b : list A) : incl a b -> a <> [] -> b <> [].
  Proof. intros I N ->. destruct a as [|x a]; [auto|]. exact (I x (or_introl eq_refl)). Qed.

  Lemma Lv_sub a s p q v w : incl (extents w) (extents v) -> Lv a p q v -> savok s w -> Lv (mkLa (lead a) (trail a) s) p q w.
  Proof.
    intros I [L T S] H. constructor; cbn [lead trail lsep]; auto; intros N ms M.
    - eapply leads_sub; [| |exact I|apply L]; eauto. eapply nonempty_incl; eauto.
    - eapply trails_sub; [| |exact I|apply T]; eauto. eapply nonempty_incl; eauto.
  Qed.

  Lemma Lv_any p q v : Lv la_any p q v.
  Proof. constructor; cbn; auto; intros _ ms []. Qed.
  Lemma Lv_sep s p q v : savok s v -> Lv (mkLa [] [] s) p q v.
  Proof. intros H. constructor; cbn [lead trail lsep]; auto; intros _ ms []. Qed.

  Lemma la_or_ok a b p q v : (Lv a p q v -> Lv (la_or a b) p q v) /\ (Lv b p q v -> Lv (la_or a b) p q v).
  Proof.
    split; intros [L T S]; constructor; cbn [la_or lead trail lsep]; try first [exact (proj1 (sav_or_ok _ _ _) S)|exact (proj2 (sav_or_ok _ _ _) S)]; intros N ms M; apply common_in in M as [(x & X1 & X2) (y & Y1 & Y2)].
    - eapply leads_incl; [exact X2|auto].
    - eapply trails_incl; [exact X2|auto].
    - eapply leads_incl; [exact Y2|auto].
    - eapply trails_incl; [exact Y2|auto].
  Qed.

  (** * Environments *)

  Definition elanded (e : env) : Prop := Forall (fun b => landed (snd b)) e.

  Lemma assoc_landed e x v : elanded e -> assoc x e = Some v -> landed v.
  Proof.
    intros H A. induction e as [|[y w] e IH]; [discriminate|]. inversion H; subst. cbn [assoc] in A. destruct (String.eqb x y); [|auto]. now injection A as <-.
  Qed.

  Lemma bind_landed pt : forall v e e1, landed v -> elanded e -> bind_pat pt v e = Some e1 -> elanded e1.
  Proof.
    induction pt as [x|p1 IH1 p2 IH2]; intros v e e1 L E B; cbn [bind_pat] in B.
    - injection B as <-. constructor; auto.
    - destruct v; try discriminate. destruct (bind_pat p1 v1 e) as [e2|] eqn:B1; [|discriminate]. destruct L as [L1 L2]. eauto.
  Qed.

  Lemma landed_all l : fold_right (fun x P => landed x /\ P) True l <-> Forall landed l.
  Proof.
    induction l as [|v l IH]; cbn [fold_right]; [split; [constructor|auto]|]. rewrite IH. split.
    - intros []. now constructor.
    - intros H. inversion H; auto.
  Qed.
  Lemma landed_list l : landed (VList l) <-> Forall landed l.
  Proof. apply landed_all. Qed.
  Lemma landed_node k fs : landed (VNode k fs) <-> Forall landed fs /\ node_lands W k fs.
  Proof. cbn [LandSpec.landed]. now rewrite landed_all. Qed.

  Lemma landed_field f v w : landed v -> get_field f v = Some w -> landed w.
  Proof.
    intros L G. destruct v as [| | | | | | | | | |k fs|]; try discriminate. apply landed_node in L as [L _]. unfold get_field in G.
    destruct (struct_fields k); [|discriminate]. destruct (field_index f l) as [i|]; [|discriminate]. apply nth_error_In in G.
    rewrite Forall_forall in L. auto.
  Qed.

  (** What the steps from [i0] to [i] bound and read. *)
  Definition lenvok (i0 i : nat) (pt : nat -> point) (le : lenv) (e : env) : Prop :=
    forall x j a, assoc x le = Some (j, a) -> i0 <= j < i /\ exists v, assoc x e = Some v /\ Lv a (pt j) (pt (j + 1)) v.
  Definition evok (i0 i : nat) (pt : nat -> point) (ev : events) : Prop :=
    forall j l, In (j, l) ev -> i0 <= j < i /\ musts l (pt j) (pt (j + 1)).

  Lemma lenvok_agree i0 i i' pt pt' le e : (forall k, k <= i -> pt' k = pt k) -> i <= i' -> lenvok i0 i pt le e -> lenvok i0 i' pt' le e.
  Proof.
    intros P L H x j a A. destruct (H _ _ _ A) as (J & v & V & Lx). split; [lia|]. exists v. split; [auto|]. now rewrite !P by lia.
  Qed.
  Lemma evok_agree i0 i i' pt pt' ev : (forall k, k <= i -> pt' k = pt k) -> i <= i' -> evok i0 i pt ev -> evok i0 i' pt' ev.
  Proof. intros P L H j l A. destruct (H _ _ A) as (J & M). split; [lia|]. now rewrite !P by lia. Qed.

  Lemma lbind_ok i0 i pt p : i0 <= i -> forall a v le e e1, Lv a (pt i) (pt (i + 1)) v -> bind_pat p v e = Some e1 -> lenvok i0 (i + 1) pt le e ->
    lenvok i0 (i + 1) pt (lbind p i a le) e1.
  Proof.
    intros I0. induction p as [x|p1 IH1 p2 IH2]; intros a v le e e1 L B H; cbn [bind_pat lbind] in *.
    - injection B as <-. intros y j b A. cbn [assoc] in *. destruct (String.eqb y x); [|auto]. injection A as <- <-. split; [lia|]. eauto.
    - destruct v as [| | | | | | | | |va vb| |]; try discriminate. destruct (bind_pat p1 va e) as [e2|] eqn:B1; [|discriminate].
      eapply IH2; [|exact B|eapply IH1; [|exact B1|exact H]].
      + eapply Lv_sub; [|exact L|exact I]. cbn [extents]. apply incl_appr, incl_refl.
      + eapply Lv_sub; [|exact L|]; [cbn [extents]; apply incl_appl, incl_refl|].
        pose proof (lv_sep _ _ _ _ L) as S. destruct (lsep a); try exact I. cbn [savok] in S. destruct S as (x & y & [= <- <-] & S). exact S.
  Qed.

  Lemma implicit_ends v : is_implicit_separator v = true -> ends_itself v.
  Proof.
    destruct v as [| | | | | | | | | |k fs|en t w]; try discriminate.
    - cbn [is_implicit_separator ends_itself]. destruct (get_field "hand" _) as [[| | | | | | | | | | |e h w]|]; try discriminate.
      intros H. apply String.eqb_eq in H. subst. eauto.
    - intros H.
      assert (t = "Item" \/ (t = "Expression" /\ may_terminate_statement w = true)) as [->|[-> M]].
      { cbn [is_implicit_separator] in H. clear -H.
        repeat match type of H with
               | match ?s with EmptyString => _ | String _ _ => _ end = true => destruct s as [|[[] [] [] [] [] [] [] []] ?]; try discriminate H; auto
               end. }
      + exact I.
      + cbn [ends_itself]. unfold may_terminate_statement in M. destruct (get_field "value" w) as [x|]; [|discriminate].
        unfold may_terminate_expr in M. destruct x as [| | | | | | | | | | |e t y]; try discriminate. exists e, t, y. split; [auto|].
        destruct (existsb (String.eqb t) _) eqn:X.
        * left. apply existsb_exists in X as (z & Z & Ez). apply String.eqb_eq in Ez. now subst.
        * right. destruct (String.eqb t "MacroCall") eqn:Em; [|discriminate]. apply String.eqb_eq in Em. split; [auto|].
          destruct (get_field "args" y) as [[| | | | | | | | | | |e' a' w']|]; try discriminate. apply String.eqb_eq in M. subst. eauto.
  Qed.

  (** * Lists of items *)

  Lemma chain_row (D : point -> point -> val -> Prop) (S : val -> point -> point -> Prop) (P : val -> Prop) ms :
    (forall a b v, valid a -> D a b v -> valid b /\ Forall (inside (sb a) (sb b)) (extents v)) ->
    (forall v a b, valid a -> S v a b -> valid b /\ (P v \/ exists m, In m ms /\ tk m a b)) ->
    forall p vs, chain D S p vs -> valid p -> row P ms vs.
  Proof.
    intros HD HS p vs C. induction C as [p|p q v Dv|p q r v w vs Dv Sv C IH]; intros Vp a b N.
    - destruct N as (i & X & _). destruct i; discriminate.
    - apply neighbours_cons in N as [[_ (l & Hl)]|(i & X & _)]; [discriminate|destruct i; discriminate].
    - destruct (HD _ _ _ Vp Dv) as [Vq Iv]. destruct (HS _ _ _ Vq Sv) as [Vr O]. apply neighbours_cons in N as [[-> (l & [= <- _])]|N]; [|exact (IH Vr _ _ N)].
      destruct O as [O|(m & M & T)]; [now left|right]. destruct (tk_written _ WF _ _ _ Vq T) as (y & Wy & Y1 & Y2). exists y.
      split; [exists m; auto|]. pose proof (teb_sb _ WF _ Vr).
      assert (Forall (inside (sb r) (sb r + List.fold_right Nat.max 0 (map snd (extents w)))) (extents w)) as Iw.
      { assert (forall z, In z (extents w) -> sb r <= fst z /\ fst z <= snd z) as Z.
        { inversion C as [|? q' ? Dw|? q' r' ? ? ? Dw]; subst; destruct (HD _ _ _ Vr Dw) as [_ Iw]; rewrite Forall_forall in Iw;
            intros z Hz; specialize (Iw z Hz); unfold inside in Iw; lia. }
        apply Forall_forall. intros z Hz. destruct (Z z Hz). unfold inside.
        assert (snd z <= List.fold_right Nat.max 0 (map snd (extents w))) as M2; [|lia].
        clear -Hz. induction (extents w) as [|u l IH]; [destruct Hz|]. cbn [map fold_right]. destruct Hz as [->|Hz]; [lia|]. specialize (IH Hz). lia. }
      split; [eapply Forall_impl; [|exact Iv]|eapply Forall_impl; [|exact Iw]]; unfold inside; intros z Hz; lia.
  Qed.

  Lemma list_row sep f e p vs l r : chain (fun a b v => der toks f e a b v) (fun _ a b => exists d, der toks sep e a b d) p vs -> valid p ->
    tchk [] 0 still f = Some r -> tone sep = Some l -> row (fun _ => False) l vs.
  Proof.
    intros C V X O. eapply chain_row; [| |exact C|exact V].
    - intros a b v Va D. split; [apply (der_mono _ WF _ _ _ _ _ D Va)|eapply der_inside; eauto].
    - intros v a b Va (d & D). split; [apply (der_mono _ WF _ _ _ _ _ D Va)|]. right.
      pose proof (proj1 (single_all toks) _ _ _ _ _ D) as Sg. rewrite O in Sg. exact Sg.
  Qed.

  Lemma implicit_row sep f e p vs l r :
    chain (fun a b v => der toks f e a b v) (fun v a b => (exists d, der toks sep e a b d) \/ (is_implicit_separator v = true /\ valid b /\ pos a <= pos b)) p vs -> valid p ->
    tchk [] 0 still f = Some r -> tone sep = Some l -> row (fun v => is_implicit_separator v = true) l vs.
  Proof.
    intros C V X O. eapply chain_row; [| |exact C|exact V].
    - intros a b v Va D. split; [apply (der_mono _ WF _ _ _ _ _ D Va)|eapply der_inside; eauto].
    - intros v a b Va [(d & D)|(E & Vb & _)]; [|auto]. split; [apply (der_mono _ WF _ _ _ _ _ D Va)|]. right.
      pose proof (proj1 (single_all toks) _ _ _ _ _ D) as Sg. rewrite O in Sg. exact Sg.
  Qed.

  (** * Nodes *)

  Section Exp.
    Variables (se : senv) (i : nat) (mv : moves) (tm : nat -> nat) (pt : nat -> point) (e : env) (i0 : nat) (le : lenv) (ev : events).
    Hypothesis T : TL i mv tm pt.
    Hypothesis EO : envok i tm pt se e.
    Hypothesis EL : elanded e.
    Hypothesis LE : lenvok i0 i pt le e.
    Hypothesis EV : evok i0 i pt ev.
    Notation bev := (beval toks (pt i) e).

    Lemma block_incl l b : incl (flat_map extents (fst (block_split l b))) (flat_map extents l) /\ incl (extents (snd (block_split l b))) (flat_map extents l).
    Proof.
      destruct (block_cases l b) as [E|(en & l' & v & L & E)]; rewrite E; cbn [fst snd extents].
      - split; [apply incl_refl|intros x []].
      - rewrite L, flat_map_app. split; [apply incl_appl, incl_refl|]. cbn [flat_map extents]. rewrite app_nil_r. apply incl_appr, incl_refl.
    Qed.

    Lemma src_ok b : forall x v w, src b = Some x -> bev b = BOk v -> assoc x e = Some w -> incl (extents v) (extents w).
    Proof.
      induction b as [y|y|y z| | | |b IH|b IH|b IH|b IH|b d IH IHd|k fs IH|en vn b IH|a b IHa IHb|b IH|b IH
                   |f b IH|b IH|b IH|b IH|b IH|s t IHs IHu|s t IHs IHu|s t IHs IHu|b IH] using bexp_ind'; intros x v w S B A; try discriminate.
      all: cbn [src] in S; cbn [beval] in B.
      - injection S as ->. rewrite A in B. injection B as <-. apply incl_refl.
      - destruct (bev b) as [u|] eqn:U; cbn [bbind] in B; [|discriminate]. injection B as <-. exact (IH _ _ _ S eq_refl A).
      - destruct (bev b) as [u|] eqn:U; cbn [bbind] in B; [|discriminate]. injection B as <-. cbn [extents flat_map]. rewrite app_nil_r. exact (IH _ _ _ S eq_refl A).
      - destruct (bev b) as [u|] eqn:U; cbn [bbind] in B; [|discriminate]. specialize (IH _ _ _ S eq_refl A).
        destruct u; try discriminate; injection B as <-; cbn [extents flat_map] in *; rewrite ?app_nil_r; auto.
      - destruct (bev b) as [u|] eqn:U; cbn [bbind] in B; [|discriminate]. specialize (IH _ _ _ S eq_refl A).
        destruct u; try discriminate; injection B as <-; auto.
      - destruct (bev b) as [u|] eqn:U; cbn [bbind] in B; [|discriminate]. injection B as <-. exact (IH _ _ _ S eq_refl A).
      - destruct (bev b) as [u|] eqn:U; cbn [bbind] in B; [|discriminate]. specialize (IH _ _ _ S eq_refl A).
        destruct u; try discriminate. injection B as <-. cbn [extents] in IH. eapply incl_tran; [apply incl_appl, incl_refl|exact IH].
      - destruct (bev b) as [u|] eqn:U; cbn [bbind] in B; [|discriminate]. specialize (IH _ _ _ S eq_refl A).
        destruct u; try discriminate. injection B as <-. cbn [extents] in IH. eapply incl_tran; [apply incl_appr, incl_refl|exact IH].
      - destruct (bev b) as [u|] eqn:U; cbn [bbind] in B; [|discriminate]. specialize (IH _ _ _ S eq_refl A).
        destruct (get_field f u) as [z|] eqn:G; [|discriminate]. injection B as <-. eapply incl_tran; [eapply get_field_incl; eauto|exact IH].
      - destruct (bev b) as [u|] eqn:U; cbn [bbind] in B; [|discriminate]. specialize (IH _ _ _ S eq_refl A).
        destruct u as [| | | | | | |u| | | |]; try discriminate; [injection B as <-; intros z []|]. destruct u; try discriminate. injection B as <-.
        cbn [extents] in *. eapply incl_tran; [apply incl_appl, incl_refl|exact IH].
      - destruct (bev b) as [u|] eqn:U; cbn [bbind] in B; [|discriminate]. specialize (IH _ _ _ S eq_refl A).
        destruct u as [| | | | | | |u| | | |]; try discriminate; [injection B as <-; intros z []|]. destruct u; try discriminate. injection B as <-.
        cbn [extents] in *. eapply incl_tran; [apply incl_appr, incl_refl|exact IH].
      - destruct (bev s) as [u|] eqn:U; cbn [bbind] in B; [|discriminate]. specialize (IHs _ _ _ S eq_refl A).
        destruct (bev t) as [u'|] eqn:U'; cbn [bbind] in B; [|discriminate]. destruct u; try discriminate. destruct u'; try discriminate. injection B as <-.
        eapply incl_tran; [apply block_incl|exact IHs].
      - destruct (bev s) as [u|] eqn:U; cbn [bbind] in B; [|discriminate]. specialize (IHs _ _ _ S eq_refl A).
        destruct (bev t) as [u'|] eqn:U'; cbn [bbind] in B; [|discriminate]. destruct u; try discriminate. destruct u'; try discriminate. injection B as <-.
        eapply incl_tran; [apply block_incl|exact IHs].
    Qed.

    Lemma src_la_ok b j a v : src_la le b = Some (j, a) -> bev b = BOk v ->
      i0 <= j < i /\ exists w, incl (extents v) (extents w) /\ Lv a (pt j) (pt (j + 1)) w.
    Proof.
      unfold src_la. destruct (src b) as [x|] eqn:S; [|discriminate]. cbn [obind]. intros A B. destruct (LE _ _ _ A) as (J & w & V & L).
      split; [auto|]. exists w. split; [eapply src_ok; eauto|auto].
    Qed.

    Lemma row_small P l x : row P l [] /\ row P l [x].
    Proof.
      split; intros a b N; exfalso.
      - destruct N as (j & X & _). destruct j; discriminate.
      - destruct N as (j & X & Y). destruct j as [|j]; [discriminate|destruct j; discriminate].
    Qed.

    Lemma bsv_ok b : forall v, bev b = BOk v -> savok (bsv le b) v.
    Proof.
      induction b as [y|y|y z| | | |b IH|b IH|b IH|b IH|b d IH IHd|k fs IH|en vn b IH|a b IHa IHb|b IH|b IH
                   |f b IH|b IH|b IH|b IH|b IH|s t IHs IHu|s t IHs IHu|s t IHs IHu|b IH] using bexp_ind'; intros v B; cbn [bsv]; try exact I; cbn [beval] in B.
      - destruct (assoc y le) as [[j a]|] eqn:A; [|exact I]. destruct (LE _ _ _ A) as (_ & w & V & L). rewrite V in B. injection B as <-.
        apply (lv_sep _ _ _ _ L).
      - injection B as <-. exists []. split; [auto|apply (row_small _ _ VUnit)].
      - injection B as <-. reflexivity.
      - destruct (bev b) as [u|] eqn:U; cbn [bbind] in B; [|discriminate]. injection B as <-. right. eauto.
      - destruct (bev b) as [u|] eqn:U; cbn [bbind] in B; [|discriminate]. injection B as <-. exists [u]. split; [auto|apply row_small].
      - destruct (bev b) as [u|] eqn:U; cbn [bbind] in B; [|discriminate]. specialize (IH _ eq_refl).
        destruct (bsv le b) as [| |l|l|s|[| |l|l|s|s]]; try exact I; cbn [savok] in IH.
        + subst u. injection B as <-. exists []. split; [auto|apply (row_small _ _ VUnit)].
        + destruct IH as [->|(w & -> & l' & -> & R)]; injection B as <-; [exists []; split; [auto|apply (row_small _ _ VUnit)]|]. exists l'. auto.
      - destruct (bev a) as [u|] eqn:U; cbn [bbind] in B; [|discriminate]. destruct (bev b) as [u'|] eqn:U'; cbn [bbind] in B; [|discriminate].
        injection B as <-. exists u, u'. split; [auto|]. auto.
      - destruct (bev b) as [u|] eqn:U; cbn [bbind] in B; [|discriminate]. specialize (IH _ eq_refl). destruct (bsv le b); try exact I.
        destruct IH as (x & y & -> & S). injection B as <-. exact S.
      - destruct (bev b) as [u|] eqn:U; cbn [bbind] in B; [|discriminate]. specialize (IH _ eq_refl).
        destruct (bsv le b) as [| |l|l|s|[| |l|l|s|s]]; try exact I; cbn [savok] in IH.
        + subst u. injection B as <-. reflexivity.
        + destruct IH as [->|(w & -> & x & y & -> & S)]; injection B as <-; [now left|right]. exists x. auto.
    Qed.

    (** The fields of a node and what the builder computes for them. *)
    Definition sepk (k : string) : bool :=
      existsb (fun '(k', _, _) => String.eqb k k') separators || existsb (fun '(k', _, _, _) => String.eqb k k') loose_separators.

    Section Fields.
      Variables (k : string) (fs : list (string * bexp)) (vs : list val).
      Hypothesis FV : forall f v, get_field f (VNode k vs) = Some v ->
        exists b v', assoc f fs = Some b /\ bev b = BOk v' /\ extents v' = extents v /\ (sepk k = true -> v' = v).
      Notation node := (VNode k vs).

      Lemma time_pt j : j <= i -> tm (2 * j) = sb (pt j).
      Proof. apply (tl_time _ _ _ _ _ T). Qed.

      Lemma side_eq f b : assoc f fs = Some b -> side f node <> [] -> exists v, bev b = BOk v /\ extents v = side f node.
      Proof.
        unfold side. destruct (get_field f node) as [v|] eqn:G; [|congruence]. intros A _. destruct (FV _ _ G) as (b' & v' & A' & B & E & _).
        rewrite A in A'. injection A' as <-. eauto.
      Qed.

      Lemma ext_steps j kk x : extent_steps se i fs = Some (j, kk) -> get_field "extent" node = Some (VExt x) ->
        j <= kk /\ kk <= i /\ ex toks (pt j) (pt kk) = BOk x.
      Proof.
        intros X G. destruct (FV _ _ G) as (b & v' & A & B & E & _). unfold extent_steps in X. rewrite A in X.
        destruct b as [y|y|y z| | | | | | | | | | | | | | | | | | | | | |]; try discriminate.
        - destruct (point_of se y) as [j'|] eqn:P; [|discriminate]. injection X as -> <-. destruct (point_ok _ _ _ _ _ _ EO _ _ P) as [L V].
          cbn [beval] in B. rewrite V in B. cbn [as_point bbind] in B. destruct (ex toks _ _) as [x'|]; [|discriminate]. injection B as <-.
          cbn [extents] in E. injection E as ->. auto.
        - destruct (point_of se y) as [j'|] eqn:P; [|discriminate]. destruct (point_of se z) as [k'|] eqn:Q; [|discriminate]. cbn [obind] in X.
          destruct (j' <=? k') eqn:L; [|discriminate]. injection X as -> ->. apply Nat.leb_le in L.
          destruct (point_ok _ _ _ _ _ _ EO _ _ P) as [L1 V1]. destruct (point_ok _ _ _ _ _ _ EO _ _ Q) as [L2 V2].
          cbn [beval] in B. rewrite V1, V2 in B. cbn [as_point bbind] in B. destruct (ex toks _ _) as [x'|]; [|discriminate]. injection B as <-.
          cbn [extents] in E. injection E as ->. auto.
      Qed.

      (** Behind the left part. *)
      Lemma left_ok l hi : left_time se i mv fs l = Some hi -> present l node ->
        forall j y, hi <= 2 * j -> j <= i -> sb (pt j) <= fst y -> behind l node y.
      Proof.
        unfold left_time, behind. intros X P j y H J Y. destruct (String.eqb l "") eqn:El.
        - destruct (extent_steps se i fs) as [[j' kk]|] eqn:S; [|discriminate]. injection X as <-. intros x G.
          destruct (ext_steps _ _ _ S G) as (L1 & L2 & Ex).
          destruct (ex_end _ WF _ _ _ (tl_valid _ _ _ _ _ T j' ltac:(lia)) (tl_valid _ _ _ _ _ T kk L2) (tl_pos _ _ _ _ _ T j' kk L1 L2) Ex) as (F & _).
          pose proof (tl_mono _ _ _ _ _ T (2 * j') (2 * j) H ltac:(lia)) as M. rewrite !time_pt in M by lia. lia.
        - destruct P as [->|P]; [discriminate|]. destruct (assoc l fs) as [b|] eqn:A; [|discriminate]. cbn [obind] in X.
          destruct (bat se i mv b) as [a|] eqn:B; [|discriminate]. injection X as <-. destruct (side_eq _ _ A P) as (v & Bv & Ev).
          destruct (bat_ok _ WF _ _ _ _ T _ _ EO _ _ _ B Bv) as [(W1 & W2 & _) Aa]. pose proof (x_in _ _ _ _ _ (v_ex _ _ _ _ _ Aa)) as In_.
          rewrite <- Ev. pose proof (tl_mono _ _ _ _ _ T _ (2 * j) H ltac:(lia)) as M. rewrite time_pt in M by lia.
          eapply Forall_impl; [|exact In_]. unfold inside. intros z Z. lia.
      Qed.

      (** In front of the right part. *)
      Lemma right_ok r lo : right_time se i mv fs r = Some lo -> present r node ->
        lo <= 2 * i /\
        forall j p' q' m y, 2 * j + 2 <= lo -> valid p' -> tk m p' q' -> pos q' <= pos (pt (j + 1)) -> (r = "" -> whole_matcher m = true) ->
          snd y = teb q' -> in_front r node y.
      Proof.
        unfold right_time, in_front. intros X P. destruct (String.eqb r "") eqn:Er.
        - apply String.eqb_eq in Er. destruct (extent_steps se i fs) as [[j' kk]|] eqn:S; [|discriminate]. injection X as <-.
          assert (kk <= i) as Lk.
          { unfold extent_steps in S. destruct (assoc "extent" fs) as [b|]; [|discriminate]. destruct b as [y|y|y z| | | | | | | | | | | | | | | | | | | | | |]; try discriminate.
            - destruct (point_of se y); [|discriminate]. injection S as _ <-. lia.
            - destruct (point_of se y); [|discriminate]. destruct (point_of se z) as [k'|] eqn:Q; [|discriminate]. cbn [obind] in S.
              destruct (_ <=? _); [|discriminate]. injection S as _ <-. apply (point_ok _ _ _ _ _ _ EO _ _ Q). }
          split; [lia|]. intros j p' q' m y H V K Lq Wm Y x G. destruct (ext_steps _ _ _ S G) as (L1 & L2 & Ex).
          pose proof (tl_valid _ _ _ _ _ T kk L2) as Vk. destruct (tk_mono _ WF _ _ _ V K) as [Vq _].
          pose proof (tl_pos _ _ _ _ _ T (j + 1) kk ltac:(lia) L2) as Lp.
          destruct (ex_end _ WF _ _ _ (tl_valid _ _ _ _ _ T j' ltac:(lia)) Vk (tl_pos _ _ _ _ _ T j' kk L1 L2) Ex) as (F & _ & [[O En]|[O [En _]]]); rewrite En, Y.
          + pose proof (tk_whole _ WF _ _ _ V K (Wm Er)) as Sq. pose proof (eb_mono _ WF _ _ Vq Vk ltac:(lia)) as Me.
            unfold SpansOk.teb. unfold SpansOk.eb in Me. rewrite Sq in Me |- *. cbn [sub_rank] in Me. unfold SpansOk.eb. lia.
          + pose proof (teb_sb _ WF _ Vq). pose proof (sb_mono _ WF _ _ Vq Vk ltac:(lia)). lia.
        - destruct P as [->|P]; [discriminate|]. destruct (assoc r fs) as [b|] eqn:A; [|discriminate]. cbn [obind] in X.
          destruct (bat se i mv b) as [a|] eqn:B; [|discriminate]. injection X as <-. destruct (side_eq _ _ A P) as (v & Bv & Ev).
          destruct (bat_ok _ WF _ _ _ _ T _ _ EO _ _ _ B Bv) as [(W1 & W2 & _) Aa]. pose proof (x_in _ _ _ _ _ (v_ex _ _ _ _ _ Aa)) as In_.
          split; [lia|]. intros j p' q' m y H V K Lq Wm Y. rewrite <- Ev. destruct (tk_mono _ WF _ _ _ V K) as [Vq _].
          pose proof (tl_mono _ _ _ _ _ T (2 * (j + 1)) (a_lo a) ltac:(lia) ltac:(lia)) as M. rewrite time_pt in M by lia.
          pose proof (teb_sb _ WF _ Vq). pose proof (sb_mono _ WF _ _ Vq (tl_valid _ _ _ _ _ T (j + 1) ltac:(lia)) Lq).
          eapply Forall_impl; [|exact In_]. unfold inside. intros z Z. lia.
      Qed.

      Lemma no_extents_ok l : no_extents se i mv fs l = true -> present l node -> False.
      Proof.
        unfold no_extents. intros H P. apply andb_true_iff in H as [H1 H2]. apply negb_true_iff in H1. destruct P as [->|P]; [discriminate|].
        destruct (assoc l fs) as [b|] eqn:A; [|discriminate]. cbn [obind] in H2. destruct (bat se i mv b) as [a|] eqn:B; [|discriminate].
        destruct (side_eq _ _ A P) as (v & Bv & Ev). destruct (bat_ok _ WF _ _ _ _ T _ _ EO _ _ _ B Bv) as [_ Aa].
        apply P. rewrite <- Ev. exact (x_emp _ _ _ _ _ (v_ex _ _ _ _ _ Aa) H2).
      Qed.

      Lemma land_ok_ok l ms r : land_ok se i mv le ev fs l ms r = true -> present l node -> present r node ->
        exists y, one_of W ms y /\ behind l node y /\ in_front r node y.
      Proof.
        unfold land_ok. intros H P1 P2. apply orb_true_iff in H as [H|H].
        { apply orb_true_iff in H as [H|H]; exfalso; eapply no_extents_ok; eauto. }
        apply andb_true_iff in H as [Wh H]. apply some_in_ok in H as (a & Ia & Ina).
        assert (Wm : forall m, In m a -> r = "" -> whole_matcher m = true).
        { intros m Im ->. cbn [String.eqb implb] in Wh. rewrite forallb_forall in Wh. auto. }
        unfold tokens_between in Ia. destruct (left_time se i mv fs l) as [hi|] eqn:HL; [|destruct Ia].
        destruct (right_time se i mv fs r) as [lo|] eqn:HR; [|destruct Ia].
        destruct (right_ok _ _ HR P2) as [Llo RO]. pose proof (left_ok _ _ HL P1) as LO.
        apply in_app_iff in Ia as [Ia|Ia]; [|apply in_app_iff in Ia as [Ia|Ia]].
        - apply in_flat_map in Ia as ([j l'] & Ie & Ia). destruct ((hi <=? 2 * j) && (2 * j + 2 <=? lo)) eqn:C; [|destruct Ia].
          apply andb_true_iff in C as [C1 C2]. apply Nat.leb_le in C1, C2. destruct (EV _ _ Ie) as [J M].
          destruct (M _ Ia) as (p' & q' & Vp & (m & Im & K) & L1 & L2). destruct (tk_written _ WF _ _ _ Vp K) as (y & Wy & Y1 & Y2).
          exists y. split; [exists m; auto|]. split.
          + apply (LO j); auto; [lia|]. rewrite Y1. apply sb_mono; auto. apply (tl_valid _ _ _ _ _ T). lia.
          + apply (RO j p' q' m); auto.
        - destruct (assoc r fs) as [b|] eqn:A; [|destruct Ia]. cbn [obind] in Ia. destruct (src_la le b) as [[j a']|] eqn:S; [|destruct Ia].
          destruct (negb (String.eqb r "") && (hi <=? 2 * j)) eqn:C; [|destruct Ia]. apply andb_true_iff in C as [C1 C2]. apply Nat.leb_le in C2.
          apply negb_true_iff in C1. pose proof P2 as P2'. destruct P2' as [->|P2']; [discriminate|]. destruct (side_eq _ _ A P2') as (v & Bv & Ev).
          destruct (src_la_ok _ _ _ _ S Bv) as (J & w & Iw & Lw). rewrite <- Ev in P2'.
          destruct (lv_lead _ _ _ _ Lw (nonempty_incl _ _ Iw P2') _ Ia) as (p' & q' & (Vp & (m & Im & K) & L1 & L2) & Fw).
          destruct (tk_written _ WF _ _ _ Vp K) as (y & Wy & Y1 & Y2). destruct (tk_mono _ WF _ _ _ Vp K) as [Vq _].
          exists y. split; [exists m; auto|]. split.
          + apply (LO j); auto; [lia|]. rewrite Y1. apply sb_mono; auto. apply (tl_valid _ _ _ _ _ T). lia.
          + unfold in_front. rewrite C1, <- Ev. eapply Forall_incl; [exact Iw|]. eapply Forall_impl; [|exact Fw]. cbn beta. intros z Z.
            pose proof (teb_sb _ WF _ Vq). lia.
        - destruct (assoc l fs) as [b|] eqn:A; [|destruct Ia]. cbn [obind] in Ia. destruct (src_la le b) as [[j a']|] eqn:S; [|destruct Ia].
          destruct (negb (String.eqb l "") && (2 * j + 2 <=? lo)) eqn:C; [|destruct Ia]. apply andb_true_iff in C as [C1 C2]. apply Nat.leb_le in C2.
          apply negb_true_iff in C1. pose proof P1 as P1'. destruct P1' as [->|P1']; [discriminate|]. destruct (side_eq _ _ A P1') as (v & Bv & Ev).
          destruct (src_la_ok _ _ _ _ S Bv) as (J & w & Iw & Lw). rewrite <- Ev in P1'.
          destruct (lv_trail _ _ _ _ Lw (nonempty_incl _ _ Iw P1') _ Ia) as (p' & q' & (Vp & (m & Im & K) & L1 & L2) & Fw).
          destruct (tk_written _ WF _ _ _ Vp K) as (y & Wy & Y1 & Y2).
          exists y. split; [exists m; auto|]. split.
          + unfold behind. rewrite C1, <- Ev. eapply Forall_incl; [exact Iw|]. eapply Forall_impl; [|exact Fw]. cbn beta. intros z Z. lia.
          + apply (RO j p' q' m); auto.
      Qed.

      Lemma sep_ok_ok f ms l a b : sepk k = true -> sep_ok le (assoc f fs) ms = true -> get_field f node = Some (VList l) -> neighbours l a b -> parted ms a b.
      Proof.
        intros K S G N. destruct (FV _ _ G) as (b' & v' & A & B & _ & E). rewrite (E K) in B. rewrite A in S. cbn [sep_ok] in S.
        pose proof (bsv_ok _ _ B) as O. destruct (bsv le b') as [| |l'| | |]; try discriminate. destruct O as (l2 & [= <-] & R).
        apply incl_b_in in S. destruct (R _ _ N) as [[]|P]. eapply parted_incl; eauto.
      Qed.

      Lemma loose_ok_ok f g ms l a b : sepk k = true -> loose_ok le fs f g ms = true -> get_field f node = Some (VList l) ->
        neighbours (l ++ match get_field g node with Some (VSome w) => [w] | _ => [] end) a b -> ends_itself a \/ parted ms a b.
      Proof.
        intros K S G N. destruct (FV _ _ G) as (b1 & v1 & A1 & B1 & _ & E1). rewrite (E1 K) in B1. clear E1. unfold loose_ok in S. rewrite A1 in S.
        assert ((exists s t, b1 = BStmts (BVar s) (BVar t) /\ assoc g fs = Some (BTrailing (BVar s) (BVar t)) /\
                   match bsv le (BVar s) with SSelf l => incl_b l ms | _ => false end = true) \/
                (assoc g fs = None /\ match bsv le b1 with SSelf l => incl_b l ms | _ => false end = true)) as [(s & t & -> & A2 & C)|[A2 C]].
        { destruct (assoc g fs) as [b2|].
          - left. destruct b1 as [| | | | | | | | | | | | | | | | | | | | |s t| | |]; try discriminate. destruct s as [s| | | | | | | | | | | | | | | | | | | | | | | |]; try discriminate.
            destruct t as [t| | | | | | | | | | | | | | | | | | | | | | | |]; try discriminate.
            destruct b2 as [| | | | | | | | | | | | | | | | | | | | | |s2 t2| |]; try discriminate. destruct s2 as [s2| | | | | | | | | | | | | | | | | | | | | | | |]; try discriminate.
            destruct t2 as [t2| | | | | | | | | | | | | | | | | | | | | | | |]; try discriminate.
            apply andb_true_iff in S as [S S3]. apply andb_true_iff in S as [S1 S2]. apply String.eqb_eq in S1, S2. subst. eauto 8.
          - right. split; [auto|].
            assert (String.eqb g "" && match bsv le b1 with SSelf l => incl_b l ms | _ => false end = true) as H.
            { destruct b1; try exact S. destruct b1_1; try exact S. destruct b1_2; exact S. }
            apply andb_true_iff in H as [_ H]. exact H. }
        - cbn [beval] in B1. destruct (assoc s e) as [vs'|] eqn:As; cbn [bbind] in B1; [|discriminate]. destruct (assoc t e) as [vt|] eqn:At; cbn [bbind] in B1; [|discriminate].
          pose proof (bsv_ok (BVar s) vs' ltac:(cbn [beval]; now rewrite As)) as O.
          destruct (bsv le (BVar s)) as [| | |l'| |]; try discriminate. destruct O as (L & -> & R). destruct vt as [|tb| | | | | | | | | |]; try discriminate.
          injection B1 as Bl. apply incl_b_in in C.
          assert (exists a' b', neighbours L a' b' /\ a' = a /\ extents b' = extents b) as (a' & b' & N' & -> & Eb).
          { destruct (get_field g node) as [v2|] eqn:G2.
            - destruct (FV _ _ G2) as (b2 & v2' & A2' & B2 & _ & E2). rewrite (E2 K) in B2. rewrite A2 in A2'. injection A2' as <-.
              cbn [beval] in B2. rewrite As, At in B2. cbn [bbind] in B2. injection B2 as Bt.
              destruct (block_cases L tb) as [E|(en & l0 & w & EL0 & E)]; rewrite E in Bl, Bt; cbn [fst snd] in Bl, Bt; subst v2.
              + rewrite app_nil_r in N. subst l. exists a, b. auto.
              + subst l0. destruct N as (n & X & Y). subst L. exists a.
                assert (n < length l) as Ln.
                { assert (nth_error (l ++ [w]) (n + 1) <> None) as Ne by congruence. apply nth_error_Some in Ne. rewrite app_length in Ne. cbn [length] in Ne. lia. }
                rewrite nth_error_app1 in X by lia. destruct (Nat.eq_dec (n + 1) (length l)) as [El|El].
                * exists (VVar en "Expression" w). split; [|split; [auto|]].
                  -- exists n. split; [rewrite nth_error_app1 by lia; auto|]. rewrite nth_error_app2 by lia. rewrite El, Nat.sub_diag. reflexivity.
                  -- rewrite nth_error_app2 in Y by lia. rewrite El, Nat.sub_diag in Y. cbn [nth_error] in Y. injection Y as <-. reflexivity.
                * exists b. split; [|auto]. exists n. rewrite nth_error_app1 in Y by lia. split; rewrite nth_error_app1 by lia; auto.
            - rewrite app_nil_r in N. exists a, b. split; [|auto]. destruct (block_cases L tb) as [E|(en & l0 & w & EL0 & E)]; rewrite E in Bl; cbn [fst] in Bl; subst; auto.
              destruct N as (n & X & Y). exists n. assert (nth_error l (n + 1) <> None) as Ne by congruence. apply nth_error_Some in Ne.
              rewrite !nth_error_app1 by lia. auto. }
          destruct (R _ _ N') as [I'|P]; [left; now apply implicit_ends|right]. apply (parted_incl _ _ _ _ C) in P.
          destruct P as (y & O & Y1 & Y2). exists y. rewrite <- Eb. auto.
        - assert (get_field g node = None) as G2.
          { destruct (get_field g node) as [v2|] eqn:G2; [|auto]. destruct (FV _ _ G2) as (b2 & _ & A2' & _). congruence. }
          rewrite G2, app_nil_r in N. pose proof (bsv_ok _ _ B1) as O. destruct (bsv le b1) as [| | |l'| |]; try discriminate.
          destruct O as (L & [= <-] & R). apply incl_b_in in C. destruct (R _ _ N) as [I'|P]; [left; now apply implicit_ends|right]. eapply parted_incl; eauto.
      Qed.

      Lemma node_land_ok : node_land se i mv le ev k fs = true -> node_lands W k vs.
      Proof.
        unfold node_land. intros H. apply andb_true_iff in H as [H H3]. apply andb_true_iff in H as [H1 H2]. rewrite forallb_forall in H1, H2, H3.
        split; [|split].
        - intros l ms r In_ P1 P2. specialize (H1 _ In_). cbn beta iota in H1. rewrite String.eqb_refl in H1. eapply land_ok_ok; eauto.
        - intros f ms l a b In_ G N. specialize (H2 _ In_). cbn beta iota in H2. rewrite String.eqb_refl in H2. eapply sep_ok_ok; eauto.
          unfold sepk. apply orb_true_iff. left. apply existsb_exists. eexists. split; [exact In_|]. cbn beta iota. apply String.eqb_refl.
        - intros f g ms l a b In_ G N. specialize (H3 _ In_). cbn beta iota in H3. rewrite String.eqb_refl in H3. eapply loose_ok_ok; eauto.
          unfold sepk. apply orb_true_iff. right. apply existsb_exists. eexists. split; [exact In_|]. cbn beta iota. apply String.eqb_refl.
      Qed.
    End Fields.

    Lemma fields_fv k fs vs : names_chk k (map fst fs) = true ->
      Forall2 (fun b v => exists v', bev (snd b) = BOk v' /\ extents v' = extents v /\ (sepk k = true -> v' = v)) fs vs ->
      forall f v, get_field f (VNode k vs) = Some v ->
        exists b v', assoc f fs = Some b /\ bev b = BOk v' /\ extents v' = extents v /\ (sepk k = true -> v' = v).
    Proof.
      intros N F f v G. unfold names_chk in N. unfold get_field in G. destruct (struct_fields k) as [fields|] eqn:S; [|discriminate].
      apply names_eqb_eq in N. destruct (field_index f fields) as [j|] eqn:J; [|discriminate].
      destruct (fields_assoc (fun b v => exists v', bev b = BOk v' /\ extents v' = extents v /\ (sepk k = true -> v' = v)) _ _ _ _ _ _ N F J G) as (b & A & v' & H). eauto 8.
    Qed.

    Definition lfree (k : string) : bool := negb (sepk k) && forallb (fun '(k', _, _, _) => negb (String.eqb k k')) landmarks.
    Lemma free_lands k fs : lfree k = true -> node_lands W k fs.
    Proof.
      unfold lfree. intros H. apply andb_true_iff in H as [H1 H2]. apply negb_true_iff in H1. rewrite forallb_forall in H2.
      unfold sepk in H1. apply orb_false_iff in H1 as [H1 H3]. split; [|split].
      - intros l ms r J. specialize (H2 _ J). cbn beta iota in H2. rewrite String.eqb_refl in H2. discriminate.
      - intros f ms l a b J. exfalso. assert (existsb (fun '(k', _, _) => String.eqb k k') separators = true) as X; [|congruence].
        apply existsb_exists. eexists. split; [exact J|]. cbn beta iota. apply String.eqb_refl.
      - intros f g ms l a b J. exfalso. assert (existsb (fun '(k', _, _, _) => String.eqb k k') loose_separators = true) as X; [|congruence].
        apply existsb_exists. eexists. split; [exact J|]. cbn beta iota. apply String.eqb_refl.
    Qed.

    Lemma number_landed n : landed (convert_number n).
    Proof.
      unfold convert_number. apply landed_node. split; [|apply free_lands; reflexivity].
      repeat apply Forall_cons; try apply Forall_nil; try exact I. cbn [landed]. apply landed_node. split.
      - repeat apply Forall_cons; try apply Forall_nil; try exact I; destruct n as [rd' x y f ee ss u]; cbn [n_fractional n_exponent n_type_suffix];
          [destruct f|destruct ee|destruct ss]; exact I.
      - apply free_lands. destruct (n_radix n); reflexivity.
    Qed.

    Lemma block_landed l b : Forall landed l -> Forall landed (fst (block_split l b)) /\ landed (snd (block_split l b)).
    Proof.
      intros F. destruct (block_cases l b) as [E|(en & l' & v & L & E)]; rewrite E; cbn [fst snd]; [split; [auto|exact I]|].
      subst l. apply Forall_app in F as [F1 F2]. inversion F2; subst. split; [auto|]. assumption.
    Qed.

    Lemma blchk_ok b : blchk se i mv le ev b = true -> forall v, bev b = BOk v -> landed v.
    Proof.
      induction b as [y|y|y z| | | |b IH|b IH|b IH|b IH|b d IH IHd|k fs IH|en vn b IH|a b IHa IHb|b IH|b IH
                   |f b IH|b IH|b IH|b IH|b IH|s t IHs IHu|s t IHs IHu|s t IHs IHu|b IH] using bexp_ind'; intros C v B; cbn [blchk] in C; cbn [beval] in B.
      - destruct (assoc y e) as [w|] eqn:A; [|discriminate]. injection B as <-. eapply assoc_landed; eauto.
      - destruct (as_point (assoc y e)); cbn [bbind] in B; [|discriminate]. destruct (ex toks _ _); cbn [bbind] in B; [|discriminate]. injection B as <-. exact I.
      - destruct (as_point (assoc y e)); cbn [bbind] in B; [|discriminate]. destruct (as_point (assoc z e)); cbn [bbind] in B; [|discriminate].
        destruct (ex toks _ _); cbn [bbind] in B; [|discriminate]. injection B as <-. exact I.
      - injection B as <-. exact I.
      - injection B as <-. exact I.
      - injection B as <-. exact I.
      - destruct (bev b) as [w|] eqn:U; cbn [bbind] in B; [|discriminate]. injection B as <-. exact (IH C _ eq_refl).
      - destruct (bev b) as [w|] eqn:U; cbn [bbind] in B; [|discriminate]. injection B as <-. split; [exact (IH C _ eq_refl)|exact I].
      - destruct (bev b) as [w|] eqn:U; cbn [bbind] in B; [|discriminate]. specialize (IH C _ eq_refl).
        destruct w; try discriminate; injection B as <-; [exact I|split; [exact IH|exact I]|exact IH].
      - destruct (bev b) as [w|] eqn:U; cbn [bbind] in B; [|discriminate]. specialize (IH C _ eq_refl).
        destruct w; try discriminate; injection B as <-; [exact I|exact IH].
      - apply andb_true_iff in C as [C1 C2].
        destruct (bev b) as [w|] eqn:U; cbn [bbind] in B; [|discriminate]. specialize (IH C1 _ eq_refl).
        destruct w; try discriminate; [exact (IHd C2 _ B)|]. injection B as <-. exact IH.
      - apply andb_true_iff in C as [C C3]. apply andb_true_iff in C as [C1 C2].
        match type of B with bbind ?r _ = _ => destruct r as [vs|] eqn:G; cbn [bbind] in B; [|discriminate] end. injection B as <-.
        apply fields_eval in G. apply landed_node. split.
        + clear C1 C2. induction G as [|f v fs vs G1 G2 IHg]; [constructor|]. apply Forall_cons_iff in IH as [IH1 IH2]. destruct f as [fn fb].
          apply andb_true_iff in C3 as [C3 C3']. constructor; auto.
        + eapply node_land_ok; [|exact C2]. apply fields_fv; [auto|]. clear -G. induction G; constructor; eauto.
      - destruct (bev b) as [w|] eqn:U; cbn [bbind] in B; [|discriminate]. injection B as <-. exact (IH C _ eq_refl).
      - apply andb_true_iff in C as [C1 C2].
        destruct (bev a) as [w|] eqn:U; cbn [bbind] in B; [|discriminate].
        destruct (bev b) as [w'|] eqn:U'; cbn [bbind] in B; [|discriminate]. injection B as <-. split; auto.
      - destruct (bev b) as [w|] eqn:U; cbn [bbind] in B; [|discriminate]. specialize (IH C _ eq_refl).
        destruct w; try discriminate. injection B as <-. apply IH.
      - destruct (bev b) as [w|] eqn:U; cbn [bbind] in B; [|discriminate]. specialize (IH C _ eq_refl).
        destruct w; try discriminate. injection B as <-. apply IH.
      - destruct (bev b) as [w|] eqn:U; cbn [bbind] in B; [|discriminate]. specialize (IH C _ eq_refl).
        destruct (get_field f w) as [u|] eqn:U'; [|discriminate]. injection B as <-. eapply landed_field; eauto.
      - destruct (bev b) as [w|] eqn:U; cbn [bbind] in B; [|discriminate].
        destruct (extent_of w); [|discriminate]. injection B as <-. exact I.
      - destruct (bev b) as [w|] eqn:U; cbn [bbind] in B; [|discriminate].
        destruct w; try discriminate; injection B as <-; exact I.
      - destruct (bev b) as [w|] eqn:U; cbn [bbind] in B; [|discriminate]. specialize (IH C _ eq_refl).
        destruct w as [| | | | | | |w| | | |]; try discriminate; [injection B as <-; exact I|]. destruct w; try discriminate. injection B as <-. apply IH.
      - destruct (bev b) as [w|] eqn:U; cbn [bbind] in B; [|discriminate]. specialize (IH C _ eq_refl).
        destruct w as [| | | | | | |w| | | |]; try discriminate; [injection B as <-; exact I|]. destruct w; try discriminate. injection B as <-. apply IH.
      - apply andb_true_iff in C as [C1 C2].
        destruct (bev s) as [w|] eqn:U; cbn [bbind] in B; [|discriminate].
        destruct (bev t) as [w'|] eqn:U'; cbn [bbind] in B; [|discriminate].
        destruct w as [| | | | | | | |l| | |]; try discriminate. destruct w'; try discriminate. injection B as <-.
        apply landed_list. apply block_landed. apply landed_list. auto.
      - apply andb_true_iff in C as [C1 C2].
        destruct (bev s) as [w|] eqn:U; cbn [bbind] in B; [|discriminate].
        destruct (bev t) as [w'|] eqn:U'; cbn [bbind] in B; [|discriminate].
        destruct w as [| | | | | | | |l| | |]; try discriminate. destruct w'; try discriminate. injection B as <-.
        apply block_landed. apply landed_list. auto.
      - apply andb_true_iff in C as [C C4]. apply andb_true_iff in C as [C C3]. apply andb_true_iff in C as [C1 C2].
        destruct (bev s) as [w|] eqn:U; cbn [bbind] in B; [|discriminate].
        destruct (bev t) as [w'|] eqn:U'; cbn [bbind] in B; [|discriminate]. specialize (IHu C2 _ eq_refl).
        destruct w as [x| | | | | | | | | | |]; try discriminate. destruct w' as [| | | | | | | | |w1 w2| |]; try discriminate.
        destruct w1 as [| | | | | | | |l| | |]; try discriminate. destruct w2 as [| | | | | | | | |w3 w4| |]; try discriminate. destruct w3 as [| |nn| | | | | | | | |]; try discriminate.
        injection B as <-. destruct IHu as [IHl _].
        assert (bev (BFst t) = BOk (VList l)) as Bt by (cbn [beval]; rewrite U'; reflexivity).
        assert (landed (VVar "Expression" "Tuple" (VNode "Tuple" [VExt x; VList l; VList []]))) as Tu.
        { cbn [landed]. apply landed_node. split; [repeat apply Forall_cons; auto; try exact I|]. eapply node_land_ok; [|exact C4].
          apply fields_fv; [reflexivity|]. repeat apply Forall2_cons; try apply Forall2_nil; cbn [snd];
            first [eexists; split; [exact U|auto]|eexists; split; [exact Bt|auto]|exists (VList []); auto]. }
        unfold paren_or_tuple. destruct l as [|v [|w l]]; try exact Tu. destruct nn; [|exact Tu]. cbn [landed]. apply landed_node.
        split; [repeat apply Forall_cons; auto; try exact I; apply IHl|]. eapply node_land_ok; [|exact C3].
        apply fields_fv; [reflexivity|]. repeat apply Forall2_cons; try apply Forall2_nil; cbn [snd];
          try first [eexists; split; [exact U|auto; fail]|exists (VList []); split; [reflexivity|auto; fail]].
        eexists. split; [exact Bt|]. split; [cbn [extents flat_map]; apply app_nil_r|discriminate].
      - destruct (bev b) as [w|] eqn:U; cbn [bbind] in B; [|discriminate].
        destruct w; try discriminate. injection B as <-. apply number_landed.
    Qed.

    Lemma seq_lv b a v : bat se i mv b = Some a -> bev b = BOk v -> i0 <= i ->
      Lv (let own := match src_la le b with Some (_, l) => (lead l, trail l) | None => ([], []) end in
          mkLa (dedup (read_before (a_lo a) ev ++ fst own)) (dedup (read_after (a_hi a) ev ++ snd own)) (bsv le b)) (pt i0) (pt i) v.
    Proof.
      intros A B I0. cbv zeta. destruct (bat_ok _ WF _ _ _ _ T _ _ EO _ _ _ A B) as [(W1 & W2 & _) Aa].
      pose proof (x_in _ _ _ _ _ (v_ex _ _ _ _ _ Aa)) as In_.
      assert (Own : forall j l, src_la le b = Some (j, l) -> extents v <> [] ->
                (forall ms, In ms (lead l) -> leads ms (pt i0) (pt i) v) /\ (forall ms, In ms (trail l) -> trails ms (pt i0) (pt i) v)).
      { intros j l S NE. destruct (src_la_ok _ _ _ _ S B) as (J & w & Iw & Lw).
        pose proof (tl_pos _ _ _ _ _ T i0 j ltac:(lia) ltac:(lia)). pose proof (tl_pos _ _ _ _ _ T (j + 1) i ltac:(lia) ltac:(lia)).
        pose proof (nonempty_incl _ _ Iw NE) as NE'. split; intros ms M.
        - eapply leads_sub; [| |exact Iw|exact (lv_lead _ _ _ _ Lw NE' _ M)]; auto.
        - eapply trails_sub; [| |exact Iw|exact (lv_trail _ _ _ _ Lw NE' _ M)]; auto. }
      constructor; cbn [lead trail lsep].
      - intros NE ms M. apply dedup_in in M. apply in_app_iff in M as [M|M].
        + unfold read_before in M. apply in_flat_map in M as ([j l] & Ie & M). destruct (2 * j + 2 <=? a_lo a) eqn:C; [|destruct M]. apply Nat.leb_le in C.
          destruct (EV _ _ Ie) as [J Mu]. destruct (Mu _ M) as (p' & q' & R). exists p', q'.
          pose proof (tl_pos _ _ _ _ _ T i0 j ltac:(lia) ltac:(lia)). pose proof (tl_pos _ _ _ _ _ T (j + 1) i ltac:(lia) ltac:(lia)).
          split; [eapply rd_wide; [| |exact R]; auto|]. destruct R as (Vp & (m & _ & K) & L1 & L2). destruct (tk_mono _ WF _ _ _ Vp K) as [Vq _].
          pose proof (sb_mono _ WF _ _ Vq (tl_valid _ _ _ _ _ T (j + 1) ltac:(lia)) L2).
          pose proof (tl_mono _ _ _ _ _ T (2 * (j + 1)) (a_lo a) ltac:(lia) ltac:(lia)) as Mo. rewrite time_pt in Mo by lia.
          eapply Forall_impl; [|exact In_]. unfold inside. intros z Z. lia.
        + destruct (src_la le b) as [[j l]|] eqn:S; [|destruct M]. exact (proj1 (Own _ _ eq_refl NE) _ M).
      - intros NE ms M. apply dedup_in in M. apply in_app_iff in M as [M|M].
        + unfold read_after in M. apply in_flat_map in M as ([j l] & Ie & M). destruct (a_hi a <=? 2 * j) eqn:C; [|destruct M]. apply Nat.leb_le in C.
          destruct (EV _ _ Ie) as [J Mu]. destruct (Mu _ M) as (p' & q' & R). exists p', q'.
          pose proof (tl_pos _ _ _ _ _ T i0 j ltac:(lia) ltac:(lia)). pose proof (tl_pos _ _ _ _ _ T (j + 1) i ltac:(lia) ltac:(lia)).
          split; [eapply rd_wide; [| |exact R]; auto|]. destruct R as (Vp & _ & L1 & L2).
          pose proof (sb_mono _ WF _ _ (tl_valid _ _ _ _ _ T j ltac:(lia)) Vp L1).
          pose proof (tl_mono _ _ _ _ _ T (a_hi a) (2 * j) ltac:(lia) ltac:(lia)) as Mo. rewrite time_pt in Mo by lia.
          eapply Forall_impl; [|exact In_]. unfold inside. intros z Z. lia.
        + destruct (src_la le b) as [[j l]|] eqn:S; [|destruct M]. exact (proj2 (Own _ _ eq_refl NE) _ M).
      - now apply bsv_ok.
    Qed.
  End Exp.

  (** * Calls *)

  Lemma call_row e p q en w : der toks (GNT N_operator_postfix) e p q (VVar en "Call" w) -> valid p ->
    exists l, w = VList l /\ row (fun _ => False) (words [KComma]) l.
  Proof.
    intros D V. apply inv_nt in D. cbn [table] in D. apply inv_alt in D as (x & J & D).
    assert (der toks (GNT N_operator_postfix_call) [] p q (VVar en "Call" w)) as D'.
    { destruct J as [<-|[<-|[<-|[<-|[<-|[<-|[]]]]]]]; try exact D; exfalso.
      1-4: apply inv_nt in D; cbn [table] in D; apply inv_seq in D as (e' & _ & B); cbn [beval] in B;
        match type of B with bbind ?r _ = _ => destruct r; cbn [bbind] in B; discriminate B end.
      apply inv_wrap in D as (w' & D & _). discriminate. }
    clear D J x. apply inv_nt in D'. cbn [table] in D'. apply inv_seq in D' as (e' & D & B). apply inv_steps in D as (b & w1 & e1 & D1 & P1 & D).
    apply inv_steps in D as (c & w2 & e2 & D2 & P2 & D). apply inv_steps in D as (q' & w3 & e3 & D3 & P3 & D). apply inv_nil in D as [-> ->].
    cbn [bind_pat] in P2, P3. injection P2 as <-. injection P3 as <-. cbn in B. injection B as <- <-.
    destruct (der_mono _ WF _ _ _ _ _ D1 V) as [Vb _].
    assert (der toks (tailed_values BNil t_comma (GNT N_expression)) e1 b c w2) as D2' by (inversion D2; subst; assumption). unfold tailed_values in D2'.
    apply inv_seq in D2' as (e4 & D4 & B4). apply inv_steps in D4 as (c' & w4 & e5 & D5 & P5 & D6). apply inv_nil in D6 as [-> ->].
    cbn [bind_pat] in P5. injection P5 as <-. cbn in B4. 
    inversion D5; subst.
    match goal with H : beval _ _ _ BNil = BOk (VList _) |- _ => cbn in H; injection H as <- end.
    match goal with H : chain _ _ _ _ |- _ => rename H into Ch end.
    unfold vtailed in B4. cbn in B4. injection B4 as <-. eexists. split; [reflexivity|].
    eapply (list_row _ _ _ _ _ _ _ Ch Vb); reflexivity.
  Qed.

  Lemma no_call e p q en w : der toks (GNT N_operator_postfix_limited) e p q (VVar en "Call" w) -> False.
  Proof.
    intros D. apply inv_nt in D. cbn [table] in D. apply inv_alt in D as (x & J & D). destruct J as [<-|[<-|[]]].
    - apply inv_nt in D; cbn [table] in D; apply inv_seq in D as (e' & _ & B); cbn [beval] in B.
      match type of B with bbind ?r _ = _ => destruct r; cbn [bbind] in B; discriminate B end.
    - apply inv_wrap in D as (w' & D & _). discriminate.
  Qed.

  Lemma call_lands x t l ws : row (fun _ => False) (words [KComma]) l -> node_lands W "Call" [VExt x; t; VList l; ws].
  Proof.
    intros R. split; [|split].
    - intros a ms r J. assert (forallb (fun '(k', _, _, _) => negb (String.eqb "Call" k')) landmarks = true) as H by (vm_compute; reflexivity).
      rewrite forallb_forall in H. specialize (H _ J). discriminate.
    - intros f ms l' a b J G N.
      assert (forallb (fun '(k', f, ms) => implb (String.eqb "Call" k') (String.eqb f "args" && incl_b (words [KComma]) ms)) separators = true) as H by (vm_compute; reflexivity).
      rewrite forallb_forall in H. specialize (H _ J). cbn beta iota in H. change (String.eqb "Call" "Call") with true in H. cbn [implb] in H.
      apply andb_true_iff in H as [H1 H2]. apply String.eqb_eq in H1. subst f. cbn in G. injection G as <-. apply incl_b_in in H2.
      destruct (R _ _ N) as [[]|P]. eapply parted_incl; eauto.
    - intros f g ms l' a b J. assert (forallb (fun '(k', _, _, _) => negb (String.eqb "Call" k')) loose_separators = true) as H by (vm_compute; reflexivity).
      rewrite forallb_forall in H. specialize (H _ J). discriminate.
  Qed.

  (** * Derivations *)

  Definition der_l (x : g) (e : env) (p q : point) (v : val) : Prop :=
    forall se i mv tm pt, TL i mv tm pt -> envok i tm pt se e -> p = pt i -> (exists r, tchk se i mv x = Some r) -> elanded e -> lchk se i mv x = true ->
      landed v /\ Lv (tla se i mv x) p q v.

  Definition ders_l (steps : list (pat * g)) (e : env) (p : point) (e' : env) (q : point) : Prop :=
    forall se i mv tm pt se' i' mv' i0 le ev, TL i mv tm pt -> envok i tm pt se e -> p = pt i -> walk tchk steps se i mv = Some (se', i', mv') ->
      elanded e -> lchk_steps lchk steps se i mv = true -> i0 <= i -> lenvok i0 i pt le e -> evok i0 i pt ev ->
      exists tm' pt', TL i' mv' tm' pt' /\ envok i' tm' pt' se' e' /\ q = pt' i' /\ i <= i' /\ (forall k, k <= i -> pt' k = pt k) /\
        elanded e' /\ lenvok i0 i' pt' (fst (lwalk tla steps se i mv le ev)) e' /\ evok i0 i' pt' (snd (lwalk tla steps se i mv le ev)).

  Definition items_l (f : g) (e : env) (p : point) (vs : list val) : Prop :=
    valid p -> (exists r, tchk [] 0 still f = Some r) -> elanded e -> lchk [] 0 still f = true -> Forall landed vs.

  Definition etree_l (c : car val) : Prop := valid (c_spt c) -> landed (c_val c).

  Lemma top_l x e p q v : der_l x e p q v -> valid p -> (exists r, tchk [] 0 still x = Some r) -> elanded e -> lchk [] 0 still x = true ->
    landed v /\ Lv (tla [] 0 still x) p q v.
  Proof. intros H V R E C. exact (H [] 0 still (fun _ => sb p) (fun _ => p) (TL_const _ _ V) (envok_nil _ _ _ _ _) eq_refl R E C). Qed.

  Lemma gnt_l n p q v : der_l (GNT n) [] p q v -> valid p -> landed v.
  Proof.
    intros H V. eapply (top_l (GNT n)); [exact H|exact V| |constructor|reflexivity].
    unfold tchk. cbn [chk]. destruct (nattr n) as [[[sf sfx] slf] po']. eauto.
  Qed.

  Lemma meets_some l r o : meets l = Some r -> In o l -> exists a, o = Some a.
  Proof.
    revert r. induction l as [|x l IH]; intros r M J; [destruct J|]. destruct l as [|y l].
    - destruct J as [->|[]]. eauto.
    - change (obind x (fun a => omap (meet a) (meets (y :: l))) = Some r) in M. destruct x as [a|]; [|discriminate]. cbn [obind] in M.
      destruct (meets (y :: l)) as [b|] eqn:B; [|discriminate]. destruct J as [<-|J]; [eauto|]. eapply IH; eauto.
  Qed.

  Lemma free_node_l k fs : lfree k = true -> Forall landed fs -> landed (VNode k fs).
  Proof. intros H F. apply landed_node. split; [auto|now apply free_lands]. Qed.

  Lemma attributed_l x attrs v : landed attrs -> landed v -> landed (VNode "Attributed<Expression>" [VExt x; attrs; v; VList []]).
  Proof. intros A V. apply free_node_l; [vm_compute; reflexivity|]. repeat apply Forall_cons; auto; exact I. Qed.

  Ltac fields := repeat apply Forall_cons; try apply Forall_nil; try exact I; auto.

  Lemma postfix_l c e op c' : landed (c_val c) -> landed op ->
    (forall en w, op = VVar en "Call" w -> exists l, w = VList l /\ row (fun _ => False) (words [KComma]) l) ->
    postfix_read toks (c_ept c) e op ->
    apply_one toks [c] (OpPostfix op) (c_ept c) e = AOk [c'] -> landed (c_val c').
  Proof.
    intros M1 M2 CR (t & w & m & b & -> & J & _) A. cbn [apply_one] in A. cbn [landed] in M2.
    cbn [In] in J. destruct J as [<-|[<-|[<-|[<-|[<-|[<-|[]]]]]]]; cbn [String.eqb Ascii.eqb Bool.eqb] in A;
      apply apply_postfix_val in A as (x & X & ->); unfold into_attributed, expr_node; apply attributed_l; try exact I; cbn [landed];
      try (apply free_node_l; [vm_compute; reflexivity|fields]; fail).
    destruct (CR _ _ eq_refl) as (l & -> & R). apply landed_node. split; [fields|now apply call_lands].
  Qed.

  Theorem lands_all :
    (forall x e p q v, der toks x e p q v -> der_l x e p q v) /\
    (forall steps e p e' q, ders toks steps e p e' q -> ders_l steps e p e' q) /\
    (forall so f e p q vs, items toks so f e p q vs -> items_l f e p vs) /\
    (forall so e p q, between toks so e p q -> True) /\
    (forall c, etree toks c -> etree_l c).
  Proof.
    apply (der_all toks der_l ders_l (fun so f e p q vs => items_l f e p vs) (fun so e p q => True) etree_l); auto.
    - (* GTok *) intros m err e p q v pm N K se i mv tm pt T E -> _ EL C. split; [|apply Lv_any].
      assert (valid (pt i)) as V by (apply (tl_valid _ _ _ _ _ T); lia).
      destruct m as [k|]; [destruct (tok_ext _ WF _ _ _ _ _ _ V N K) as (x & -> & _); exact I|destruct (tk_number _ _ _ _ _ _ V K) as (n & -> & _); exact I].
    - (* GNT *) intros n e p q v D IH se i mv tm pt T E -> _ EL C. assert (valid (pt i)) as V by (apply (tl_valid _ _ _ _ _ T); lia).
      unfold tla. cbn [ldg]. rewrite nla_table. apply top_l with (e := []); auto; [apply tchk_table|constructor|apply lchk_table].
    - (* GPoint *) intros e p se i mv tm pt T E -> (r & R). discriminate.
    - (* GSeq *) intros steps b e e' p q v D IH B se i mv tm pt T E -> (r & R) EL C. unfold tchk in R. cbn [chk] in R. fold tchk in R.
      cbn [lchk] in C. apply andb_true_iff in C as [C1 C2].
      destruct (walk tchk steps se i mv) as [[[se' i'] mv']|] eqn:Wk; cbn [obind] in R; [|discriminate].
      destruct (bat se' i' mv' b) as [a|] eqn:A; [|discriminate]. clear R.
      destruct (IH _ _ _ _ _ _ _ _ i [] [] T E eq_refl Wk EL C1 (le_n _)) as (tm' & pt' & T' & E' & -> & Li & Ag & EL' & LE & EV).
      { intros x j l X. discriminate. }
      { intros j l []. }
      unfold tla. cbn [ldg]. fold tla. rewrite Wk, A. destruct (lwalk tla steps se i mv [] []) as [le ev] eqn:Lw. cbn [fst snd] in *.
      split; [eapply blchk_ok; eauto|]. rewrite <- (Ag i (le_n _)). eapply (seq_lv se' i' mv' tm' pt' e' i le ev T' E' LE EV b a v A B Li).
    - (* GAlt *) intros gs x e p q v J D IH se i mv tm pt T E -> (r & R) EL C. cbn [lchk] in C. rewrite forallb_forall in C.
      unfold tchk in R. cbn [chk] in R. fold tchk in R.
      assert (exists rx, tchk se i mv x = Some rx) as Rx by (eapply meets_some; [exact R|]; apply in_map_iff; eauto).
      destruct (IH _ _ _ _ _ T E eq_refl Rx EL (C _ J)) as [L A]. split; [auto|]. unfold tla. cbn [ldg]. fold tla. destruct gs as [|y gs]; [destruct J|].
      clear -J A. destruct J as [->|J].
      + induction gs as [|z gs IH]; cbn [fold_right]; [auto|]. now apply (proj2 (la_or_ok _ _ _ _ _)).
      + induction gs as [|z gs IH]; [destruct J|]. cbn [fold_right]. destruct J as [->|J]; [now apply (proj1 (la_or_ok _ _ _ _ _))|].
        apply (proj2 (la_or_ok _ _ _ _ _)). auto.
    - (* GOpt *) intros x e p q v D IH se i mv tm pt T E -> (r & R) EL C. unfold tchk in R. cbn [chk] in R. fold tchk in R.
      destruct (tchk se i mv x) as [rx|] eqn:X; [|discriminate]. destruct (IH _ _ _ _ _ T E eq_refl (ex_intro _ _ X) EL C) as [L A]. split; [auto|].
      unfold tla. cbn [ldg]. fold tla. eapply Lv_sub; [|exact A|]; [cbn [extents]; apply incl_refl|]. right. exists v. split; [auto|]. apply (lv_sep _ _ _ _ A).
    - intros x e p se i mv tm pt T E -> (r & R) EL C. split; [exact I|]. unfold tla. cbn [ldg]. fold tla.
      constructor; cbn [lead trail lsep extents]; try congruence. now left.
    - (* GMany *) intros x e p q l D IH se i mv tm pt T E -> (r & R) EL C. assert (valid (pt i)) as V by (apply (tl_valid _ _ _ _ _ T); lia).
      unfold tchk in R. cbn [chk] in R. fold tchk in R. destruct (tchk [] 0 still x) as [rx|] eqn:X; [|discriminate].
      split; [|apply Lv_any]. apply landed_list. apply (IH V); eauto.
    - (* GTailed *) intros app sep f e p q l vs n b B D IH Ch se i mv tm pt T E -> (r & R) EL C. assert (valid (pt i)) as V by (apply (tl_valid _ _ _ _ _ T); lia).
      unfold tchk in R. cbn [chk] in R. fold tchk in R. destruct (tchk [] 0 still f) as [rx|] eqn:X; [|discriminate].
      cbn [lchk] in C. apply andb_true_iff in C as [C1 C2].
      assert (landed (VList l)) as Ll.
      { eapply (blchk_ok se i mv tm pt e i [] []); eauto; [intros x j a Hx; discriminate|intros j a []]. }
      split.
      + unfold vtailed. split; [|split; exact I]. apply landed_list. apply Forall_app. split; [now apply landed_list|]. apply (IH V); eauto.
      + unfold tla. cbn [ldg]. destruct (is_nil app) eqn:Nil; [|apply Lv_any]. destruct (tone sep) as [ms|] eqn:O; [|apply Lv_any].
        destruct app; try discriminate. cbn in B. injection B as <-. apply Lv_sep. unfold vtailed. cbn [app savok]. do 2 eexists. split; [reflexivity|].
        exists vs. split; [auto|]. eapply list_row; eauto.
    - (* GTailed1 *) intros sep f e p q vs n b D IH NE Ch se i mv tm pt T E -> (r & R) EL C. assert (valid (pt i)) as V by (apply (tl_valid _ _ _ _ _ T); lia).
      unfold tchk in R. cbn [chk] in R. fold tchk in R. destruct (tchk [] 0 still f) as [rx|] eqn:X; [|discriminate]. split.
      + unfold vtailed. split; [|split; exact I]. apply landed_list. apply (IH V); eauto.
      + unfold tla. cbn [ldg]. destruct (tone sep) as [ms|] eqn:O; [|apply Lv_any]. apply Lv_sep. unfold vtailed. do 2 eexists. split; [reflexivity|].
        exists vs. split; [auto|]. eapply list_row; eauto.
    - (* GResume *) intros sep f e p p1 q vs Bt _ D IH Ch se i mv tm pt T E -> (r & R) EL C. assert (valid (pt i)) as V by (apply (tl_valid _ _ _ _ _ T); lia).
      unfold tchk in R. cbn [chk] in R. fold tchk in R. destruct (tchk [] 0 still f) as [rx|] eqn:X; [|discriminate].
      destruct (between_mono _ WF _ _ _ _ Bt V) as [V1 L1]. split.
      + apply landed_list. apply (IH V1); eauto.
      + unfold tla. cbn [ldg]. destruct (tone sep) as [ms|] eqn:O; [|apply Lv_any]. apply Lv_sep. exists vs. split; [auto|]. eapply list_row; eauto.
    - intros sep f e p se i mv tm pt T E -> _ EL C. split; [exact I|]. unfold tla. cbn [ldg]. destruct (tone sep) as [ms|]; [|apply Lv_any].
      apply Lv_sep. exists []. split; [auto|]. apply (row_small _ _ VUnit).
    - (* GImplicit *) intros sep f e p q vs n b D IH Ch se i mv tm pt T E -> (r & R) EL C. assert (valid (pt i)) as V by (apply (tl_valid _ _ _ _ _ T); lia).
      unfold tchk in R. cbn [chk] in R. fold tchk in R. destruct (tchk [] 0 still f) as [rx|] eqn:X; [|discriminate]. split.
      + unfold vtailed. split; [|split; exact I]. apply landed_list. apply (IH V); eauto.
      + unfold tla. cbn [ldg]. destruct (tone sep) as [ms|] eqn:O; [|apply Lv_any]. apply Lv_sep. unfold vtailed. do 2 eexists. split; [reflexivity|].
        exists vs. split; [auto|]. eapply implicit_row; eauto.
    - (* GNested *) intros o c e p q v pm S R se i mv tm pt T E -> _ EL C. assert (valid (pt i)) as V by (apply (tl_valid _ _ _ _ _ T); lia).
      split; [|apply Lv_any]. destruct (nested_ok _ WF o c pm (pt i) V S) as (q' & x & R' & _). rewrite R' in R. injection R as <- <-. exact I.
    - (* GExt *) intros x e p q v r D IH X se i mv tm pt T E -> _ EL C. split; [exact I|apply Lv_any].
    - (* GPeek *) intros x e p q v D IH se i mv tm pt T E -> _ EL C. split; [exact I|apply Lv_any].
    - (* GSimple *) intros x err e p q n r D IH S se i mv tm pt T E -> _ EL C. split; [exact I|apply Lv_any].
    - (* GIfAmb *) intros a b e p q v D IH se i mv tm pt T E -> (r & R) EL C. cbn [lchk] in C. apply andb_true_iff in C as [C1 C2].
      unfold tchk in R. cbn [chk] in R. fold tchk in R. destruct (tchk se i mv a) as [ra|] eqn:Xa; cbn [obind] in R; [|discriminate].
      destruct (IH _ _ _ _ _ T E eq_refl (ex_intro _ _ Xa) EL C1) as [L A]. split; [auto|]. unfold tla. cbn [ldg]. now apply (proj1 (la_or_ok _ _ _ _ _)).
    - intros a b e p q v D IH se i mv tm pt T E -> (r & R) EL C. cbn [lchk] in C. apply andb_true_iff in C as [C1 C2].
      unfold tchk in R. cbn [chk] in R. fold tchk in R. destruct (tchk se i mv a) as [ra|] eqn:Xa; cbn [obind] in R; [|discriminate].
      destruct (tchk se i mv b) as [rb|] eqn:Xb; [|discriminate].
      destruct (IH _ _ _ _ _ T E eq_refl (ex_intro _ _ Xb) EL C2) as [L A]. split; [auto|]. unfold tla. cbn [ldg]. now apply (proj2 (la_or_ok _ _ _ _ _)).
    - (* GShunt *) intros stmt e c D IH se i mv tm pt T E P _ EL C. split; [|apply Lv_any]. apply IH. rewrite P. apply (tl_valid _ _ _ _ _ T). lia.
    - (* no more steps *) intros e p se i mv tm pt se' i' mv' i0 le ev T E -> Wk EL C I0 LE EV. injection Wk as <- <- <-. exists tm, pt. cbn [lwalk fst snd]. auto 10.
    - (* a step *) intros pp x steps e p q v e1 e' r D IH B DS IHs se i mv tm pt se' i' mv' i0 le ev T E -> Wk EL C I0 LE EV.
      cbn [lchk_steps] in C. apply andb_true_iff in C as [C1 C2]. cbn [lwalk].
      assert (valid (pt i)) as Vi by (apply (tl_valid _ _ _ _ _ T); lia). destruct (der_mono _ WF _ _ _ _ _ D Vi) as [Vq L].
      pose proof (sb_mono _ WF _ _ Vi Vq L) as LS. pose proof (walk_cons _ _ _ _ _ _ _ Wk) as W1.
      assert (exists m, sb (pt i) <= m /\ m <= sb q /\ envok (i + 1) (tmx i tm m (sb q)) (ptx i pt q) (step_env pp x se i mv) e1 /\
                landed v /\ Lv (tla se i mv x) (pt i) q v) as (m & M1 & M2 & E1 & Lv1 & Av1).
      { unfold step_env. cbn [walk] in Wk |- *.
        assert ((exists y, pp = PVar y /\ x = GPoint) \/
                exists rx, tchk se i mv x = Some rx /\ match pp, x with PVar y, GPoint => Some ((y, EP i) :: se) | _, _ => omap (fun r => bind_at pp (step_at i r) se) (tchk se i mv x) end = Some (bind_at pp (step_at i rx) se)) as [(y & -> & ->)|(rx & X & W')].
        { destruct pp as [y|]; [destruct x; try (left; eauto; fail)|];
            right; match type of Wk with context [tchk se i mv ?z] => destruct (tchk se i mv z) as [rx|]; cbn [omap] in Wk |- *; [eauto|discriminate] end. }
        - apply inv_point in D as [-> ->]. cbn [bind_pat] in B. injection B as <-. exists (sb (pt i)).
          split; [lia|]. split; [lia|]. split; [|split; [exact I|apply Lv_any]]. intros z t Z. cbn [assoc] in *. destruct (String.eqb z y).
          + injection Z as <-. eexists. split; [reflexivity|]. cbn [entry_ok]. split; [lia|]. now rewrite ptx_old by lia.
          + revert z t Z. change (envok (i + 1) (tmx i tm (sb (pt i)) (sb (pt i))) (ptx i pt (pt i)) se e).
            eapply envok_agree; [| | |exact E]; [intros; now apply tmx_old|intros; now apply ptx_old|lia].
        - rewrite W'. pose proof (proj1 (spans_all toks WF NUM) _ _ _ _ _ D _ _ _ _ _ _ T E eq_refl X) as R.
          destruct (Rv_step _ WF _ _ _ _ _ _ _ _ _ T D R) as (m & M1 & M2 & Wa & Aa). exists m.
          split; [auto|]. split; [auto|]. split.
          + eapply bind_ok; [exact Wa|exact Aa|exact B|].
            eapply envok_agree; [| | |exact E]; [intros; now apply tmx_old|intros; now apply ptx_old|lia].
          + apply (IH _ _ _ _ _ T E eq_refl (ex_intro _ _ X) EL C1). }
      pose proof (TL_step _ WF _ _ _ _ _ _ _ _ _ T D M1 M2) as T1.
      assert (lenvok i0 (i + 1) (ptx i pt q) (lbind pp i (tla se i mv x) le) e1) as LE1.
      { eapply lbind_ok; [exact I0| |exact B|].
        - rewrite ptx_old, ptx_new by lia. exact Av1.
        - eapply lenvok_agree; [| |exact LE]; [intros; now apply ptx_old|lia]. }
      assert (evok i0 (i + 1) (ptx i pt q) ((i, tmust x) :: ev)) as EV1.
      { intros j l [[= <- <-]|J].
        - split; [lia|]. rewrite ptx_old, ptx_new by lia. apply (proj1 must_all _ _ _ _ _ D Vi).
        - revert j l J. change (evok i0 (i + 1) (ptx i pt q) ev). eapply evok_agree; [| |exact EV]; [intros; now apply ptx_old|lia]. }
      destruct (IHs _ _ _ _ _ _ _ _ i0 _ _ T1 E1 ltac:(symmetry; apply ptx_new; lia) W1 (bind_landed _ _ _ _ Lv1 EL B) C2 ltac:(lia) LE1 EV1)
        as (tm' & pt' & T' & E' & Q & Li & Tp & EL' & LE' & EV').
      exists tm', pt'. split; [auto|]. split; [auto|]. split; [auto|]. split; [lia|]. split; [|auto].
      intros k K. rewrite Tp by lia. now apply ptx_old.
    - (* no more items *) intros so f e p q Vq L _ _ V R EL C. constructor.
    - (* an item *) intros so f e p p1 p2 q v vs D IH Bt _ DI IHi V R EL C. destruct (der_mono _ WF _ _ _ _ _ D V) as [V1 L1].
      destruct (between_mono _ WF _ _ _ _ Bt V1) as [V2 L2]. constructor; [eapply top_l; eauto|]. apply (IHi V2); auto.
    - (* an atom *) intros p q en v D IH L V. cbn [c_spt c_val] in *. exact (gnt_l _ _ _ _ IH V).
    - (* a prefix operator *) intros en op s c c' res D IH L T IHt A E1 E2 V. rewrite E1 in V.
      destruct (der_mono _ WF _ _ _ _ _ D V) as [V1 L1]. pose proof (IHt V1) as Mc. pose proof (gnt_l _ _ _ _ IH V) as Mo. cbn [landed] in Mo.
      apply inv_prefix in D as (m & x & l & w & -> & X & _).
      apply landed_node in Mo as [Mo _]. inversion Mo as [|? ? _ Mo1]; subst. inversion Mo1 as [|? ? Ml Mo2]; subst. inversion Mo2 as [|? ? Mq _]; subst.
      destruct w as [| | | | | | | | | | |en' k w]; cbn [apply_one] in A; try discriminate. cbn [landed] in Mq.
      repeat match type of A with (if ?b then _ else _) = _ => destruct b end; unfold apply_maybe_prefix in A;
        apply apply_prefix_val in A as (y & Y & ->); apply attributed_l; auto; unfold expr_node; cbn [landed];
        (apply free_node_l; [vm_compute; reflexivity|fields]).
    - intros en op s e c' D IH L A E1 E2 V. rewrite E1 in V. pose proof (gnt_l _ _ _ _ IH V) as Mo. cbn [landed] in Mo.
      apply inv_prefix in D as (m & x & l & w & -> & X & _).
      apply landed_node in Mo as [Mo _]. inversion Mo as [|? ? _ Mo1]; subst. inversion Mo1 as [|? ? Ml Mo2]; subst. inversion Mo2 as [|? ? Mq _]; subst.
      destruct w as [| | | | | | | | | | |en' k w]; cbn [apply_one] in A; try discriminate. cbn [landed] in Mq.
      repeat match type of A with (if ?b then _ else _) = _ => destruct b; [try discriminate|] end; try discriminate;
        unfold apply_maybe_prefix in A; rewrite X in A; cbn [a_of_b abind] in A; injection A as <-; cbn [c_val]; apply attributed_l; auto;
        unfold expr_node; cbn [landed]; (apply free_node_l; [vm_compute; reflexivity|fields]).
    - (* an infix operator *) intros en op l r c' Tl IHl Tr IHr D IH L A E1 E2 V. rewrite E1 in V.
      pose proof (IHl V) as Ml. destruct (etree_mono _ WF _ Tl V) as [V1 L1]. destruct (der_mono _ WF _ _ _ _ _ D V1) as [V2 L2]. pose proof (IHr V2) as Mr.
      pose proof (gnt_l _ _ _ _ IH V1) as Mo. cbn [landed] in Mo. destruct op as [| | | | | | | | | | |en' k w]; cbn [apply_one] in A; try discriminate. cbn [landed] in Mo.
      repeat match type of A with (if ?b then _ else _) = _ => destruct b end; unfold apply_maybe_infix in A; cbn [length Nat.leb] in A;
        apply apply_infix_val in A as (x & X & ->); unfold into_attributed, expr_node; apply attributed_l; try exact I; cbn [landed];
        (apply free_node_l; [vm_compute; reflexivity|fields]).
    - intros en op l e c' Tl IHl D IH L A E1 E2 V. rewrite E1 in V. pose proof (IHl V) as Ml. destruct (etree_mono _ WF _ Tl V) as [V1 L1].
      pose proof (gnt_l _ _ _ _ IH V1) as Mo. cbn [landed] in Mo. destruct op as [| | | | | | | | | | |en' k w]; cbn [apply_one] in A; try discriminate. cbn [landed] in Mo.
      repeat match type of A with (if ?b then _ else _) = _ => destruct b; [try discriminate|] end; try discriminate;
        unfold apply_maybe_infix in A; cbn [length Nat.leb pop_expression abind] in A;
        (destruct (ex toks (c_spt l) e) as [y|]; cbn [a_of_b abind] in A; [|discriminate]); injection A as <-; cbn [c_val];
        unfold into_attributed, expr_node; apply attributed_l; try exact I; cbn [landed]; (apply free_node_l; [vm_compute; reflexivity|fields]).
    - (* a postfix operator *) intros en op c e c' T IHt D IH L A E1 E2 V. rewrite E1 in V. destruct (etree_mono _ WF _ T V) as [V1 L1].
      pose proof (gnt_l _ _ _ _ IH V1) as Mo. cbn [landed] in Mo. apply inv_postfix in D.
      eapply postfix_l; [apply (IHt V)|exact Mo| |eapply postfix_tk; eauto|exact A]. intros en' w ->. eapply call_row; eauto.
    - intros op c e c' T IHt D IH L A E1 E2 V. rewrite E1 in V. destruct (etree_mono _ WF _ T V) as [V1 L1].
      eapply postfix_l; [apply (IHt V)|exact (gnt_l _ _ _ _ IH V1)| |eapply postfix_limited_tk; eauto|exact A].
      intros en' w ->. exfalso. eapply no_call; eauto.
  Qed.

  Theorem der_landed n p q v : der toks (GNT n) [] p q v -> valid p -> landed v.
  Proof. intros D V. eapply gnt_l; [|exact V]. apply (proj1 lands_all). exact D. Qed.
End LandsOk.
