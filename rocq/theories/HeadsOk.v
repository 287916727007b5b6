(** The static check of Heads.v is sound: with the restriction on, parsers of the
    bare level return no bare struct literal, and no head has one. *)

From Coq Require Import String List Arith Bool Lia.
From Verif Require Import Base Peresil Token Schema Value Nt Grammar Points Table Static Typing Amb SpanSpec HeadSpec Marks MarksOk Heads.
Import ListNotations.
Local Open Scope string_scope.
Local Open Scope list_scope.
Local Open Scope nat_scope.

(** * Levels *)

Lemma only_ok b v : good b v -> conc (only b) v.
Proof. destruct b; exact (fun H => H). Qed.

Lemma conc_good l v : conc l v -> good (is_bare l) v.
Proof. destruct l; cbn [conc is_bare]; tauto. Qed.

Lemma flat_ok a : forall v, concA a v -> conc (flat a) v.
Proof.
  induction a as [l|a IHa b IHb]; intros v H; [exact H|]. destruct H as (x & y & -> & A & B). cbn [flat].
  apply only_ok. apply good_pair. apply IHa, conc_good in A. apply IHb, conc_good in B.
  split; [now apply good_and|]. rewrite andb_comm. now apply good_and.
Qed.

Lemma concA_good a v : concA a v -> good (bare a) v.
Proof. intros H. apply conc_good. now apply flat_ok. Qed.

Lemma concA_weak a v : concA a v -> good false v.
Proof. intros H. eapply good_weak. eapply concA_good. exact H. Qed.

Lemma bare_op v : good true v -> opl v.
Proof. intros [_ B] e k p ->. right. intros fs P. apply (B eq_refl fs). now constructor. Qed.

Lemma bare_wrap v : good true v -> forall e k p, v = VVar e k p -> opl p.
Proof. intros [A B] e k p ->. apply bare_op. now apply (proj1 (good_var true e k p)). Qed.

Lemma lle_ok x y v : lle x y = true -> conc x v -> conc y v.
Proof.
  pose proof (good_weak true v) as W. pose proof (bare_op v) as O. pose proof (bare_wrap v) as R.
  destruct x, y; try discriminate; intros _; cbn [conc]; tauto.
Qed.

Lemma ljoin_l x y : lle x (ljoin x y) = true.
Proof. destruct x, y; reflexivity. Qed.
Lemma ljoin_r x y : lle y (ljoin x y) = true.
Proof. destruct x, y; reflexivity. Qed.

Lemma ajoin_l a b v : concA a v -> concA (ajoin a b) v.
Proof. intros H. cbn. eapply lle_ok; [apply ljoin_l|]. now apply flat_ok. Qed.
Lemma ajoin_r a b v : concA b v -> concA (ajoin a b) v.
Proof. intros H. cbn. eapply lle_ok; [apply ljoin_r|]. now apply flat_ok. Qed.

Lemma ale_ok a : forall b v, ale a b = true -> concA a v -> concA b v.
Proof.
  induction a as [l|a1 IH1 a2 IH2]; intros [l'|b1 b2] v L H; cbn [ale] in L; try discriminate.
  - eapply lle_ok; eauto.
  - cbn [concA]. eapply lle_ok; [exact L|]. now apply flat_ok.
  - apply andb_true_iff in L. destruct L. destruct H as (x & y & -> & A & B). exists x, y. eauto.
Qed.

Definition eok (ae : aenv) (e : env) : Prop := forall x v, assoc x e = Some v -> concA (alook x ae) v.

Lemma eok_nil : eok [] [].
Proof. intros x v. discriminate. Qed.

Lemma eok_bind p : forall a ae v e e', concA a v -> eok ae e -> bind_pat p v e = Some e' -> eok (abind_pat p a ae) e'.
Proof.
  induction p as [x|p1 IH1 p2 IH2]; intros a ae v e e' A E B; cbn [bind_pat] in B.
  - injection B as <-. intros y w. unfold alook. cbn [abind_pat assoc]. destruct (String.eqb y x); [now intros [= <-]|]. apply E.
  - destruct v as [| | | | | | | | |va vb| |]; try discriminate. cbn [abind_pat].
    destruct (bind_pat p1 va e) as [e1|] eqn:B1; [|discriminate]. destruct a as [l|a1 a2].
    + cbn [concA] in A. apply conc_good, good_pair in A. destruct A as [A1 A2].
      eapply IH2; [|eapply IH1; [|exact E|exact B1]|exact B]; apply only_ok; auto.
    + destruct A as (x & y & [= -> ->] & A1 & A2). eapply IH2; [exact A2|eapply IH1; eauto|exact B].
Qed.

Section HeadsOk.
  Variable toks : list token.

  (** * Builders *)

  Lemma good_split s l b : Forall (good s) l ->
    Forall (good s) (fst (block_split l b)) /\ good s (snd (block_split l b)).
  Proof.
    intros F.
    assert (Forall (good s) (rev l)) as R by (now apply Forall_rev).
    assert (Forall (good s) (fst (l, VNone)) /\ good s (snd (l, VNone))) as D by (cbn [fst snd]; split; [auto|now apply good_leaf]).
    unfold block_split.
    destruct (rev l) as [|x before]; [exact D|].
    inversion R as [|? ? Hx R']; subst.
    destruct x as [| | | | | | | | | | |e v p]; try exact D.
    apply (proj1 (good_var _ _ _ _)) in Hx.
    repeat match goal with |- context [match ?s with _ => _ end] => destruct s; try exact D end.
    split; [now apply Forall_rev|]. now apply good_some.
  Qed.

  Ltac leaves := repeat apply conj; repeat (apply Forall_cons || apply Forall_nil); try (now apply good_leaf); try (apply good_list; constructor).

  (** A node that is no head and no struct literal. *)
  Definition neutral (k : string) : bool := negb (String.eqb k "StructLiteral") && forallb (fun x => negb (String.eqb k (fst x))) heads.

  Lemma neutral_node s k fs : neutral k = true ->
    (forall i x, nth_error fs i = Some x -> good (s && negb (shelters k i)) x) -> good s (VNode k fs).
  Proof.
    intros N F. apply andb_true_iff in N. destruct N as [N1 N2]. apply good_node; [| exact F|].
    - intros _ ->. discriminate.
    - intros f h I. rewrite forallb_forall in N2. specialize (N2 _ I). cbn in N2. now rewrite String.eqb_refl in N2.
  Qed.

  Lemma neutral_all s k fs : neutral k = true -> Forall (good s) fs -> good s (VNode k fs).
  Proof.
    intros N F. apply neutral_node; [auto|]. intros i x E. apply good_and. rewrite Forall_forall in F. apply F. eapply nth_error_In; eauto.
  Qed.

  Lemma good_vopt s o : good s (vopt o).
  Proof. destruct o; cbn [vopt]; [apply good_some|]; now apply good_leaf. Qed.

  Lemma good_number s n : good s (convert_number n).
  Proof.
    apply neutral_all; [reflexivity|]. leaves. apply good_var. apply neutral_all; [destruct (n_radix n); reflexivity|].
    leaves; apply good_vopt.
  Qed.

  Lemma good_field s f v x : plain_name f = true -> good s v -> get_field f v = Some x -> good s x.
  Proof.
    intros N G E. destruct v as [| | | | | | | | | |k fs|]; try discriminate. cbn [get_field] in E.
    destruct (struct_fields k) as [fields|] eqn:SF; [|discriminate]. destruct (field_index f fields) as [i|] eqn:FI; [|discriminate].
    pose proof (good_nth _ _ _ _ _ G E) as H. assert (shelters k i = false) as S.
    { unfold shelters, field_at. rewrite SF.
      assert (nth_error (map field_name fields) i = Some f) as ->.
      { clear -FI. revert i FI. induction fields as [|[[n t] b] fields IH]; intros i FI; [discriminate|]. cbn [field_index] in FI.
        destruct (String.eqb f n) eqn:EQ; [injection FI as <-; apply String.eqb_eq in EQ; now subst|].
        destruct (field_index f fields) as [j|]; [|discriminate]. injection FI as <-. cbn. now apply IH. }
      destruct (pair_in k f sheltered) eqn:PI; [|reflexivity]. apply pair_in_iff in PI. unfold plain_name in N.
      rewrite forallb_forall in N. specialize (N _ PI). cbn in N. now rewrite String.eqb_refl in N. }
    rewrite S, andb_true_r in H. exact H.
  Qed.

  Lemma good_any_field f v x : good false v -> get_field f v = Some x -> good false x.
  Proof.
    intros G E. destruct v as [| | | | | | | | | |k fs|]; try discriminate. cbn [get_field] in E.
    destruct (struct_fields k) as [fields|] eqn:SF; [|discriminate]. destruct (field_index f fields) as [i|] eqn:FI; [|discriminate].
    eapply (good_nth false); eauto.
  Qed.

  Lemma both_l (a b : bool) v : good a v -> good (a && b) v.
  Proof. apply good_and. Qed.
  Lemma both_r (a b : bool) v : good b v -> good (a && b) v.
  Proof. rewrite andb_comm. apply good_and. Qed.

  Lemma index_name f : forall (fields : list (string * ty * bool)) i, field_index f fields = Some i -> nth_error (map field_name fields) i = Some f.
  Proof.
    induction fields as [|[[n t] b] fields IH]; intros i FI; [discriminate|]. cbn [field_index] in FI.
    destruct (String.eqb f n) eqn:EQ; [injection FI as <-; apply String.eqb_eq in EQ; now subst|].
    destruct (field_index f fields) as [j|]; [|discriminate]. injection FI as <-. cbn. now apply IH.
  Qed.

  Lemma beval_good pt ae e b : eok ae e -> bc ae b = true -> forall v, beval toks pt e b = BOk v -> concA (bl ae b) v.
  Proof.
    intros E. induction b using bexp_ind'; intros B w H'; cbn [bc] in B; cbn [beval] in H'.
    all: repeat match goal with
         | H : _ && _ = true |- _ => apply andb_true_iff in H; destruct H
         end.
    all: repeat match type of H' with
         | context [beval ?t ?p ?e ?b] =>
             let v := fresh "v" in let E := fresh "E" in
             destruct (beval t p e b) as [v|] eqn:E; cbn [bbind] in H'; [|discriminate]
         end.
    all: repeat match goal with
         | IH : bc _ ?b = true -> _, B : bc _ ?b = true |- _ => specialize (IH B _ eq_refl)
         end.
    all: cbn [bl].
    - destruct (assoc x e) as [v|] eqn:A; [|discriminate]. injection H' as <-. now apply E.
    - destruct (as_point (assoc x e)) as [a|]; [|discriminate]. cbn [bbind] in H'.
      destruct (ex toks a pt) as [r|]; [|discriminate]. injection H' as <-. now apply good_leaf.
    - destruct (as_point (assoc x e)) as [a|]; [|discriminate]. cbn [bbind] in H'.
      destruct (as_point (assoc y e)) as [a0|]; [|discriminate]. cbn [bbind] in H'.
      destruct (ex toks a a0) as [r|]; [|discriminate]. injection H' as <-. now apply good_leaf.
    - injection H' as <-. now apply good_leaf.
    - injection H' as <-. apply (good_list true). constructor.
    - injection H' as <-. now apply good_leaf.
    - injection H' as <-. apply only_ok, good_some. now apply concA_good.
    - injection H' as <-. apply only_ok, good_list. constructor; [|constructor]. now apply concA_good.
    - apply concA_good in IHb. destruct v; try discriminate; injection H' as <-; apply only_ok.
      + apply good_list. constructor.
      + apply (proj1 (good_some _ _)) in IHb. apply good_list. constructor; [exact IHb|constructor].
      + exact IHb.
    - apply concA_good in IHb. destruct v; try discriminate; injection H' as <-; apply only_ok.
      + apply good_list. constructor.
      + now apply (proj1 (good_some _ _)) in IHb.
    - apply concA_good in IHb1. destruct v; try discriminate.
      + apply only_ok, both_r, concA_good. eapply IHb2; eauto.
      + injection H' as <-. apply only_ok, both_l. now apply (proj1 (good_some _ _)) in IHb1.
    - match type of H' with bbind ?c _ = _ => remember c as r eqn:R end.
      destruct r as [l|]; [|discriminate]. cbn [bbind] in H'. injection H' as <-. symmetry in R. apply fields_eval in R.
      unfold names_chk in H0. destruct (struct_fields k) as [fields|] eqn:SF; [|discriminate]. apply names_eqb_eq in H0.
      assert (forall i x, nth_error l i = Some x -> exists f b, nth_error fs i = Some (f, b) /\ concA (bl ae b) x /\
                (pair_in k f heads = true -> bare (bl ae b) = true)) as N.
      { clear H0. revert l R. induction H as [|[f b] fs Hb H IH]; intros l R i x Nx; inversion R as [|? u ? l' Ru R']; subst.
        - destruct i; discriminate.
        - apply andb_true_iff in H1. destruct H1 as [C1 C2]. apply andb_true_iff in C1. destruct C1 as [C1 C3].
          destruct i as [|i]; cbn [nth_error] in Nx |- *.
          + injection Nx as ->. exists f, b. split; [reflexivity|]. cbn [snd] in *. split; [now apply Hb|].
            intros P. rewrite P in C3. exact C3.
          + exact (IH C2 l' R' i x Nx). }
      assert (forall i f b, nth_error fs i = Some (f, b) -> field_at k i = Some f) as FA.
      { intros i f b Ni. unfold field_at. rewrite SF. unfold field_name. rewrite <- H0. now rewrite nth_error_map, Ni. }
      cbn [concA].
      match goal with |- conc (if ?c then _ else _) _ => assert (good c (VNode k l)) as G0;
        [|destruct c; [destruct (sheltering k) eqn:SH; [exact G0|split; [exact G0|]; now intros k' fs' [= <- _]]|exact G0]] end.
      apply good_node.
      + intros S ->. discriminate.
      + intros i x Nx. destruct (N i x Nx) as (f & b & Ni & C & _).
        match goal with |- good ((_ && ?go fs) && _) _ => assert (go fs = true -> pair_in k f sheltered || bare (bl ae b) = true) as G end.
        { clear -Ni. revert i Ni. induction fs as [|[f' b'] fs IH]; intros i Ni G; [destruct i; discriminate|].
          apply andb_true_iff in G. destruct G as [G1 G2]. destruct i as [|i]; cbn [nth_error] in Ni.
          - now injection Ni as <- <-.
          - eauto. }
        apply concA_good in C. destruct C as [C1 C2]. split; [exact C1|]. intros S.
        apply andb_true_iff in S. destruct S as [S1 S2]. apply andb_true_iff in S1. destruct S1 as [_ S1]. apply C2.
        specialize (G S1). unfold shelters in S2. rewrite (FA i f b Ni) in S2. apply negb_true_iff in S2. rewrite S2 in G. exact G.
      + intros f h I G. cbn [get_field] in G. rewrite SF in G. destruct (field_index f fields) as [i|] eqn:FI; [|discriminate].
        destruct (N i h G) as (f' & b & Ni & C & HB). apply index_name in FI.
        pose proof (FA _ _ _ Ni) as F2. unfold field_at in F2. rewrite SF, FI in F2. injection F2 as <-.
        apply concA_good in C. destruct C as [_ C]. apply C. apply HB. now apply pair_in_iff.
    - injection H' as <-. apply flat_ok in IHb. cbn [concA].
      assert (good false v0) as W by (apply conc_good in IHb; eapply good_weak; exact IHb).
      assert (closing v = true -> conc LOp (VVar e0 v v0)) as CL.
      { intros C. split; [now apply good_var|]. intros e' k' p' [= <- <- <-]. auto. }
      assert (conc LOpen (VVar e0 v v0)) as OP by (now apply good_var).
      assert (good true v0 -> conc (if String.eqb v "Prefix" then LBare else LPre) (VVar e0 v v0)) as PR.
      { intros T. destruct (String.eqb v "Prefix") eqn:EQ; [now apply good_var|]. split; [now apply good_var|].
        intros e' p' [= _ -> _]. discriminate. }
      destruct (flat (bl ae b)) eqn:FL; cbn [conc] in IHb; try (now apply PR).
      + destruct (closing v); auto.
      + split; [now apply good_var|]. destruct IHb as [A O]. now intros e' k' p' [= <- <- <-].
      + destruct (closing v); auto.
      + destruct IHb as [A PL]. split; [now apply good_var|]. now intros e' p' [= <- _ <-].
      + contradiction.
    - injection H' as <-. exists v, v0. auto.
    - destruct v as [| | | | | | | | |va vb| |]; try discriminate. injection H' as <-.
      destruct (bl ae b) as [l|a1 a2].
      + apply conc_good, good_pair in IHb. apply only_ok. tauto.
      + destruct IHb as (x & y & [= -> ->] & A1 & A2). exact A1.
    - destruct v as [| | | | | | | | |va vb| |]; try discriminate. injection H' as <-.
      destruct (bl ae b) as [l|a1 a2].
      + apply conc_good, good_pair in IHb. apply only_ok. tauto.
      + destruct IHb as (x & y & [= -> ->] & A1 & A2). exact A2.
    - destruct (get_field f v) as [x|] eqn:G; [|discriminate]. injection H' as <-. apply only_ok.
      destruct (plain_name f) eqn:PN.
      + eapply good_field; [exact PN|apply concA_good; exact IHb|exact G].
      + eapply good_any_field; [eapply concA_weak; exact IHb|exact G].
    - destruct (extent_of v) as [x|]; [|discriminate]. injection H' as <-. now apply good_leaf.
    - destruct v; try discriminate; injection H' as <-; now apply good_leaf.
    - apply concA_good in IHb. destruct v; try discriminate; [injection H' as <-; apply only_ok; now apply good_leaf|].
      destruct v; try discriminate. injection H' as <-. apply only_ok. apply (proj1 (good_some _ _)) in IHb.
      apply good_pair in IHb. apply good_some. tauto.
    - apply concA_good in IHb. destruct v; try discriminate; [injection H' as <-; apply only_ok; now apply good_leaf|].
      destruct v; try discriminate. injection H' as <-. apply only_ok. apply (proj1 (good_some _ _)) in IHb.
      apply good_pair in IHb. tauto.
    - apply concA_good in IHb1. destruct v; try discriminate. destruct v0; try discriminate. injection H' as <-. apply only_ok, both_l.
      apply good_list. apply good_split. now apply good_list.
    - apply concA_good in IHb1. destruct v; try discriminate. destruct v0; try discriminate. injection H' as <-. apply only_ok, both_l.
      apply good_split. now apply good_list.
    - destruct v; try discriminate. destruct v0 as [| | | | | | | | |va vb| |]; try discriminate.
      destruct va; try discriminate. destruct vb as [| | | | | | | | |vb1 vb2| |]; try discriminate.
      destruct vb1; try discriminate. injection H' as <-. apply concA_weak, good_pair in IHb2. destruct IHb2 as [L _].
      pose proof L as L'. apply good_list in L. unfold paren_or_tuple. cbn [concA conc].
      destruct l as [|x [|y l]]; [|destruct n|]; apply good_var; (apply neutral_node; [reflexivity|]);
        intros [|[|[|i]]] z Z; cbn in Z; try (injection Z as <-); try (destruct i; discriminate);
        first [now apply good_leaf|exact L'|apply good_list; constructor|now inversion L].
    - destruct v; try discriminate. injection H' as <-. apply (good_number true).
  Qed.

  (** * Parsers *)

  (** What a parser returns, with the restriction on if [m]. *)
  Definition pgood (m : bool) (a : ab) (f : gparser val) : Prop :=
    forall pm p pm' q v, is_ambiguous (m_state pm) = m -> f pm p = (pm', Success q v) -> concA a v.

  Lemma amb_keeps {A} (f : gparser A) m pm p pm' r : keeps f -> is_ambiguous (m_state pm) = m -> f pm p = (pm', r) -> is_ambiguous (m_state pm') = m.
  Proof. intros K <- E. now rewrite (keeps_eq _ _ _ _ _ K E). Qed.

  Lemma good_vtailed s l c b : Forall (good s) l -> good s (vtailed l c b).
  Proof. intros H. apply good_pair. split; [now apply good_list|]. apply good_pair. split; now apply good_leaf. Qed.

  Lemma loop_tailed m a s sep f : keeps sep -> keeps f -> pgood m a f -> (s = true -> bare a = true) ->
    forall k l c b, Forall (good s) l -> pgood m (L1 (only s)) (tailed_loop k sep f l c b).
  Proof.
    intros KS KF F S k. induction k as [|k IH]; intros l c b L pm p pm' q v M R; cbn [tailed_loop] in R; [discriminate|].
    destruct (f pm p) as [pm1 [r u|r er|w]] eqn:E1; [| |discriminate].
    - pose proof (amb_keeps _ _ _ _ _ _ KF M E1) as M1. apply (F _ _ _ _ _ M) in E1. apply concA_good in E1.
      assert (Forall (good s) (l ++ [u])) as L'.
      { apply Forall_app. split; [auto|]. constructor; [|constructor]. destruct E1 as [A B]. split; [auto|]. auto. }
      destruct (sep pm1 r) as [pm2 [r2 u2|r2 er2|w]] eqn:E2; [| |discriminate].
      + pose proof (amb_keeps _ _ _ _ _ _ KS M1 E2) as M2. eapply IH; [exact L'|exact M2|exact R].
      + injection R as <- <- <-. apply only_ok. now apply good_vtailed.
    - injection R as <- <- <-. apply only_ok. now apply good_vtailed.
  Qed.

  Lemma loop_tailed1 m a sep f : keeps sep -> keeps f -> pgood m a f -> forall k, pgood m (L1 (only (bare a))) (tailed1 k sep f).
  Proof.
    intros KS KF F k pm p pm' q v M R. unfold tailed1 in R.
    destruct (f pm p) as [pm1 [r u|r er|w]] eqn:E1; try discriminate.
    pose proof (amb_keeps _ _ _ _ _ _ KF M E1) as M1. apply (F _ _ _ _ _ M) in E1. apply concA_good in E1.
    destruct (sep pm1 r) as [pm2 [r2 u2|r2 er2|w]] eqn:E2; try discriminate.
    - pose proof (amb_keeps _ _ _ _ _ _ KS M1 E2) as M2.
      eapply (loop_tailed m a (bare a) sep f); [auto..| |exact M2|exact R]. auto.
    - injection R as <- <- <-. apply only_ok. apply good_vtailed. auto.
  Qed.

  Lemma loop_resume m a sep f : keeps sep -> keeps f -> pgood m a f -> forall k, pgood m (L1 (only (bare a))) (resume k sep f).
  Proof.
    intros KS KF F k pm p pm' q v M R. unfold resume in R.
    destruct (sep pm p) as [pm1 [r u|r er|w]] eqn:E1; [| |discriminate].
    - pose proof (amb_keeps _ _ _ _ _ _ KS M E1) as M1.
      destruct (tailed1 k sep f pm1 r) as [pm2 [r2 u2|r2 er2|w]] eqn:E2; [| |discriminate].
      + apply (loop_tailed1 m a sep f KS KF F k _ _ _ _ _ M1) in E2. cbn [concA] in E2. apply conc_good in E2.
        destruct u2; try discriminate. injection R as <- <- <-. apply good_pair in E2. apply only_ok.
        destruct E2 as [A _]. now destruct (bare a).
      + injection R as <- <- <-. apply only_ok. apply good_list. constructor.
    - injection R as <- <- <-. apply only_ok. apply good_list. constructor.
  Qed.

  Lemma loop_implicit m a sep f : keeps sep -> keeps f -> pgood m a f ->
    forall k l c b, Forall (good (bare a)) l -> pgood m (L1 (only (bare a))) (implicit_loop k sep f l c b).
  Proof.
    intros KS KF F k. induction k as [|k IH]; intros l c b L pm p pm' q v M R; cbn [implicit_loop] in R; [discriminate|].
    destruct (f pm p) as [pm1 [r u|r er|w]] eqn:E1; [| |discriminate].
    - pose proof (amb_keeps _ _ _ _ _ _ KF M E1) as M1. apply (F _ _ _ _ _ M) in E1. apply concA_good in E1.
      assert (Forall (good (bare a)) (l ++ [u])) as L' by (apply Forall_app; auto).
      destruct (sep pm1 r) as [pm2 [r2 u2|r2 er2|w]] eqn:E2; [| |discriminate].
      + pose proof (amb_keeps _ _ _ _ _ _ KS M1 E2) as M2. eapply IH; [exact L'|exact M2|exact R].
      + pose proof (amb_keeps _ _ _ _ _ _ KS M1 E2) as M2.
        destruct (is_implicit_separator u); [eapply IH; [exact L'|exact M2|exact R]|].
        injection R as <- <- <-. apply only_ok. now apply good_vtailed.
    - injection R as <- <- <-. apply only_ok. now apply good_vtailed.
  Qed.

  Lemma loop_many m a f : keeps f -> pgood m a f -> forall k pm p pm' q l, is_ambiguous (m_state pm) = m ->
    zero_or_more pt_lt recov k f pm p = (pm', Success q l) -> Forall (good (bare a)) l.
  Proof.
    intros KF F. induction k as [|k IH]; intros pm p pm' q l M R; cbn [zero_or_more] in R; [discriminate|].
    destruct (f pm p) as [pm1 [r u|r er|w]] eqn:E1; [| |discriminate].
    - pose proof (amb_keeps _ _ _ _ _ _ KF M E1) as M1. apply (F _ _ _ _ _ M) in E1. apply concA_good in E1.
      destruct (zero_or_more pt_lt recov k f pm1 r) as [pm2 [r2 l2|r2 e2|w]] eqn:E2; try discriminate.
      injection R as <- <- <-. constructor; [auto|]. eauto.
    - cbn [recov] in R. injection R as <- <- <-. constructor.
  Qed.

  (** ** The shunting yard *)

  Definition ogood (s : bool) (o : opk) : Prop :=
    match o with OpPrefix v => good s v /\ (s = true -> plain v) | OpInfix v | OpPostfix v => good false v /\ (s = true -> opl v) end.
  Definition rgood (s : bool) (res : list (car val)) : Prop := Forall (fun c => good s (c_val c)) res.
  Definition ygood (s : bool) (y : yard) : Prop := Forall (fun c => ogood s (c_val c)) (y_ops y) /\ rgood s (y_res y).

  Definition agood {A} (Q : A -> Prop) (r : ares A) : Prop := match r with AOk a => Q a | _ => True end.

  Lemma attr_node s e attrs v : good s attrs -> good s v -> good s (VNode "Attributed<Expression>" [VExt e; attrs; v; VList []]).
  Proof. intros A V. apply neutral_all; [reflexivity|]. repeat (apply Forall_cons || apply Forall_nil); auto; [now apply good_leaf|]. apply good_list. constructor. Qed.

  Lemma yard_prefix s res p e x attrs f : rgood s res -> good s attrs -> (forall x v, good s v -> good s (f x v)) ->
    agood (rgood s) (apply_prefix toks res p e x attrs f).
  Proof.
    intros R A F. unfold apply_prefix, pop_expression. destruct res as [|c res]; [exact I|]. cbn [abind].
    inversion R as [|? ? Rc R']; subst.
    destruct (pt_lt (c_ept c) p); [exact I|]. destruct (ex toks p (c_ept c)) as [i|]; [|exact I].
    cbn [a_of_b abind agood]. constructor; [|auto]. cbn [c_val]. apply attr_node; auto.
  Qed.

  Lemma yard_maybe_prefix s res p e x attrs f : rgood s res -> good s attrs -> (forall x v, good s v -> good s (f x v)) ->
    agood (rgood s) (apply_maybe_prefix toks res p e x attrs f).
  Proof.
    intros R A F. unfold apply_maybe_prefix. destruct res as [|c res].
    - destruct (ex toks p e) as [i|]; [|exact I]. cbn [a_of_b abind agood]. constructor; [|constructor]. cbn [c_val].
      apply attr_node; auto. apply F. now apply good_leaf.
    - apply yard_prefix; auto. intros y v V. apply F. now apply good_some.
  Qed.

  Lemma yard_infix s res p e f : rgood s res -> (forall x l r, good s l -> good s r -> good s (f x l r)) -> agood (rgood s) (apply_infix toks res p e f).
  Proof.
    intros R F. unfold apply_infix, pop_expression. destruct res as [|r [|l res]]; [exact I|exact I|]. cbn [abind].
    inversion R as [|? ? Rr R']; subst. inversion R' as [|? ? Rl R'']; subst.
    destruct (ex toks (c_spt l) (c_ept r)) as [i|]; [|exact I].
    cbn [a_of_b abind agood]. constructor; [|auto]. cbn [c_val]. apply attr_node; [apply good_list; constructor|auto].
  Qed.

  Lemma yard_maybe_infix s res p e f : rgood s res -> (forall x l r, good s l -> good s r -> good s (f x l r)) ->
    agood (rgood s) (apply_maybe_infix toks res p e f).
  Proof.
    intros R F. unfold apply_maybe_infix. destruct (length res <=? 1).
    - unfold pop_expression. destruct res as [|l res]; [exact I|]. cbn [abind]. inversion R as [|? ? Rr R']; subst.
      destruct (ex toks (c_spt l) e) as [i|]; [|exact I]. cbn [a_of_b abind agood]. constructor; [|auto].
      cbn [c_val]. apply attr_node; [apply good_list; constructor|]. apply F; [auto|]. now apply good_leaf.
    - apply yard_infix; [auto|]. intros x l r L R'. apply F; [auto|]. now apply good_some.
  Qed.

  Lemma yard_postfix s res p e f : rgood s res -> (forall x v, good s v -> good s (f x v)) -> agood (rgood s) (apply_postfix toks res p e f).
  Proof.
    intros R F. unfold apply_postfix, pop_expression. destruct res as [|c res]; [exact I|]. cbn [abind].
    inversion R as [|? ? Rc R']; subst. destruct (ex toks (c_spt c) e) as [i|]; [|exact I].
    cbn [a_of_b abind agood]. constructor; [|auto]. cbn [c_val]. apply attr_node; [apply good_list; constructor|auto].
  Qed.

  Ltac fields := intros; unfold expr_node; apply good_var; apply neutral_all; [reflexivity|]; repeat (apply Forall_cons || apply Forall_nil);
                 auto; try (now apply good_leaf); try (apply good_list; constructor); try (apply good_var; now apply good_leaf);
                 try (apply (proj2 (good_some _ _)); auto).

  Lemma yard_one s res op p e : rgood s res -> ogood s op -> agood (rgood s) (apply_one toks res op p e).
  Proof.
    intros R O. destruct op as [v|v|v]; cbn [ogood] in O; cbn [apply_one].
    - destruct v as [| | | | | | | | | |k fs|]; try exact I.
      destruct fs as [|x [|attrs [|op [|ws [|? ?]]]]]; try exact I; destruct x; try exact I; destruct op; try exact I.
      destruct O as [O1 O2].
      assert (forall i, s && negb (shelters k i) = s) as SH.
      { intros i. destruct s; [|reflexivity]. specialize (O2 eq_refl _ _ eq_refl). unfold shelters.
        destruct (field_at k i) as [f|]; [|reflexivity]. destruct (pair_in k f sheltered) eqn:PI; [|reflexivity].
        apply pair_in_iff in PI. unfold sheltering in O2. assert (existsb (fun x => String.eqb k (fst x)) sheltered = true) as C; [|congruence].
        apply existsb_exists. exists (k, f). split; [auto|]. apply String.eqb_refl. }
      pose proof (good_nth _ _ _ 1 _ O1 eq_refl) as Oa. pose proof (good_nth _ _ _ 2 _ O1 eq_refl) as Op.
      pose proof (good_nth _ _ _ 3 _ O1 eq_refl) as Ow. rewrite SH in Oa, Op, Ow. apply (proj1 (good_var _ _ _ _)) in Op. clear O1 O2 SH.
      repeat match goal with |- context [if ?b then _ else _] => destruct b end;
        first [apply yard_prefix|apply yard_maybe_prefix]; auto; fields.
    - destruct v; try exact I. destruct O as [O1 O2].
      destruct (String.eqb v "RangeInclusive") eqn:E1.
      + apply String.eqb_eq in E1. subst v. assert (good s v0) as G.
        { apply good_var in O1. destruct O1 as [O1 _]. split; [auto|]. intros S. destruct (O2 S _ _ _ eq_refl) as [C|C]; [discriminate|auto]. }
        apply yard_maybe_infix; [auto|]. fields.
      + destruct (String.eqb v "RangeExclusive"); [apply yard_maybe_infix|apply yard_infix]; auto; fields.
    - destruct v; try exact I. destruct O as [O1 O2]. apply good_var in O1.
      assert (closing v = false -> good s v0) as G.
      { intros C. destruct O1 as [O1 _]. split; [auto|]. intros S. destruct (O2 S _ _ _ eq_refl) as [C'|C']; [congruence|auto]. }
      repeat match goal with |- context [if String.eqb v ?b then _ else _] =>
        let E := fresh "E" in destruct (String.eqb v b) eqn:E; [apply String.eqb_eq in E; subst v|] end;
        apply yard_postfix; auto; try (specialize (G eq_refl)); try solve [fields].
      all: intros x w W; unfold expr_node; apply good_var; apply neutral_node; [reflexivity|];
        intros [|[|[|[|i]]]] z Z; cbn in Z; try (injection Z as <-); try (destruct i; discriminate); try (now apply good_leaf);
        try (now apply good_and); try (apply good_list; constructor).
      all: try (replace (s && negb _) with false; [exact O1|]; now rewrite andb_false_r).
  Qed.

  Lemma yard_precedence s o : forall ops res, Forall (fun c => ogood s (c_val c)) ops -> rgood s res ->
    agood (ygood s) (apply_precedence toks ops res o).
  Proof.
    induction ops as [|top ops IH]; intros res O R; cbn [apply_precedence]; [split; auto|].
    inversion O as [|? ? O1 O2]; subst. destruct (should_pop o (c_val top)); [|split; auto].
    pose proof (yard_one s res _ (c_spt top) (c_ept top) R O1) as H.
    destruct (apply_one toks res (c_val top) (c_spt top) (c_ept top)) as [res'| |]; cbn [abind agood] in *; auto.
  Qed.

  Lemma yard_all s : forall ops res, Forall (fun c => ogood s (c_val c)) ops -> rgood s res -> agood (rgood s) (apply_all toks ops res).
  Proof.
    induction ops as [|top ops IH]; intros res O R; cbn [apply_all]; [exact R|].
    inversion O as [|? ? O1 O2]; subst. pose proof (yard_one s res _ (c_spt top) (c_ept top) R O1) as H.
    destruct (apply_one toks res (c_val top) (c_spt top) (c_ept top)) as [res'| |]; cbn [abind agood] in *; auto.
  Qed.

  Lemma yard_finish s y p : ygood s y -> agood (fun c => good s (c_val c)) (finish_yard toks y p).
  Proof.
    intros [O R]. unfold finish_yard. pose proof (yard_all s _ _ O R) as H.
    destruct (apply_all toks (y_ops y) (y_res y)) as [res| |]; cbn [abind agood] in *; auto.
    destruct res as [|x [|]]; auto; [exact I| |exact I]. now inversion H.
  Qed.

  Lemma yard_add s y o p e : ygood s y -> ogood s o -> agood (ygood s) (add_op toks y o p e).
  Proof.
    intros [O R] Ho. unfold add_op. pose proof (yard_precedence s o _ _ O R) as H.
    destruct (apply_precedence toks (y_ops y) (y_res y) o) as [y1| |]; cbn [abind agood] in *; auto.
    destruct H. split; [constructor; auto|auto].
  Qed.

  Lemma amb_level m a l f : pgood (is_ambiguous l) a f -> pgood m a (with_amb l f).
  Proof.
    intros F pm p pm' q v _ R. unfold with_amb in R. destruct (f (set_amb pm l) p) as [pm1 r] eqn:E. injection R as _ ->.
    eapply F; [|exact E]. reflexivity.
  Qed.

  (** The levels of the three parsers of the yard. *)
  Definition pre_lv (s : bool) : lv := if s then LPre else LOpen.
  Definition in_lv (s : bool) : lv := if s then LWrap else LOpen.
  Definition post_lv (s : bool) : lv := if s then LOp else LOpen.

  Lemma pre_prefix s e v : conc (pre_lv s) (VVar e "Prefix" v) -> ogood s (OpPrefix v).
  Proof.
    destruct s; cbn [pre_lv conc ogood].
    - intros [G P]. split; [now apply (proj1 (good_var _ _ _ _)) in G|]. eauto.
    - intros G. split; [now apply (proj1 (good_var _ _ _ _)) in G|discriminate].
  Qed.

  Lemma pre_good s e t v : conc (pre_lv s) (VVar e t v) -> good s v.
  Proof. destruct s; cbn [pre_lv conc]; [intros [G _]|intros G]; now apply (proj1 (good_var _ _ _ _)) in G. Qed.

  Lemma in_op s e t v : conc (in_lv s) (VVar e t v) -> good false v /\ (s = true -> opl v).
  Proof.
    destruct s; cbn [in_lv conc].
    - intros [G P]. split; [now apply (proj1 (good_var _ _ _ _)) in G|]. eauto.
    - intros G. split; [now apply (proj1 (good_var _ _ _ _)) in G|discriminate].
  Qed.

  Lemma post_op s v : conc (post_lv s) v -> good false v /\ (s = true -> opl v).
  Proof. destruct s; cbn [post_lv conc]; [intros [G P]; auto|intros G; split; [auto|discriminate]]. Qed.

  Lemma yard_loop s m pa ip pl stmt : keeps pa -> keeps ip -> keeps pl ->
    pgood m (L1 (pre_lv s)) pa -> pgood m (L1 (in_lv s)) ip -> pgood m (L1 (post_lv s)) pl ->
    forall k y st, ygood s y -> pgood m (L1 (only s)) (shunt_loop toks k pa ip pl stmt y st).
  Proof.
    intros KA KI KL PA IP PL k. induction k as [|k IH]; intros y st Y pm p pm' q v M R; cbn [shunt_loop] in R; [discriminate|].
    assert (forall pm o next pt, is_ambiguous (m_state pm) = m -> ogood s o ->
        match add_op toks y o p pt with
        | AOk y' => shunt_loop toks k pa ip pl stmt y' (adapt_state stmt y' next) pm pt
        | AErr p e => (pm, Failure p e)
        | AAbort w => (pm, Abort w)
        end = (pm', Success q v) -> concA (L1 (only s)) v) as ADD.
    { intros pm0 o next pt M0 Ho H. pose proof (yard_add s y o p pt Y Ho) as A.
      destruct (add_op toks y o p pt) as [y'| |]; cbn [agood] in A; try discriminate. eapply IH; eauto. }
    assert (forall pm p0, finish_progress pm (finish_yard toks y p0) = (pm', Success q v) -> concA (L1 (only s)) v) as FIN.
    { intros pm0 p0 H. pose proof (yard_finish s y p0 Y) as A.
      destruct (finish_yard toks y p0) as [c| |]; cbn [agood finish_progress] in *; try discriminate.
      injection H as _ _ <-. now apply only_ok. }
    assert (forall f : gparser val, keeps f -> pgood m (L1 (pre_lv s)) f ->
        match f pm p with
        | (pm1, Success p0 (VVar _ "Prefix" op)) =>
            match add_op toks y (OpPrefix op) p p0 with
            | AOk y' => shunt_loop toks k pa ip pl stmt y' (adapt_state stmt y' SPrefix) pm1 p0
            | AErr p e => (pm1, Failure p e)
            | AAbort w => (pm1, Abort w)
            end
        | (pm1, Success p0 (VVar _ "Atom" v)) =>
            shunt_loop toks k pa ip pl stmt (add_expression y v p p0)
              (adapt_state stmt (add_expression y v p p0) SAtom) pm1 p0
        | (pm1, Success _ _) => (pm1, Abort IllTyped)
        | (pm1, Failure p _) => finish_progress pm1 (finish_yard toks y p)
        | (pm1, Abort w) => (pm1, Abort w)
        end = (pm', Success q v) -> concA (L1 (only s)) v) as PRE.
    { intros f Kf Ff H. destruct (f pm p) as [pm1 [r u|r er|w]] eqn:E1; [|eapply FIN; exact H|discriminate].
      pose proof (amb_keeps _ _ _ _ _ _ Kf M E1) as M1. apply (Ff _ _ _ _ _ M) in E1.
      destruct u as [| | | | | | | | | | |e vn pl']; try discriminate. cbn [concA] in E1.
      repeat match type of H with context [match ?s with _ => _ end] => is_var s; destruct s; try discriminate end.
      - eapply (IH _ _ _ _ _ _ _ _ M1 H). Unshelve. destruct Y. split; [auto|]. constructor; [|auto]. cbn [c_val]. eapply pre_good; exact E1.
      - eapply ADD; [exact M1| |exact H]. eapply pre_prefix; exact E1. }
    assert (match ip pm p with
        | (pm1, Success p0 (VVar _ "Infix" op)) =>
            match add_op toks y (OpInfix op) p p0 with
            | AOk y' => shunt_loop toks k pa ip pl stmt y' (adapt_state stmt y' (SInfix (is_range op))) pm1 p0
            | AErr p e => (pm1, Failure p e)
            | AAbort w => (pm1, Abort w)
            end
        | (pm1, Success p0 (VVar _ "Postfix" op)) =>
            match add_op toks y (OpPostfix op) p p0 with
            | AOk y' => shunt_loop toks k pa ip pl stmt y' (adapt_state stmt y' SPostfix) pm1 p0
            | AErr p e => (pm1, Failure p e)
            | AAbort w => (pm1, Abort w)
            end
        | (pm1, Success _ _) => (pm1, Abort IllTyped)
        | (pm1, Failure p _) => finish_progress pm1 (finish_yard toks y p)
        | (pm1, Abort w) => (pm1, Abort w)
        end = (pm', Success q v) -> concA (L1 (only s)) v) as INF.
    { intros H. destruct (ip pm p) as [pm1 [r u|r er|w]] eqn:E1; [|eapply FIN; exact H|discriminate].
      pose proof (amb_keeps _ _ _ _ _ _ KI M E1) as M1. apply (IP _ _ _ _ _ M) in E1.
      destruct u as [| | | | | | | | | | |e vn pl']; try discriminate. cbn [concA] in E1. apply in_op in E1.
      repeat match type of H with context [match ?s with _ => _ end] => is_var s; destruct s; try discriminate end;
        (eapply ADD; [exact M1| |exact H]; exact E1). }
    destruct st as [|b| | |].
    - apply (PRE pa KA PA R).
    - rewrite M in R. destruct (m && b) eqn:MB.
      + apply andb_true_iff in MB. destruct MB as [-> _]. apply (PRE (with_amb Maximum pa)); [| |exact R].
        * intros pm0 p0. unfold with_amb. destruct (pa (set_amb pm0 Maximum) p0). reflexivity.
        * apply amb_level. exact PA.
      + apply (PRE pa KA PA R).
    - exact (INF R).
    - exact (INF R).
    - destruct (pl pm p) as [pm1 [r u|r er|w]] eqn:E1; [|eapply FIN; exact R|discriminate].
      pose proof (amb_keeps _ _ _ _ _ _ KL M E1) as M1. apply (PL _ _ _ _ _ M) in E1. cbn [concA] in E1. apply post_op in E1.
      eapply ADD; [exact M1| |exact R]. exact E1.
  Qed.

  Lemma pgood_le m a b f : ale a b = true -> pgood m a f -> pgood m b f.
  Proof. intros L F pm p pm' q v M R. eapply ale_ok; [exact L|]. eapply F; eauto. Qed.

  Theorem run_heads n : forall m ae x e, snd (gl nl m ae x) = true -> eok ae e -> pgood m (fst (gl nl m ae x)) (run table toks n x e).
  Proof.
    induction n as [|n IH]; intros m ae x e G E pm p pm' q v M R; [destruct x; discriminate|].
    assert (forall x e, keeps (run table toks n x e)) as K by (intros; apply run_keeps).
    assert (forall nn m, pgood m (nl m nn) (run table toks n (table nn) [])) as NT.
    { intros nn m'. destruct (table_heads nn m') as [T1 T2]. eapply pgood_le; [exact T2|]. apply IH; [exact T1|exact eok_nil]. }
    destruct x as [mt err|nn| |steps b|gs|y|y|app sep f|sep f|sep f|sep f|o c'|y|y|y err|y err|l y|err y|a b|stmt];
      cbn [gl fst snd] in G |- *; cbn [run] in R;
      repeat match goal with H : _ && _ = true |- _ => apply andb_true_iff in H; destruct H end.
    - apply (good_leaf true). unfold tok in R.
      destruct (nth_error toks (off p)) as [t|]; [|discriminate].
      assert (forall t v, convert mt t = Some v -> leaf v = true) as CV.
      { intros t0 v0. destruct mt, t0; cbn [convert]; try discriminate; [|now intros [= <-]]. destruct (tkind_eqb _ _); [now intros [= <-]|discriminate]. }
      destruct (match sub p with Some n => _ | None => _ end) as [u|]; [|discriminate].
      destruct (convert mt u) eqn:C; [injection R as _ _ <-; eauto|].
      destruct (split t (sub_rank (sub p))) as [[a b]|]; [|discriminate]. destruct (convert mt a) eqn:C2; [injection R as _ _ <-; eauto|discriminate].
    - eapply NT; eauto.
    - injection R as _ _ <-. now apply (good_leaf true).
    - revert ae e E pm p M R G. induction steps as [|[pt y] steps IHs]; intros ae e E pm p M R G; cbn [run_steps] in R.
      + destruct (beval toks p e b) eqn:EB; [|discriminate]. injection R as _ _ <-. eapply beval_good; eauto.
      + cbn [fst snd] in *. apply andb_true_iff in G. destruct G as [G1 G2].
        destruct (run table toks n y e pm p) as [pm1 [r u|r er|w]] eqn:E1; try discriminate.
        pose proof (amb_keeps _ _ _ _ _ _ (K y e) M E1) as M1. apply (IH m ae y e G1 E _ _ _ _ _ M) in E1.
        destruct (bind_pat pt u e) as [e'|] eqn:BP; [|discriminate].
        eapply IHs; [|exact M1|exact R|exact G2]. eapply eok_bind; eauto.
    - assert (forall gs cur pm0 a0, is_ambiguous (m_state pm0) = m -> (forall q v, cur = Success q v -> concA a0 v) ->
        let go := (fix go (s : list g) : ab * bool :=
           match s with
           | [] => (L1 LBot, true)
           | y :: s' => let r := gl nl m ae y in let r' := go s' in (ajoin (fst r) (fst r'), snd r && snd r')
           end) in
        snd (go gs) = true -> alternate_from pt_lt recov cur (map (fun x => run table toks n x e) gs) pm0 p = (pm', Success q v) ->
        concA (ajoin a0 (fst (go gs))) v) as AL.
      { clear -IH K E. induction gs as [|y gs IHg]; intros cur pm0 a0 M C go G R; cbn [map alternate_from] in R.
        - injection R as <- ->. apply ajoin_l. eauto.
        - cbn [fst snd go] in G |- *. apply andb_true_iff in G. destruct G as [G1 G2].
          destruct cur as [q' v'|q' er|w].
          + injection R as <- <- <-. apply ajoin_l. eauto.
          + cbn [recov] in R.
            destruct (run table toks n y e pm0 p) as [pm1 r] eqn:E1.
            pose proof (amb_keeps _ _ _ _ _ _ (K y e) M E1) as M1.
            apply ajoin_r. eapply (IHg r _ (fst (gl nl m ae y))); [|  |exact G2|exact R]; [exact M1|].
            intros q0 v0 ->. eapply (IH _ _ _ _ G1 E _ _ _ _ _ M E1).
          + discriminate. }
      destruct gs as [|y gs]; [discriminate|]. cbn [map alternate] in R. cbn [fst snd] in G |- *. apply andb_true_iff in G. destruct G as [G1 G2].
      destruct (run table toks n y e pm p) as [pm1 r] eqn:E1. pose proof (amb_keeps _ _ _ _ _ _ (K y e) M E1) as M1.
      eapply AL; [exact M1| |exact G2|exact R]. intros q0 v0 ->. eapply (IH _ _ _ _ G1 E _ _ _ _ _ M E1).
    - unfold map_p, optional in R.
      destruct (run table toks n y e pm p) as [pm1 [r u|r er|w]] eqn:E1; [| |discriminate].
      + injection R as _ _ <-. apply only_ok. cbn [vopt_val]. apply good_some, concA_good. eapply IH; eauto.
      + cbn [recov] in R. injection R as _ _ <-. apply only_ok. now apply good_leaf.
    - unfold map_p in R. destruct (zero_or_more pt_lt recov n (run table toks n y e) pm p) as [pm1 [r u|r er|w]] eqn:E1; try discriminate.
      injection R as _ _ <-. apply only_ok, good_list. eapply (loop_many m _ _ (K y e)); [apply IH; auto|exact M|exact E1].
    - destruct (beval toks p e app) as [u|] eqn:B; [|discriminate]. destruct u; try discriminate.
      eapply (loop_tailed m (fst (gl nl m ae f)) _ _ _ (K sep e) (K f e)); [apply IH; auto| | |exact M|exact R].
      + intros S. apply andb_true_iff in S. tauto.
      + apply good_list. eapply beval_good in B; [|exact E|auto]. apply concA_good in B. rewrite andb_comm. now apply good_and.
    - eapply (loop_tailed1 m _ _ _ (K sep e) (K f e)); [apply IH; auto|exact M|exact R].
    - eapply (loop_resume m _ _ _ (K sep e) (K f e)); [apply IH; auto|exact M|exact R].
    - eapply (loop_implicit m _ _ _ (K sep e) (K f e)); [apply IH; auto| |exact M|exact R]. constructor.
    - unfold nested in R. destruct (ex toks p _) as [i|]; [|discriminate]. injection R as _ _ <-. now apply (good_leaf true).
    - destruct (run table toks n y e pm p) as [pm1 [r u|r er|w]]; try discriminate.
      destruct (ex toks p r) as [i|]; [|discriminate]. injection R as _ _ <-. now apply (good_leaf true).
    - unfold map_p, peek in R. destruct (run table toks n y e pm p) as [pm1 [r u|r er|w]]; try discriminate.
      injection R as _ _ <-. now apply (good_leaf true).
    - destruct (run table toks n y e pm p) as [pm1 [r u|r er|w]] eqn:E1; try discriminate. injection R as _ _ <-.
      eapply IH; eauto.
    - destruct (run table toks n y e pm p) as [pm1 [r u|r er|w]] eqn:E1; try discriminate.
      destruct u; try discriminate. destruct (into_simple n0); [|discriminate]. injection R as _ _ <-. now apply (good_leaf true).
    - eapply (amb_level m); [|exact M|exact R]. apply IH; auto.
    - destruct (is_maximum (m_state pm)); [discriminate|]. eapply IH; eauto.
    - rewrite M in R. destruct m; [eapply IH; eauto|]. cbn [fst snd] in G |- *. apply andb_true_iff in G. destruct G as [G1 G2].
      apply ajoin_r. eapply IH; eauto.
    - set (s := lle (flat (nl m N_expression_prefix_or_atom)) LPre && lle (flat (nl m N_expression_infix_or_postfix)) LWrap &&
                   lle (flat (nl m N_operator_postfix_limited)) LOp).
      destruct n as [|n]; [discriminate|].
      assert (forall nn lx, lle (flat (nl m nn)) lx = true -> pgood m (L1 lx) (run table toks (S n) (GNT nn) [])) as LV.
      { intros nn lx L. apply (pgood_le m (nl m nn)); [|apply (IH m [] (GNT nn) [] eq_refl eok_nil)].
        destruct (nl m nn); exact L. }
      assert (forall x, lle x LOpen = true) as TOP by (intros []; reflexivity).
      eapply (yard_loop s m _ _ _ stmt (K _ _) (K _ _) (K _ _)); [| | | |exact M|exact R].
      + apply LV. unfold pre_lv. destruct s eqn:S; [|apply TOP]. unfold s in S. rewrite !andb_true_iff in S. tauto.
      + apply LV. unfold in_lv. destruct s eqn:S; [|apply TOP]. unfold s in S. rewrite !andb_true_iff in S. tauto.
      + apply LV. unfold post_lv. destruct s eqn:S; [|apply TOP]. unfold s in S. rewrite !andb_true_iff in S. tauto.
      + split; constructor.
  Qed.
End HeadsOk.
