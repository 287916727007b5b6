(** Nodes that hold lists drop no token but behind the last element of a list: all
    the nodes of a value. *)

From Coq Require Import String List NArith Arith Bool Lia.
From Verif Require Import Base Peresil Token Schema Value Nt Grammar Points Table Static Typing FileToks Split SpanSpec MarkSpec LandSpec Deriv DerivMono.
From Verif Require Import Marks MarksOk Spans SpansOk SpansDer Expect Honest CoverSpec Cover CoverOk CoverTidy DropSpec Drops DropsOk DropsNeat.
Import ListNotations.
Local Open Scope string_scope.
Local Open Scope list_scope.
Local Open Scope nat_scope.

Section DropsVals.
  Variable toks : list token.
  Hypothesis WF : wf_toks toks.
  Hypothesis NUM : forall i n, nth_error toks i = Some (TkNumber n) -> num_ord n.
  Notation valid := (valid toks).
  Notation sb := (sb toks).
  Notation eup := (eup toks).
  Notation neat := (neat toks).

  Definition eneat (e : env) : Prop := Forall (fun b => neat (snd b)) e.

  Lemma neat_fold l : fold_right (fun x P => neat x /\ P) True l <-> Forall neat l.
  Proof.
    induction l as [|v l IH]; cbn [fold_right]; [split; [constructor|auto]|]. rewrite IH. split.
    - intros []. now constructor.
    - intros H. inversion H; auto.
  Qed.
  Lemma neat_list l : neat (VList l) <-> Forall neat l.
  Proof. apply neat_fold. Qed.
  Lemma neat_node k fs : neat (VNode k fs) <-> Forall neat fs /\ (is_frayed k && is_whole k = true -> frays toks k fs) /\ (is_led k = true -> leads toks k fs).
  Proof. cbn [DropSpec.neat]. now rewrite neat_fold. Qed.

  Lemma neat_field f v w : neat v -> get_field f v = Some w -> neat w.
  Proof. intros L G. apply get_field_in in G as (k & fs & -> & J). apply neat_node in L as [L _]. rewrite Forall_forall in L. auto. Qed.

  Lemma assoc_neat e x v : eneat e -> assoc x e = Some v -> neat v.
  Proof. intros E A. apply SpansOk.assoc_in in A. unfold eneat in E. rewrite Forall_forall in E. exact (E _ A). Qed.

  Lemma bind_neat pt : forall v e e1, neat v -> eneat e -> bind_pat pt v e = Some e1 -> eneat e1.
  Proof.
    induction pt as [x|p1 IH1 p2 IH2]; intros v e e1 L E B; cbn [bind_pat] in B.
    - injection B as <-. constructor; auto.
    - destruct v; try discriminate. destruct (bind_pat p1 v1 e) as [e2|] eqn:B1; [|discriminate]. destruct L as [L1 L2]. eauto.
  Qed.

  Lemma block_neat l b : Forall neat l -> Forall neat (fst (block_split l b)) /\ neat (snd (block_split l b)).
  Proof.
    intros F. destruct (block_cases l b) as [E|(en & l' & v & L & E)]; rewrite E; cbn [fst snd]; [split; [auto|exact I]|].
    subst l. apply Forall_app in F as [F1 F2]. inversion F2; subst. split; [auto|]. assumption.
  Qed.

  Lemma plain_node k fs : is_frayed k && is_whole k || is_led k = false -> Forall neat fs -> neat (VNode k fs).
  Proof. intros N F. apply orb_false_iff in N as [N1 N2]. apply neat_node. repeat split; [auto|congruence|congruence]. Qed.
  Lemma led_node k fs : is_frayed k && is_whole k = false -> leads toks k fs -> Forall neat fs -> neat (VNode k fs).
  Proof. intros N L F. apply neat_node. repeat split; [auto|congruence|auto]. Qed.

  Ltac fields := repeat apply Forall_cons; try apply Forall_nil; try exact I; auto.

  Section Build.
    Variables (steps : list (pat * g)) (e0 e : env) (p q : point) (V : valid p) (U0 : eup p e0) (D : ders toks steps e0 p e q) (E : eneat e).
    Notation bev := (beval toks q e).

    Lemma bneat_ok b : bneat steps b = true -> forall v, bev b = BOk v -> neat v.
    Proof.
      induction b as [y|y|y z| | | |b IH|b IH|b IH|b IH|b d IH IHd|k fs IH|en vn b IH|a b IHa IHb|b IH|b IH
                   |f b IH|b IH|b IH|b IH|b IH|s t IHs IHu|s t IHs IHu|s t IHs IHu|b IH] using bexp_ind'; intros C v B; cbn [bneat] in C; cbn [beval] in B.
      - destruct (assoc y e) as [w|] eqn:A; [|discriminate]. injection B as <-. eapply assoc_neat; eauto.
      - destruct (as_point (assoc y e)); cbn [bbind] in B; [|discriminate]. destruct (ex toks _ _); cbn [bbind] in B; [|discriminate]. injection B as <-. exact I.
      - destruct (as_point (assoc y e)); cbn [bbind] in B; [|discriminate]. destruct (as_point (assoc z e)); cbn [bbind] in B; [|discriminate].
        destruct (ex toks _ _); cbn [bbind] in B; [|discriminate]. injection B as <-. exact I.
      - injection B as <-. exact I.
      - injection B as <-. exact I.
      - injection B as <-. exact I.
      - destruct (bev b) as [w|] eqn:U; cbn [bbind] in B; [|discriminate]. injection B as <-. exact (IH C _ eq_refl).
      - destruct (bev b) as [w|] eqn:U; cbn [bbind] in B; [|discriminate]. injection B as <-. split; [exact (IH C _ eq_refl)|exact I].
      - destruct (bev b) as [w|] eqn:U; cbn [bbind] in B; [|discriminate]. specialize (IH C _ eq_refl).
        destruct w; try discriminate; injection B as <-; [exact I|split; [exact IH|exact I]|exact IH].
      - destruct (bev b) as [w|] eqn:U; cbn [bbind] in B; [|discriminate]. specialize (IH C _ eq_refl).
        destruct w; try discriminate; injection B as <-; [exact I|exact IH].
      - apply andb_true_iff in C as [C1 C2].
        destruct (bev b) as [w|] eqn:U; cbn [bbind] in B; [|discriminate]. specialize (IH C1 _ eq_refl).
        destruct w; try discriminate; [exact (IHd C2 _ B)|]. injection B as <-. exact IH.
      - apply andb_true_iff in C as [C1 C2].
        match type of B with bbind ?r _ = _ => destruct r as [vs|] eqn:G; cbn [bbind] in B; [|discriminate] end. injection B as <-.
        apply fields_eval in G. apply neat_node. split; [|split].
        + clear C1. induction G as [|f v fs vs G1 G2 IHg]; [constructor|]. apply Forall_cons_iff in IH as [IH1 IH2]. cbn [forallb] in C2.
          apply andb_true_iff in C2 as [C2 C2']. constructor; auto.
        + apply (node_neat_ok toks WF NUM _ _ _ _ _ _ _ _ V U0 D C1). clear -G. induction G as [|f v fs vs G1 G2 IHg]; constructor; [|auto]. exists v. auto.
        + intros L. destruct (node_unled _ _ _ C1 L).
      - destruct (bev b) as [w|] eqn:U; cbn [bbind] in B; [|discriminate]. injection B as <-. exact (IH C _ eq_refl).
      - apply andb_true_iff in C as [C1 C2].
        destruct (bev a) as [w|] eqn:U; cbn [bbind] in B; [|discriminate].
        destruct (bev b) as [w'|] eqn:U'; cbn [bbind] in B; [|discriminate]. injection B as <-. split; auto.
      - destruct (bev b) as [w|] eqn:U; cbn [bbind] in B; [|discriminate]. specialize (IH C _ eq_refl).
        destruct w; try discriminate. injection B as <-. apply IH.
      - destruct (bev b) as [w|] eqn:U; cbn [bbind] in B; [|discriminate]. specialize (IH C _ eq_refl).
        destruct w; try discriminate. injection B as <-. apply IH.
      - destruct (bev b) as [w|] eqn:U; cbn [bbind] in B; [|discriminate]. specialize (IH C _ eq_refl).
        destruct (get_field f w) as [u|] eqn:U'; [|discriminate]. injection B as <-. eapply neat_field; eauto.
      - destruct (bev b) as [w|] eqn:U; cbn [bbind] in B; [|discriminate].
        destruct (extent_of w); [|discriminate]. injection B as <-. exact I.
      - destruct (bev b) as [w|] eqn:U; cbn [bbind] in B; [|discriminate].
        destruct w; try discriminate; injection B as <-; exact I.
      - destruct (bev b) as [w|] eqn:U; cbn [bbind] in B; [|discriminate]. specialize (IH C _ eq_refl).
        destruct w as [| | | | | | |w| | | |]; try discriminate; [injection B as <-; exact I|]. destruct w; try discriminate. injection B as <-. apply IH.
      - destruct (bev b) as [w|] eqn:U; cbn [bbind] in B; [|discriminate]. specialize (IH C _ eq_refl).
        destruct w as [| | | | | | |w| | | |]; try discriminate; [injection B as <-; exact I|]. destruct w; try discriminate. injection B as <-. apply IH.
      - apply andb_true_iff in C as [C1 C2].
        destruct (bev s) as [w|] eqn:U; cbn [bbind] in B; [|discriminate].
        destruct (bev t) as [w'|] eqn:U'; cbn [bbind] in B; [|discriminate].
        destruct w as [| | | | | | | |l| | |]; try discriminate. destruct w'; try discriminate. injection B as <-.
        apply neat_list. apply block_neat. apply neat_list. auto.
      - apply andb_true_iff in C as [C1 C2].
        destruct (bev s) as [w|] eqn:U; cbn [bbind] in B; [|discriminate].
        destruct (bev t) as [w'|] eqn:U'; cbn [bbind] in B; [|discriminate].
        destruct w as [| | | | | | | |l| | |]; try discriminate. destruct w'; try discriminate. injection B as <-.
        apply block_neat. apply neat_list. auto.
      - apply andb_true_iff in C as [C C3]. apply andb_true_iff in C as [C1 C2].
        destruct (bev s) as [w|] eqn:U; cbn [bbind] in B; [|discriminate].
        destruct (bev t) as [w'|] eqn:U'; cbn [bbind] in B; [|discriminate]. specialize (IHu C3 _ eq_refl).
        destruct w as [x| | | | | | | | | | |]; try discriminate. destruct w' as [| | | | | | | | |w1 w2| |]; try discriminate.
        destruct w1 as [| | | | | | | |l| | |]; try discriminate. destruct w2 as [| | | | | | | | |w3 w4| |]; try discriminate. destruct w3 as [| |nn| | | | | | | | |]; try discriminate.
        injection B as <-. destruct IHu as [IHl _]. pose proof IHl as IHl'. apply neat_list in IHl'.
        assert (neat (VNode "Tuple" [VExt x; VList l; VList []])) as T.
        { apply neat_node. split; [fields|]. split; [|discriminate]. apply (node_neat_ok toks WF NUM _ _ _ _ _ _ _ _ V U0 D C2).
          constructor; [exists (VExt x); auto|]. constructor; [exists (VList l); cbn [fst snd beval]; rewrite U'; repeat split; auto; discriminate|].
          constructor; [exists (VList []); repeat split; auto|constructor]. }
        assert (forall v, l = [v] -> neat (VNode "Parenthetical" [VExt x; v; VList []])) as T1.
        { intros v ->. apply neat_node. split; [apply Forall_cons_iff in IHl' as [IHv _]; fields|]. split; [|discriminate]. apply (node_neat_ok toks WF NUM _ _ _ _ _ _ _ _ V U0 D C1).
          constructor; [exists (VExt x); auto|]. constructor; [exists (VList [v]); cbn [fst snd beval extents flat_map]; rewrite U', app_nil_r; repeat split; auto; discriminate|].
          constructor; [exists (VList []); repeat split; auto|constructor]. }
        unfold paren_or_tuple. destruct l as [|v [|w l]]; [exact T|destruct nn; [exact (T1 _ eq_refl)|exact T]|exact T].
      - destruct (bev b) as [w|] eqn:U; cbn [bbind] in B; [|discriminate]. destruct w as [| | | |n| | | | | | |]; try discriminate. injection B as <-.
        unfold convert_number. destruct n as [rd x y f ee ss u]. cbn. destruct rd, f, ee, ss; cbn; intuition discriminate.
    Qed.
  End Build.

  (** * Derivations *)

  Definition der_n (x : g) (e : env) (p q : point) (v : val) : Prop := valid p -> eup p e -> eneat e -> gneat x = true -> neat v.
  Definition ders_n (steps : list (pat * g)) (e : env) (p : point) (e' : env) (q : point) : Prop :=
    valid p -> eup p e -> eneat e -> forallb (fun s => gneat (snd s)) steps = true -> eneat e'.
  Definition items_n (so : option g) (f : g) (e : env) (p q : point) (vs : list val) : Prop := valid p -> eup p e -> eneat e -> gneat f = true -> Forall neat vs.
  Definition etree_n (c : car val) : Prop := valid (c_spt c) -> neat (c_val c).

  Lemma gnt_n n p q v : der_n (GNT n) [] p q v -> valid p -> neat v.
  Proof. intros H V. apply H; [auto|constructor|constructor|reflexivity]. Qed.

  Definition call_ok (p q : point) (v : val) : Prop := forall en w, v = VVar en "Call" w -> tails toks [KLeftParen; KComma; KRightParen] (opening_set "Call" "args") p q w.

  Lemma not_call n en t steps b e p q v : der toks (GNT n) e p q v -> table n = GSeq steps (BVariant en t b) -> String.eqb t "Call" = false -> call_ok p q v.
  Proof. intros D T N. apply inv_nt in D. rewrite T in D. apply inv_variant in D as (w & ->). intros en' w' [= _ -> _]. discriminate. Qed.
  Lemma not_call_wrap en t x y e p q v : der toks (GSeq [(PVar x, y)] (BVariant en t (BVar x))) e p q v -> String.eqb t "Call" = false -> call_ok p q v.
  Proof. intros D N. apply inv_wrap in D as (w & -> & D). intros en' w' [= _ -> _]. discriminate. Qed.

  Lemma postfix_calls e p q v : der toks (GNT N_operator_postfix) e p q v -> valid p -> call_ok p q v.
  Proof.
    intros D V. apply inv_nt in D. cbn [table] in D. apply inv_alt in D as (x & J & D).
    destruct J as [<-|[<-|[<-|[<-|[<-|[<-|[]]]]]]].
    1,2,4,5: eapply not_call; [exact D|reflexivity|reflexivity].
    - apply inv_nt in D. intros en w ->.
      eapply (tails_incl toks); [| |exact (proj1 (tail_all toks WF) _ _ _ _ _ D V (Forall_nil _) _ ltac:(vm_compute; reflexivity))]; [intros k; cbn; tauto|vm_compute; reflexivity].
    - eapply not_call_wrap; [exact D|reflexivity].
  Qed.
  Lemma postfix_limited_calls e p q v : der toks (GNT N_operator_postfix_limited) e p q v -> valid p -> call_ok p q v.
  Proof.
    intros D V. apply inv_nt in D. cbn [table] in D. apply inv_alt in D as (x & J & D). destruct J as [<-|[<-|[]]].
    - eapply not_call; [exact D|reflexivity|reflexivity].
    - eapply not_call_wrap; [exact D|reflexivity].
  Qed.

  Lemma call_frays c e w x : etree toks c -> valid (c_spt c) -> valid e -> pos (c_ept c) <= pos e -> tails toks [KLeftParen; KComma; KRightParen] (opening_set "Call" "args") (c_ept c) e w ->
    ex toks (c_spt c) e = BOk x -> frays toks "Call" [VExt x; c_val c; w; VList []].
  Proof.
    intros T V Ve Le (m & n & (Vm & Vn & L1 & L2 & L3 & H & H' & O) & U) X x' t G It St Ct Lt. destruct (etree_mono _ WF _ T V) as [V1 L0]. cbn in G. injection G as <-.
    apply In_nth_error in It as (i & It). pose proof (in_ex _ WF _ _ _ _ _ V Ve ltac:(lia) X It Ct St Lt) as R.
    assert (inner_extents "Call" [VExt x; c_val c; w; VList []] = extents (c_val c) ++ extents w) as -> by (cbn; now rewrite !app_nil_r).
    assert (forall z, In z (extents w) \/ In z (extents (c_val c)) -> snd z <= sb m) as Hi.
    { intros z [Z|Z]; [unfold hi_le in U; rewrite Forall_forall in U; exact (U _ Z)|].
      pose proof (up_hi _ _ _ (proj2 (proj2 (proj2 (proj2 (up_der toks WF)))) _ T V)) as Uc. unfold hi_le in Uc. rewrite Forall_forall in Uc. specialize (Uc _ Z).
      pose proof (sb_mono _ WF _ _ V1 Vm L1). lia. }
    assert (forall i t, nth_error toks i = Some t -> compound t = false -> off m <= i -> dropped_at "args" "Call" [VExt x; c_val c; w; VList []] t) as Drop.
    { clear - Hi Vm WF. intros i t It Ct Om. pose proof (tok_from toks WF _ _ _ Vm It Ct Om) as S1. split; [|split].
      - intros z Z. cbn in Z. specialize (Hi z (or_introl Z)). lia.
      - intros g J z Z. assert (g = "target") as -> by (vm_compute in J; intuition). cbn in Z. specialize (Hi z (or_intror Z)). lia.
      - intros g J. vm_compute in J. destruct J. }
    assert (forall K : word [KLeftParen; KComma; KRightParen] t \/ within_some (extents w) t, (exists k e, t = Tk k e /\ In k (frayed_words "Call")) \/
      (exists z, In z (extents (c_val c) ++ extents w) /\ lies_in t z) \/ exists f, In f (fraying "Call") /\ dropped_at f "Call" [VExt x; c_val c; w; VList []] t /\ opened toks f "Call" [VExt x; c_val c; w; VList []] x t) as Held.
    { intros [K|K].
      - left. destruct K as (k & ee & -> & K). exists k, ee. split; [auto|]. destruct K as [<-|[<-|[<-|[]]]]; vm_compute; tauto.
      - right. left. eapply some_incl; [|exact K]. apply incl_appr, incl_refl. }
    destruct (le_lt_dec (off (c_ept c)) i) as [Oc|Oc].
    - destruct (le_lt_dec (off m) i) as [Om|Om]; [destruct (le_lt_dec (off n) i) as [On|On]|].
      + exact (Held (H' _ _ It Ct ltac:(lia))).
      + right. right. exists "args". split; [vm_compute; tauto|]. split; [eauto|]. destruct O as [->|O]; [lia|].
        pose proof Vm as (u & Hu & _). exists u. split; [eapply nth_error_In; eauto|]. split.
        { destruct (Nat.eq_dec (off m) i) as [E|E]; [rewrite E, It in Hu; injection Hu as <-; lia|].
          pose proof (nth_mono _ WF _ _ _ _ Hu It ltac:(lia)). pose proof (wf_ord _ WF _ _ Hu). lia. }
        pose proof (sb_mono _ WF _ _ V Vm ltac:(lia)) as S0. destruct (compound u) eqn:Cu.
        * pose proof (sb_in toks WF _ _ Vm Hu Cu) as S1. destruct (ex_ok _ WF _ _ V Ve ltac:(lia)) as (y & Y & Fx & _). rewrite X in Y. injection Y as <-. split; [lia|].
          intros g z Ig Z. assert (snd z <= sb m); [|lia]. apply Hi. cbn in Ig. destruct Ig as [<-|[<-|[]]]; cbn in Z; auto.
        * pose proof (pos_off _ _ _ V Vm ltac:(lia)) as O0. pose proof (pos_off _ _ _ Vn Ve L3) as On'.
          split; [exact (ex_has _ WF _ _ _ _ _ V Ve ltac:(lia) X Hu Cu ltac:(lia))|]. split; [exact (Drop _ _ Hu Cu (le_n _))|].
          eapply (opens_ok toks); [exact Vm|exact Hu|exact Cu|exact O|apply N.land_diag].
      + exact (Held (H _ _ It Ct ltac:(lia))).
    - destruct (proj2 (proj2 (proj2 (proj2 (cover_all toks WF)))) _ T V _ _ It Ct ltac:(lia)) as [K|K].
      + destruct K as (k & ee & _ & []).
      + right. left. eapply some_incl; [|exact K]. apply incl_appl, incl_refl.
  Qed.

  Lemma postfix_n c e op c' : etree toks c -> valid (c_spt c) -> valid e -> pos (c_ept c) <= pos e -> neat (c_val c) -> neat op -> call_ok (c_ept c) e op ->
    apply_one toks [c] (OpPostfix op) (c_ept c) e = AOk [c'] -> neat (c_val c').
  Proof.
    intros T V Ve Le Mc Mo K A. destruct op as [| | | | | | | | | | |en' k w]; cbn [apply_one] in A; try discriminate. cbn [DropSpec.neat] in Mo.
    repeat match type of A with (if ?b then _ else _) = _ => destruct b eqn:? end; try discriminate;
      apply apply_postfix_val in A as (x & X & ->); unfold into_attributed, expr_node; (apply plain_node; [vm_compute; reflexivity|]); fields; cbn [DropSpec.neat snd fst];
      try (apply plain_node; [vm_compute; reflexivity|fields]).
    apply neat_node. split; [fields|]. split; [|discriminate]. intros _.
    match goal with H : String.eqb k "Call" = true |- _ => apply String.eqb_eq in H; subst k end.
    eapply call_frays; eauto.
  Qed.

  (** * Operators in front *)

  Definition prefix_kind (t : string) : string :=
    if String.eqb t "Dereference" then "Dereference" else if String.eqb t "Reference" then "Reference" else if String.eqb t "Box" then "ExpressionBox"
    else if String.eqb t "RangeInclusive" then "RangeInclusive" else if String.eqb t "RangeExclusive" then "Range" else "Unary".

  Lemma prefix_reads e p q v : der toks (GNT N_operator_prefix) e p q v -> valid p ->
    exists en t w, v = VVar en t w /\ CoverOk.reads toks (led_words (prefix_kind t)) p q.
  Proof.
    assert (forall x y en t e p q v, der toks (GSeq [(PVar x, y)] (BVariant en t (BVar x))) e p q v -> valid p -> ksub (tread y) (Some (led_words (prefix_kind t))) = true ->
      exists en t w, v = VVar en t w /\ CoverOk.reads toks (led_words (prefix_kind t)) p q) as G.
    { intros x y en t e0 p0 q0 v0 D V K. apply inv_wrap in D as (w & -> & D). exists en, t, w. split; [auto|]. apply ksub_ok in K as (W & R & J).
      eapply reads_incl; [exact J|]. exact (der_reads _ WF _ _ _ _ _ _ D V R). }
    intros D V. apply inv_nt in D. cbn [table] in D. apply inv_alt in D as (x & J & D). destruct J as [<-|[<-|[<-|[<-|[<-|[<-|[<-|[]]]]]]]].
    1-6: eapply G; [exact D|exact V|vm_compute; reflexivity].
    pose proof D as D0. apply inv_nt in D. cbn [table] in D. apply inv_variant in D as (w & ->). eexists _, _, _. split; [reflexivity|].
    eapply reads_incl; [|eapply (der_reads _ WF); [exact D0|exact V|vm_compute; reflexivity]]. intros k. vm_compute. tauto.
  Qed.

  Definition range_chk (x : g) : bool :=
    match x with
    | GSeq [(PVar x, y)] (BVariant _ t (BVar x')) =>
        String.eqb x x' && (negb (String.eqb t "RangeInclusive") || ksub (tread y) (Some (led_words "RangeInclusive"))) &&
        (negb (String.eqb t "RangeExclusive") || ksub (tread y) (Some (led_words "Range")))
    | _ => false
    end.
  Lemma range_reads e p q en t w : der toks (GNT N_operator_infix) e p q (VVar en t w) -> valid p ->
    (t = "RangeInclusive" -> CoverOk.reads toks (led_words "RangeInclusive") p q) /\ (t = "RangeExclusive" -> CoverOk.reads toks (led_words "Range") p q).
  Proof.
    intros D V. assert (match table N_operator_infix with GAlt gs => forallb range_chk gs | _ => false end = true) as C by (vm_compute; reflexivity).
    apply inv_nt in D. destruct (table N_operator_infix) as [| | | |gs| | | | | | | | | | | | | | |] eqn:T; try discriminate. apply inv_alt in D as (x & J & D).
    rewrite forallb_forall in C. specialize (C _ J). destruct x as [| | |steps b| | | | | | | | | | | | | | | |]; try discriminate.
    destruct steps as [|[pt y] steps]; [discriminate|]. destruct pt as [x|]; [|discriminate]. destruct steps; [|discriminate].
    destruct b as [| | | | | | | | | | | |en' t' b| | | | | | | | | | | |]; try discriminate. destruct b as [x'| | | | | | | | | | | | | | | | | | | | | | | |]; try discriminate.
    cbn [range_chk] in C. apply andb_true_iff in C as [C C2]. apply andb_true_iff in C as [C1 C]. apply String.eqb_eq in C1. subst x'. apply inv_wrap in D as (w' & [= -> -> ->] & D).
    split; intros ->; cbn [String.eqb Ascii.eqb Bool.eqb negb orb] in C, C2; [apply ksub_ok in C as (W & R & J')|apply ksub_ok in C2 as (W & R & J')]; (eapply reads_incl; [exact J'|]); exact (der_reads _ WF _ _ _ _ _ _ D V R).
  Qed.

  Lemma nt_lo n p q v : der toks (GNT n) [] p q v -> valid p -> closed (GNT n) = true -> lo_ge (sb p) v.
  Proof.
    intros D V C. unfold closed in C. destruct (tchk [] 0 still (GNT n)) as [r|] eqn:T; [|discriminate].
    pose proof (rv_in _ _ _ _ _ _ (der_top toks _ _ _ _ _ _ (proj1 (spans_all toks WF NUM) _ _ _ _ _ D) V T)) as R.
    unfold lo_ge. eapply Forall_impl; [|exact R]. unfold inside. cbv beta. intros z Z. lia.
  Qed.
  Lemma etree_lo c : etree toks c -> valid (c_spt c) -> lo_ge (sb (c_spt c)) (c_val c).
  Proof.
    intros T V. pose proof (D_Shunt toks true [] c T) as D. destruct (tchk [] 0 still (GShunt true)) as [r|] eqn:C; [|vm_compute in C; discriminate].
    pose proof (rv_in _ _ _ _ _ _ (der_top toks _ _ _ _ _ _ (proj1 (spans_all toks WF NUM) _ _ _ _ _ D) V C)) as R.
    unfold lo_ge. eapply Forall_impl; [|exact R]. unfold inside. cbv beta. intros z Z. lia.
  Qed.

  (** The attributes up to [m], the operator up to [r], and the rest in [l]. *)
  Lemma lead_node s m r e x k fs l : valid s -> valid m -> valid e -> pos s <= pos m -> pos m <= pos r -> pos r <= pos e -> ex toks s e = BOk x ->
    get_field "extent" (VNode k (VExt x :: fs)) = Some (VExt x) -> CoverOk.reads toks (led_words k) m r -> holds toks [] r e l -> incl l (inner_extents k (VExt x :: fs)) ->
    (off s < off m -> Forall (fun z => sb m <= fst z) (inner_extents k (VExt x :: fs))) -> leads toks k (VExt x :: fs).
  Proof.
    intros V Vm Ve L1 L2 L3 X G R H J B x' t G' It St Ct Lt. rewrite G in G'. injection G' as <-.
    apply In_nth_error in It as (i & It). pose proof (in_ex _ WF _ _ _ _ _ V Ve ltac:(lia) X It Ct St Lt) as O.
    destruct (le_lt_dec (off m) i) as [Om|Om].
    - destruct (le_lt_dec (off r) i) as [Or|Or].
      + destruct (H _ _ It Ct ltac:(lia)) as [K|K]; [destruct K as (? & ? & _ & [])|]. right. left. eapply some_incl; [exact J|exact K].
      + left. exact (R _ _ It Ct ltac:(lia)).
    - right. right. intros z Z. specialize (B ltac:(lia)). rewrite Forall_forall in B. specialize (B _ Z). pose proof (tok_to toks WF _ _ _ Vm It Om). lia.
  Qed.

  (** Nothing before the first part. *)
  Lemma held_node s e x k fs l : valid s -> valid e -> pos s <= pos e -> ex toks s e = BOk x -> get_field "extent" (VNode k (VExt x :: fs)) = Some (VExt x) ->
    holds toks (led_words k) s e l -> incl l (inner_extents k (VExt x :: fs)) -> leads toks k (VExt x :: fs).
  Proof.
    intros V Ve L X G H J x' t G' It St Ct Lt. rewrite G in G'. injection G' as <-.
    apply In_nth_error in It as (i & It). pose proof (in_ex _ WF _ _ _ _ _ V Ve L X It Ct St Lt) as O.
    destruct (H _ _ It Ct O) as [K|K]; [left; exact K|right; left; eapply some_incl; [exact J|exact K]].
  Qed.

  Theorem neat_all :
    (forall x e p q v, der toks x e p q v -> der_n x e p q v) /\
    (forall steps e p e' q, ders toks steps e p e' q -> ders_n steps e p e' q) /\
    (forall so f e p q vs, items toks so f e p q vs -> items_n so f e p q vs) /\
    (forall so e p q, between toks so e p q -> True) /\
    (forall c, etree toks c -> etree_n c).
  Proof.
    apply (der_all toks der_n ders_n items_n (fun so e p q => True) etree_n); auto.
    - intros m err e p q v pm N K V U E C. destruct m as [k|].
      + destruct (tok_ext _ WF _ _ _ _ _ _ V N K) as (x & -> & _); exact I.
      + destruct (tk_number _ _ _ _ _ _ V K) as (n & -> & _); exact I.
    - intros n e p q v D IH V U E C. apply IH; [auto|constructor|constructor|apply gneat_table].
    - intros e p V U E C. exact I.
    - intros steps b e e' p q v D IH B V U E C. cbn [gneat] in C. apply andb_true_iff in C as [C1 C2].
      exact (bneat_ok steps e e' p q V U D (IH V U E C2) b C1 v B).
    - intros gs x e p q v J D IH V U E C. cbn [gneat] in C. rewrite forallb_forall in C. auto.
    - intros x e p V U E C. exact I.
    - intros x e p q l D IH V U E C. apply neat_list. exact (IH V U E C).
    - intros app sep f e p q l vs n b B D IH Ch V U E C. cbn [gneat] in C. apply andb_true_iff in C as [C C3]. apply andb_true_iff in C as [C1 C2].
      unfold vtailed. split; [|split; exact I]. apply neat_list. apply Forall_app. split; [|exact (IH V U E C3)].
      apply neat_list. exact (bneat_ok [] e e p p V U (DS_nil _ _ _) E app C1 _ B).
    - intros sep f e p q vs n b D IH NE Ch V U E C. cbn [gneat] in C. apply andb_true_iff in C as [C1 C2]. split; [|split; exact I]. apply neat_list. exact (IH V U E C2).
    - intros sep f e p p1 q vs Bt _ D IH Ch V U E C. cbn [gneat] in C. apply andb_true_iff in C as [C1 C2]. destruct (between_mono _ WF _ _ _ _ Bt V) as [V1 L1].
      apply neat_list. exact (IH V1 (eup_mono toks WF _ _ _ V V1 L1 U) E C2).
    - intros sep f e p V U E C. exact I.
    - intros sep f e p q vs n b D IH Ch V U E C. cbn [gneat] in C. apply andb_true_iff in C as [C1 C2]. split; [|split; exact I]. apply neat_list. exact (IH V U E C2).
    - intros o c e p q v pm S K V U E C. unfold nested in K. destruct (ex toks p _) as [x|]; [|discriminate]. injection K as <- <-. exact I.
    - intros x e p q v r D IH X V U E C. exact I.
    - intros x e p q v D IH V U E C. exact I.
    - intros a b e p q v D IH V U E C. cbn [gneat] in C. apply andb_true_iff in C as [C1 C2]. auto.
    - intros a b e p q v D IH V U E C. cbn [gneat] in C. apply andb_true_iff in C as [C1 C2]. auto.
    - intros stmt e c T IH V U E C. exact (IH V).
    - intros e p V U E C. exact E.
    - intros pt x steps e p q v e1 e' r D IH B DS IHs V U E C. cbn [forallb snd] in C. apply andb_true_iff in C as [C1 C2].
      destruct (der_mono _ WF _ _ _ _ _ D V) as [V1 L1]. apply (IHs V1); [|eapply bind_neat; [|exact E|exact B]; auto|auto].
      eapply bind_up; [|eapply eup_mono; [exact WF|exact V|exact V1|exact L1|exact U]|exact B]. exact (der_up toks WF _ _ _ _ _ D V U).
    - intros so f e p q Vq L _ _ V U E C. constructor.
    - intros so f e p p1 p2 q v vs D IH Bt _ DI IHi V U E C. destruct (der_mono _ WF _ _ _ _ _ D V) as [V1 L1]. destruct (between_mono _ WF _ _ _ _ Bt V1) as [V2 L2].
      constructor; [auto|]. apply (IHi V2); auto. apply (eup_mono toks WF p); auto; lia.
    - (* an atom *) intros p q en v D IH L V. cbn [c_spt c_val] in *. exact (gnt_n _ _ _ _ IH V).
    - (* a prefix operator *) intros en op s c c' res D IH L T IHt A E1 E2 V. rewrite E1 in V.
      destruct (der_mono _ WF _ _ _ _ _ D V) as [V1 L1]. destruct (etree_mono _ WF _ T V1) as [V2 L2]. pose proof (IHt V1) as Mc. pose proof (gnt_n _ _ _ _ IH V) as Mo. cbn [DropSpec.neat] in Mo.
      apply inv_prefix in D as (m & x & l & w & -> & X & (e1 & DA) & DO).
      apply neat_node in Mo as [Mo _]. apply Forall_cons_iff in Mo as [_ Mo]. apply Forall_cons_iff in Mo as [Ml Mo]. apply Forall_cons_iff in Mo as [Mq _].
      destruct (items_mono _ WF _ _ _ _ _ _ DA V) as [Vm Lm]. destruct (der_mono _ WF _ _ _ _ _ DO Vm) as [_ Lr].
      pose proof (nt_lo _ _ _ _ DO Vm ltac:(vm_compute; reflexivity)) as Bw. pose proof (etree_lo _ T V1) as Bc. pose proof (sb_mono _ WF _ _ Vm V1 Lr) as Sm.
      destruct (prefix_reads _ _ _ _ DO Vm) as (en' & k & w' & -> & R). cbn [DropSpec.neat] in Mq.
      pose proof (proj2 (proj2 (proj2 (proj2 (cover_all toks WF)))) _ T V1) as Hc.
      assert (Forall (fun z => sb m <= fst z) (extents w')) as Bw' by exact Bw.
      assert (Forall (fun z => sb m <= fst z) (extents (c_val c))) as Bc' by (eapply Forall_impl; [|exact Bc]; cbv beta; intros z Hz; lia).
      assert (forall kk fs y, ex toks s (c_ept c) = BOk y -> CoverOk.reads toks (led_words kk) m (c_spt c) -> get_field "extent" (VNode kk (VExt y :: fs)) = Some (VExt y) ->
                incl (extents (c_val c)) (inner_extents kk (VExt y :: fs)) -> Forall (fun z => sb m <= fst z) (inner_extents kk (VExt y :: fs)) -> leads toks kk (VExt y :: fs)) as K.
      { intros kk fs y Y Rk G J B. apply (lead_node s m (c_spt c) (c_ept c) y kk fs (extents (c_val c))); auto. }
      cbn [apply_one] in A. unfold prefix_kind in R.
      repeat match type of A with (if ?b then _ else _) = _ => destruct b end; unfold apply_maybe_prefix in A;
        apply apply_prefix_val in A as (y & Y & ->); unfold expr_node;
        (apply plain_node; [vm_compute; reflexivity|]); fields; cbn [DropSpec.neat]; (apply led_node; [vm_compute; reflexivity| |fields]);
        (eapply K; [exact Y|exact R|reflexivity| |]);
        cbn [inner_extents struct_fields assoc structs combine map flat_map fst snd extents app field_name String.eqb Ascii.eqb Bool.eqb].
      all: rewrite ?app_nil_r; try (rewrite ?Forall_app; auto; fail).
      all: first [exact (incl_refl _) | apply incl_appr, incl_refl].
    - intros en op s e c' D IH L A E1 E2 V. rewrite E1 in V. pose proof (gnt_n _ _ _ _ IH V) as Mo. cbn [DropSpec.neat] in Mo.
      destruct (der_mono _ WF _ _ _ _ _ D V) as [Ve Le].
      apply inv_prefix in D as (m & x & l & w & -> & X & (e1 & DA) & DO).
      apply neat_node in Mo as [Mo _]. apply Forall_cons_iff in Mo as [_ Mo]. apply Forall_cons_iff in Mo as [Ml Mo]. apply Forall_cons_iff in Mo as [Mq _].
      destruct (items_mono _ WF _ _ _ _ _ _ DA V) as [Vm Lm]. destruct (der_mono _ WF _ _ _ _ _ DO Vm) as [_ Lr].
      pose proof (nt_lo _ _ _ _ DO Vm ltac:(vm_compute; reflexivity)) as Bw.
      destruct (prefix_reads _ _ _ _ DO Vm) as (en' & k & w' & -> & R). cbn [DropSpec.neat] in Mq.
      assert (Forall (fun z => sb m <= fst z) (extents w')) as Bw' by exact Bw.
      assert (forall kk fs, CoverOk.reads toks (led_words kk) m e -> get_field "extent" (VNode kk (VExt x :: fs)) = Some (VExt x) ->
                Forall (fun z => sb m <= fst z) (inner_extents kk (VExt x :: fs)) -> leads toks kk (VExt x :: fs)) as K.
      { intros kk fs Rk G B. apply (lead_node s m e e x kk fs []); auto; [apply holds_nil; lia|intros z []]. }
      cbn [apply_one] in A. unfold prefix_kind in R.
      repeat match type of A with (if ?b then _ else _) = _ => destruct b; [try discriminate|] end; try discriminate;
        unfold apply_maybe_prefix in A; rewrite X in A; cbn [a_of_b abind] in A; injection A as <-; cbn [c_val];
        unfold expr_node; (apply plain_node; [vm_compute; reflexivity|]); fields; cbn [DropSpec.neat]; (apply led_node; [vm_compute; reflexivity| |fields]);
        (eapply K; [exact R|reflexivity|]);
        cbn [inner_extents struct_fields assoc structs combine map flat_map fst snd extents app field_name String.eqb Ascii.eqb Bool.eqb];
        rewrite ?app_nil_r; auto.
    - (* an infix operator *) intros en op l r c' Tl IHl Tr IHr D IH L A E1 E2 V. rewrite E1 in V.
      pose proof (IHl V) as Ml. destruct (etree_mono _ WF _ Tl V) as [V1 L1]. destruct (der_mono _ WF _ _ _ _ _ D V1) as [V2 L2]. pose proof (IHr V2) as Mr.
      destruct (etree_mono _ WF _ Tr V2) as [V3 L3].
      pose proof (gnt_n _ _ _ _ IH V1) as Mo. destruct op as [| | | | | | | | | | |en' k w]; cbn [apply_one] in A; try discriminate. cbn [DropSpec.neat] in Mo.
      destruct (range_reads _ _ _ _ _ _ (inv_infix _ _ _ _ _ D) V1) as [R1 R2].
      pose proof (proj2 (proj2 (proj2 (proj2 (cover_all toks WF)))) _ Tl V) as Hl. pose proof (proj2 (proj2 (proj2 (proj2 (cover_all toks WF)))) _ Tr V2) as Hr.
      assert (forall W, CoverOk.reads toks W (c_ept l) (c_spt r) -> holds toks W (c_spt l) (c_ept r) (extents (c_val l) ++ extents (c_val r))) as H.
      { intros W R. apply (holds_app _ _ _ (c_ept l)); [eapply holds_incl; [| |exact Hl]; [intros ? []|apply incl_appl, incl_refl]|].
        apply (holds_app _ _ _ (c_spt r)); [apply reads_holds; exact R|eapply holds_incl; [| |exact Hr]; [intros ? []|apply incl_appr, incl_refl]]. }
      repeat match type of A with (if ?b then _ else _) = _ => destruct b eqn:? end; unfold apply_maybe_infix in A; cbn [length Nat.leb] in A;
        apply apply_infix_val in A as (x & X & ->); unfold into_attributed, expr_node;
        (apply plain_node; [vm_compute; reflexivity|]); fields; cbn [DropSpec.neat]; try (apply plain_node; [vm_compute; reflexivity|fields]);
        (apply led_node; [vm_compute; reflexivity| |fields]);
        match goal with Q : String.eqb k ?n = true |- _ => apply String.eqb_eq in Q end.
      all: eapply held_node; [exact V|exact V3|lia|exact X|reflexivity|apply H; auto|];
        cbn [inner_extents struct_fields assoc structs combine map flat_map fst snd extents app field_name String.eqb Ascii.eqb Bool.eqb];
        rewrite ?app_nil_r; intros z Z; rewrite ?in_app_iff in *; tauto.
    - intros en op l e c' Tl IHl D IH L A E1 E2 V. rewrite E1 in V. pose proof (IHl V) as Ml. destruct (etree_mono _ WF _ Tl V) as [V1 L1].
      destruct (der_mono _ WF _ _ _ _ _ D V1) as [V2 L2].
      pose proof (gnt_n _ _ _ _ IH V1) as Mo. destruct op as [| | | | | | | | | | |en' k w]; cbn [apply_one] in A; try discriminate. cbn [DropSpec.neat] in Mo.
      destruct (range_reads _ _ _ _ _ _ (inv_infix _ _ _ _ _ D) V1) as [R1 R2].
      pose proof (proj2 (proj2 (proj2 (proj2 (cover_all toks WF)))) _ Tl V) as Hl.
      assert (forall W, CoverOk.reads toks W (c_ept l) e -> holds toks W (c_spt l) e (extents (c_val l))) as H.
      { intros W R. apply (holds_app _ _ _ (c_ept l)); [eapply holds_incl; [| |exact Hl]; [intros ? []|apply incl_refl]|apply reads_holds; exact R]. }
      repeat match type of A with (if ?b then _ else _) = _ => destruct b eqn:?; [try discriminate|] end; try discriminate;
        unfold apply_maybe_infix in A; cbn [length Nat.leb pop_expression abind] in A;
        (destruct (ex toks (c_spt l) e) as [y|] eqn:X; cbn [a_of_b abind] in A; [|discriminate]); injection A as <-; cbn [c_val];
        unfold into_attributed, expr_node; (apply plain_node; [vm_compute; reflexivity|]); fields; cbn [DropSpec.neat]; (apply led_node; [vm_compute; reflexivity| |fields]);
        match goal with Q : String.eqb k ?n = true |- _ => apply String.eqb_eq in Q end.
      all: eapply held_node; [exact V|exact V2|lia|exact X|reflexivity|apply H; auto|];
        cbn [inner_extents struct_fields assoc structs combine map flat_map fst snd extents app field_name String.eqb Ascii.eqb Bool.eqb];
        rewrite ?app_nil_r; intros z Z; rewrite ?in_app_iff in *; tauto.
    - (* a postfix operator *) intros en op c e c' T IHt D IH L A E1 E2 V. rewrite E1 in V. destruct (etree_mono _ WF _ T V) as [V1 L1].
      destruct (der_mono _ WF _ _ _ _ _ D V1) as [V2 L2]. pose proof (gnt_n _ _ _ _ IH V1) as Mo. cbn [DropSpec.neat] in Mo. apply inv_postfix in D.
      eapply postfix_n; [exact T|exact V|exact V2|lia|exact (IHt V)|exact Mo|eapply postfix_calls; eauto|exact A].
    - intros op c e c' T IHt D IH L A E1 E2 V. rewrite E1 in V. destruct (etree_mono _ WF _ T V) as [V1 L1].
      destruct (der_mono _ WF _ _ _ _ _ D V1) as [V2 L2].
      eapply postfix_n; [exact T|exact V|exact V2|lia|exact (IHt V)|exact (gnt_n _ _ _ _ IH V1)|eapply postfix_limited_calls; eauto|exact A].
  Qed.
End DropsVals.
