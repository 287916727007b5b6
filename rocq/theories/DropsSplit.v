(** Constructs of which a part is read by a parser of its own: what they drop.  Each
    is read as if that part stood in the rule itself. *)

From Coq Require Import String List Arith Bool Lia.
From Verif Require Import Base Peresil Token Schema Value Nt Grammar Points Table Static Typing FileToks Split SpanSpec MarkSpec LandSpec Deriv DerivMono.
From Verif Require Import Marks MarksOk Spans SpansOk SpansDer Expect Honest CoverSpec Cover CoverOk CoverTidy DropSpec Drops DropsOk DropsNeat Origin.
Import ListNotations.
Local Open Scope string_scope.
Local Open Scope list_scope.
Local Open Scope nat_scope.

(** Parsers that use no variables. *)
Definition atomic (x : g) : bool := match x with GTok _ _ | GNT _ | GPoint => true | _ => false end.
Definition noenv (x : g) : bool :=
  match x with
  | GOpt y | GExt y => atomic y
  | GResume sep f => atomic sep && atomic f
  | _ => atomic x
  end.

Lemma chain_mono (D D' : point -> point -> val -> Prop) (S S' : val -> point -> point -> Prop) : (forall a b v, D a b v -> D' a b v) -> (forall v a b, S v a b -> S' v a b) ->
  forall p vs, chain D S p vs -> chain D' S' p vs.
Proof. intros HD HS p vs. induction 1; econstructor; eauto. Qed.

(** Constructs of which nothing is said of the elements of the list themselves. *)
Definition among_at (k : string) (fs : list (string * bexp)) (here later last : list string) (f : string) : bool :=
  forallb (fun g => match assoc g fs with Some b => match bvars b with Some l => disjoint l (here ++ later) | None => false end | None => false end)
    (fields_before f (source_order k)) &&
  forallb (fun g => match assoc g fs with Some b => match bvars b with Some l => subset l last | None => false end | None => false end)
    (fields_after f (source_order k)).
(** The steps at the end that keep nothing from in front of them. *)
Fixpoint closing (l : list (pat * g)) : list (pat * g) :=
  match l with [] => [] | _ :: l' => if forallb (fun s => closed (snd s)) l then l else closing l' end.
Fixpoint among_steps (k : string) (fs : list (string * bexp)) (f : string) (steps : list (pat * g)) : bool :=
  match steps with
  | [] => true
  | (p, y) :: rest =>
      among_steps k fs f rest &&
      (ksub (step_words (steps_keep (node_keeps fs) rest) p y) (Some (frayed_words k)) ||
       among_at k fs (pat_vars p) (steps_vars rest) (steps_vars (closing rest)) f)
  end.

Section Split.
  Variable toks : list token.
  Hypothesis WF : wf_toks toks.
  Hypothesis NUM : forall i n, nth_error toks i = Some (TkNumber n) -> num_ord n.
  Notation valid := (valid toks).
  Notation der := (der toks).
  Notation ders := (ders toks).

  Lemma atomic_env x e p q v : atomic x = true -> der x e p q v -> forall e2, der x e2 p q v.
  Proof. intros A D e2. destruct x; try discriminate; inversion D; subst; econstructor; eauto. Qed.
  Lemma between_env sep e p q : atomic sep = true -> between toks (Some sep) e p q -> forall e2, between toks (Some sep) e2 p q.
  Proof. intros A D e2. inversion D; subst; [apply B_none|eapply B_sep, atomic_env; eauto|apply B_gap; auto]. Qed.
  Lemma items_env sep f e p q vs : atomic sep = true -> atomic f = true -> items toks (Some sep) f e p q vs -> forall e2, items toks (Some sep) f e2 p q vs.
  Proof.
    intros As Af. revert p q. induction vs as [|v vs IH]; intros p q D e2; inversion D; subst; [apply I_nil; auto|].
    eapply I_cons; [eapply atomic_env; eauto|eapply between_env; eauto|eauto].
  Qed.
  Lemma noenv_env x e p q v : noenv x = true -> der x e p q v -> forall e2, der x e2 p q v.
  Proof.
    intros A D e2. destruct x; try discriminate; try (eapply atomic_env; eauto; fail); cbn [noenv] in A; inversion D; subst.
    - apply D_Some. eapply atomic_env; eauto.
    - apply D_None.
    - apply andb_true_iff in A as [A1 A2]. eapply D_Resume; [eapply between_env; eauto|eapply items_env; eauto|].
      match goal with H : chain _ _ _ _ |- _ => revert H end. apply chain_mono.
      + intros a b w Dw. eapply atomic_env; eauto.
      + intros w a b (d & Dd). exists d. eapply atomic_env; eauto.
    - apply D_Resume0.
    - eapply D_Ext; [eapply atomic_env; eauto|auto].
  Qed.

  Ltac step D m v Dv Bv := apply inv_steps in D as (m & v & ? & Dv & Bv & D); cbn [bind_pat] in Bv; injection Bv as <-.

  (** The fields of a node, from the rule with the parts in it. *)
  Lemma rule_frays steps k fs p q e' vs : valid p -> ders steps [] p e' q -> node_frays k fs steps && names_chk k (map fst fs) = true ->
    Forall2 (fun f v => beval toks q e' (snd f) = BOk v) fs vs -> frays toks k vs.
  Proof.
    intros V D C F. apply (node_frays_ok toks WF NUM steps [] p e' q k fs vs V (Forall_nil _) D C). clear -F. induction F as [|f v fs vs G1 G2 IHg]; constructor; [|auto]. exists v. auto.
  Qed.

  Lemma expr_disambiguation_frays p q fs : valid p -> der (GNT N_expr_disambiguation) [] p q (VNode "Disambiguation" fs) -> frays toks "Disambiguation" fs.
  Proof.
    intros V D. apply inv_nt in D. cbn [table] in D. apply inv_seq in D as (e' & D & B).
    step D m0 v0 D0 B0. step D m1 core D1 B1. step D m2 l D2 B2. apply inv_nil in D as [-> ->].
    apply inv_nt in D1. cbn [table] in D1. apply inv_seq in D1 as (e1 & D & Bc).
    step D a0 w0 E0 B0. step D a1 w1 E1 B1. step D a2 w2 E2 B2. step D a3 w3 E3 B3. apply inv_nil in D as [-> ->].
    cbn in Bc. injection Bc as <-. cbn in B. destruct v0 as [| | |r| | | | | | | |]; try discriminate. cbn in B. destruct (ex toks r m2) as [x|] eqn:X; [|discriminate]. cbn in B. injection B as <-.
    eapply (rule_frays [(PVar "spt", GPoint); (PVar "_", t_left_angle); (PVar "from_type", GNT N_typ); (PVar "to_type", GOpt (GNT N_disambiguation_core_to_type)); (PVar "_", t_right_angle);
      (PVar "components", GResume t_double_colon (GNT N_path_component))] "Disambiguation"
      [("extent", BEx "spt"); ("from_type", BVar "from_type"); ("to_type", BVar "to_type"); ("components", BVar "components"); ("whitespace", BNil)] p m2); [exact V| |vm_compute; reflexivity|].
    - repeat (eapply DS_cons; [eapply noenv_env; [reflexivity|eassumption]|reflexivity|]). apply DS_nil.
    - repeat (apply Forall2_cons; [cbn; rewrite ?X; reflexivity|]). apply Forall2_nil.
  Qed.

  Lemma typ_disambiguation_frays p q fs : valid p -> der (GNT N_typ_disambiguation) [] p q (VNode "TypeDisambiguation" fs) -> frays toks "TypeDisambiguation" fs.
  Proof.
    intros V D. apply inv_nt in D. cbn [table] in D. apply inv_seq in D as (e' & D & B).
    step D m0 v0 D0 B0. step D m1 core D1 B1. step D m2 l D2 B2. apply inv_nil in D as [-> ->].
    apply inv_nt in D1. cbn [table] in D1. apply inv_seq in D1 as (e1 & D & Bc).
    step D a0 w0 E0 B0. step D a1 w1 E1 B1. step D a2 w2 E2 B2. step D a3 w3 E3 B3. apply inv_nil in D as [-> ->].
    cbn in Bc. injection Bc as <-. cbn in B. destruct v0 as [| | |r| | | | | | | |]; try discriminate. cbn in B. destruct (ex toks r m2) as [x|] eqn:X; [|discriminate]. cbn in B. injection B as <-.
    eapply (rule_frays [(PVar "spt", GPoint); (PVar "_", t_left_angle); (PVar "from_type", GNT N_typ); (PVar "to_type", GOpt (GNT N_disambiguation_core_to_type)); (PVar "_", t_right_angle);
      (PVar "path", GResume t_double_colon (GNT N_typ_named_component))] "TypeDisambiguation"
      [("extent", BEx "spt"); ("from_type", BVar "from_type"); ("to_type", BVar "to_type"); ("path", BVar "path"); ("whitespace", BNil)] p m2); [exact V| |vm_compute; reflexivity|].
    - repeat (eapply DS_cons; [eapply noenv_env; [reflexivity|eassumption]|reflexivity|]). apply DS_nil.
    - repeat (apply Forall2_cons; [cbn; rewrite ?X; reflexivity|]). apply Forall2_nil.
  Qed.

  Definition struct_head : list (pat * g) :=
    [(PVar "spt", GPoint); (PVar "visibility", GOpt (GNT N_visibility)); (PVar "_", t_kw_struct); (PVar "name", GNT N_ident); (PVar "generics", GOpt (GNT N_generic_declarations))].
  Definition struct_fields_of (wheres body : bexp) : list (string * bexp) :=
    [("extent", BEx "spt"); ("visibility", BVar "visibility"); ("name", BVar "name"); ("generics", BVar "generics"); ("wheres", wheres); ("body", body); ("whitespace", BNil)].

  Lemma struct_frays p q fs : valid p -> der (GNT N_p_struct) [] p q (VNode "Struct" fs) -> frays toks "Struct" fs.
  Proof.
    intros V D. apply inv_nt in D. cbn [table] in D. apply inv_seq in D as (e' & D & B).
    step D m0 v0 D0 B0. step D m1 v1 D1 B1. step D m2 v2 D2 B2. step D m3 v3 D3 B3. step D m4 v4 D4 B4.
    apply inv_steps in D as (m5 & pr & ? & D5 & B5 & D). apply inv_nil in D as [-> ->]. apply inv_nt in D5. cbn [table] in D5. apply inv_alt in D5 as (y & J & D5).
    destruct J as [<-|[<-|[<-|[]]]]; apply inv_seq in D5 as (e5 & D5 & Bp).
    - (* braces *) apply inv_steps in D5 as (m6 & pr' & ? & D5 & B6 & D). apply inv_nil in D as [-> ->]. apply inv_nt in D5. cbn [table] in D5.
      apply inv_seq in D5 as (e6 & D & Bb). step D a0 ws E0 B7. step D a1 bd E1 B8. apply inv_nil in D as [-> ->].
      cbn in Bb. injection Bb as <-. cbn in B6. injection B6 as <-. cbn in Bp. injection Bp as <-. cbn in B5. injection B5 as <-.
      cbn in B. destruct v0 as [| | |r| | | | | | | |]; try discriminate. cbn in B. match type of B with context [ex toks r ?z] => destruct (ex toks r z) as [x|] eqn:X; [|discriminate] end. cbn in B.
      destruct ws as [| | | | | |w| | | | |] eqn:Ew; try discriminate; cbn in B; injection B as <-.
      all: eapply (rule_frays (struct_head ++ [(PVar "wheres", GOpt (GNT N_where_clause)); (PVar "body", GNT N_struct_defn_body_brace_only)]) "Struct"
        (struct_fields_of (BUnwrapNil (BVar "wheres")) (BVariant "StructDefinitionBody" "Brace" (BVar "body"))) p _); [exact V| |vm_compute; reflexivity|];
        [repeat (eapply DS_cons; [eapply noenv_env; [reflexivity|eassumption]|reflexivity|]); apply DS_nil|
         repeat (apply Forall2_cons; [cbn; rewrite ?X; reflexivity|]); apply Forall2_nil].
    - (* a tuple *) apply inv_steps in D5 as (m6 & pr' & ? & D5 & B6 & D). apply inv_nil in D as [-> ->].
      destruct pr' as [| | | | | | | | |bd ws| |]; try discriminate. cbn in B6. injection B6 as <-. cbn in Bp. injection Bp as <-. cbn in B5. injection B5 as <-.
      cbn in B. destruct v0 as [| | |r| | | | | | | |]; try discriminate. cbn in B. match type of B with context [ex toks r ?z] => destruct (ex toks r z) as [x|] eqn:X; [|discriminate] end. cbn in B.
      destruct ws as [| | | | | |w| | | | |] eqn:Ew; try discriminate; cbn in B; injection B as <-.
      all: eapply (rule_frays (struct_head ++ [(PPair (PVar "body") (PVar "wheres"), GNT N_struct_defn_body_tuple)]) "Struct"
        (struct_fields_of (BUnwrapNil (BVar "wheres")) (BVariant "StructDefinitionBody" "Tuple" (BVar "body"))) p _); [exact V| |vm_compute; reflexivity|];
        [repeat (eapply DS_cons; [eapply noenv_env; [reflexivity|eassumption]|reflexivity|]); apply DS_nil|
         repeat (apply Forall2_cons; [cbn; rewrite ?X; reflexivity|]); apply Forall2_nil].
    - (* nothing *) step D5 m6 b E0 B6. apply inv_nil in D5 as [-> ->]. cbn in Bp. injection Bp as <-. cbn in B5. injection B5 as <-.
      cbn in B. destruct v0 as [| | |r| | | | | | | |]; try discriminate. cbn in B. match type of B with context [ex toks r ?z] => destruct (ex toks r z) as [x|] eqn:X; [|discriminate] end. cbn in B. injection B as <-.
      eapply (rule_frays (struct_head ++ [(PVar "body", GExt t_semicolon)]) "Struct" (struct_fields_of BNil (BVariant "StructDefinitionBody" "Empty" (BVar "body"))) p _);
        [exact V| |vm_compute; reflexivity|].
      + repeat (eapply DS_cons; [eapply noenv_env; [reflexivity|eassumption]|reflexivity|]); apply DS_nil.
      + repeat (apply Forall2_cons; [cbn; rewrite ?X; reflexivity|]); apply Forall2_nil.
  Qed.

  Lemma beval_mk q e k k' fs vs : beval toks q e (BMk k fs) = BOk (VNode k' vs) -> Forall2 (fun (f : string * bexp) v => beval toks q e (snd f) = BOk v) fs vs.
  Proof.
    cbn [beval]. intros B. match type of B with bbind ?r _ = _ => destruct r as [vs'|] eqn:F; cbn [bbind] in B; [|discriminate] end. injection B as <- <-. exact (fields_eval _ _ _ _ _ F).
  Qed.

  Lemma closing_ge steps : forall e p e' q, ders steps e p e' q -> valid p ->
    forall x w, In x (steps_vars (closing steps)) -> assoc x e' = Some w -> lo_ge (sb toks p) w.
  Proof.
    induction steps as [|[pt y] steps IH]; intros e p e' q D V x w I A; [destruct I|]. cbn [closing] in I.
    destruct (forallb (fun s => closed (snd s)) ((pt, y) :: steps)) eqn:C; [exact (later_ge toks WF NUM _ _ _ _ _ D V C _ _ I A)|].
    apply inv_steps in D as (r & v & e1 & D & B & D'). destruct (der_mono _ WF _ _ _ _ _ D V) as [Vr L].
    specialize (IH _ _ _ _ D' Vr _ _ I A). pose proof (sb_mono _ WF _ _ V Vr L) as Sm. unfold lo_ge in *. eapply Forall_impl; [|exact IH]. cbv beta. intros z Hz. lia.
  Qed.

  Section Among.
    Variables (k f : string) (fs : list (string * bexp)) (vs : list val) (e' : env) (q : point).
    Hypothesis F : Forall2 (built toks q e') fs vs.
    Hypothesis N : names_chk k (map fst fs) = true.

    Lemma among_at_ok here later last t : among_at k fs here later last f = true ->
      (forall x w, mem_str x (here ++ later) = false -> assoc x e' = Some w -> after_all t (extents w)) ->
      (forall x w, In x last -> assoc x e' = Some w -> before_all t (extents w)) -> dropped_among f k vs t.
    Proof.
      intros H A B. unfold among_at in H. apply andb_true_iff in H as [H1 H2]. rewrite forallb_forall in H1, H2. split.
      - intros g I z Z. specialize (H1 _ I). unfold field_extents in Z. destruct (get_field g (VNode k vs)) as [w|] eqn:G; [|destruct Z].
        destruct (assoc g fs) as [b|] eqn:Ab; [|discriminate]. destruct (bvars b) as [l|] eqn:Bl; [|discriminate].
        destruct (field_from toks k fs vs e' q F N _ _ _ _ G Ab Bl z Z) as (x & u & J & Au & Zu). unfold disjoint in H1. rewrite forallb_forall in H1.
        specialize (H1 _ J). apply negb_true_iff in H1. exact (A _ _ H1 Au _ Zu).
      - intros g I z Z. specialize (H2 _ I). unfold field_extents in Z. destruct (get_field g (VNode k vs)) as [w|] eqn:G; [|destruct Z].
        destruct (assoc g fs) as [b|] eqn:Ab; [|discriminate]. destruct (bvars b) as [l|] eqn:Bl; [|discriminate].
        destruct (field_from toks k fs vs e' q F N _ _ _ _ G Ab Bl z Z) as (x & u & J & Au & Zu). unfold subset in H2. rewrite forallb_forall in H2.
        specialize (H2 _ J). unfold mem_str in H2. apply existsb_exists in H2 as (x' & M & Ex). apply String.eqb_eq in Ex. subst x'. exact (B _ _ M Au _ Zu).
    Qed.

    Lemma among_steps_ok steps : forall e p, ders steps e p e' q -> valid p -> eup toks p e -> among_steps k fs f steps = true ->
      forall i t, nth_error toks i = Some t -> compound t = false -> off p <= i < off q ->
      word (frayed_words k) t \/ within_some (inner fs vs) t \/ dropped_among f k vs t.
    Proof.
      induction steps as [|[pt y] steps IH]; intros e p D V E H i t I C R.
      - apply inv_nil in D as [_ ->]. lia.
      - apply inv_steps in D as (r & v & e1 & D & B & D'). cbn [among_steps] in H. apply andb_true_iff in H as [H1 H].
        destruct (der_mono _ WF _ _ _ _ _ D V) as [Vr L].
        assert (eup toks r e1) as E1 by (eapply bind_up; [|eapply eup_mono; [exact WF|exact V|exact Vr|exact L|exact E]|exact B]; eapply der_up; eauto).
        destruct (le_lt_dec (off r) i) as [G|G]; [apply (IH _ _ D' Vr E1 H1 i t I C); lia|].
        pose proof (steps_keep_ok toks WF _ _ _ _ _ _ _ D' Vr (node_keeps_ok toks _ _ _ _ F)) as K.
        apply orb_true_iff in H as [H|H].
        + apply ksub_ok in H as (W & SW & J). destruct (step_words_ok toks WF _ _ _ _ _ _ _ _ _ _ K D V B SW _ _ I C ltac:(lia)) as [X|X]; [left; eapply word_incl; eauto|right; left; exact X].
        + rename H into Hf. right. right.
          pose proof (tok_from toks WF _ _ _ V I C ltac:(lia)) as S1. pose proof (tok_to toks WF _ _ _ Vr I G) as S2.
          eapply among_at_ok; [exact Hf| |].
          -- intros x w M A z Z. unfold mem_str in M. rewrite existsb_app in M. apply orb_false_iff in M as [M1 M2]. rewrite (ders_other toks _ _ _ _ _ D' _ M2) in A.
             rewrite (bind_other _ _ _ _ _ B M1) in A. pose proof (up_hi toks _ _ (assoc_up toks _ _ _ _ E A)) as Hw.
             unfold hi_le in Hw. rewrite Forall_forall in Hw. specialize (Hw _ Z). lia.
          -- intros x w M A z Z. pose proof (closing_ge _ _ _ _ _ D' Vr _ _ M A) as Lw. unfold lo_ge in Lw. rewrite Forall_forall in Lw. specialize (Lw _ Z). lia.
    Qed.
  End Among.

  Lemma typ_function_among p q fs : valid p -> der (GNT N_typ_function) [] p q (VNode "TypeFunction" fs) -> amongst toks "arguments" "TypeFunction" fs.
  Proof.
    intros V D x t G I So C Li. apply inv_nt in D. cbn [table] in D. apply inv_seq in D as (e' & D & B).
    apply beval_mk in B as F.
    match type of F with Forall2 _ ?b _ => set (bs := b) in * end.
    assert (Forall2 (built toks q e') bs fs) as F'.
    { clear -F. induction F as [|y v ys vs G1 G2 IHg]; constructor; [|auto]. exists v. auto. }
    assert (names_chk "TypeFunction" (map fst bs) = true) as N by (vm_compute; reflexivity).
    rewrite (inner_is _ _ _ N). destruct (built_field toks _ _ _ _ _ _ _ F' N G) as (b & A & w & Bw & _ & X). specialize (X eq_refl). subst w.
    vm_compute in A. injection A as <-. cbn [snd] in Bw.
    match type of D with ders ?l _ _ _ _ => destruct (ders_from toks WF "spt" l (tl l) [] p e' q V (Forall_nil _) ltac:(vm_compute; reflexivity) D) as (em & r & Ar & Vr & Lr & Er & Dr) end.
    destruct (ders_mono _ WF _ _ _ _ _ Dr Vr) as [Vq Lq]. cbn [beval] in Bw. rewrite Ar in Bw. cbn [as_point bbind] in Bw.
    destruct (ex toks r q) as [x'|] eqn:X; cbn [bbind] in Bw; [|discriminate]. injection Bw as ->.
    apply In_nth_error in I as (i & I). pose proof (in_ex _ WF _ _ _ _ _ Vr Vq Lq X I C So Li) as R.
    exact (among_steps_ok "TypeFunction" "arguments" bs fs e' q F' N _ _ _ Dr Vr Er ltac:(vm_compute; reflexivity) _ _ I C R).
  Qed.
End Split.
