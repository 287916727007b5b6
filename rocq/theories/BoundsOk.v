(** The parser follows the rules for attributes, bounds, generics, where clauses,
    visibilities and fields. *)

From Coq Require Import String List NArith Arith Bool Lia.
From Verif Require Import Base Peresil Token Schema Value Nt Grammar Points Table Static Amb Sem First OutlineSpec Reads Syntax UseSpec RustSpec Rules NestedOk TypesOk.
Import ListNotations.
Local Open Scope string_scope.
Local Open Scope list_scope.
Local Open Scope nat_scope.

(** * Attributes *)
Lemma attr_line_ok l x : good l Attribute [Word KDocCommentOuterLine x] (VVar "Attribute" "DocCommentLine" hole).
Proof. rule. parts. finish. Qed.

Lemma attr_block_ok l x : good l Attribute [Word KDocCommentOuterBlock x] (VVar "Attribute" "DocCommentBlock" hole).
Proof. rule. parts. finish. Qed.

(** The text between brackets. *)
Ltac between l :=
  match goal with
  | B : balanced ?o ?c ?ts, R : reads ?t ?p (map Raw ?ts) ?q, T1 : takes ?t _ (Sym ?o) ?p, T2 : takes ?t ?q (Sym ?c) ?r |- _ =>
      let x := fresh "x" in let HS := fresh "HS" in let P := fresh "P" in
      destruct (bracket_taken t o _ _ eq_refl T1) as (_ & P & _);
      destruct (sem_balanced t (amb l) o c ts p q r) as (x & HS);
      [reflexivity|discriminate|discriminate|exact B|rewrite P; reflexivity|exact R|exact T2|]
  end.

Lemma attr_literal_ok l ts : balanced KLeftSquare KRightSquare ts ->
    good l Attribute ([Sym KHash; Sym KLeftSquare] ++ map Raw ts ++ [Sym KRightSquare])
      (VVar "Attribute" "Literal" (node "AttributeLiteral" [hole])).
Proof. rule. rd. between l. parts. finish. Qed.

Lemma with_ok l t c attrs ps v : attributable c = Some t -> goods l Attribute attrs -> good l c ps v ->
    good l (With t c) (concat (spelled attrs) ++ ps) (node ("Attributed<" ++ t ++ ">") [VList (asts attrs); v]).
Proof.
  intros A GA G. 
  assert (NE : ps <> []) by (apply (good_nonempty _ _ _ _ G); destruct c; try discriminate; reflexivity).
  assert (B : begins (firstg (GNT N_attribute)) (concat (spelled attrs))).
  { destruct attrs as [|a attrs]; [exact I|]. inversion_clear GA. cbn [spelled map concat]. apply begins_app; [apply (g_begins _ _ _ _ H)|].
    intros E. now apply (good_nonempty _ _ _ _ H) in E. }
  pose proof (g_begins _ _ _ _ G) as B'.
  destruct c; try discriminate; injection A as <-.
  all: try (pose proof (good_extra _ _ _ _ G) as B''; cbn [extra] in B'').
  all: constructor;
    [ apply begins_app; [apply (begins_sub _ _ _ B); compute_mask|intros _; apply (begins_sub _ _ _ B'); compute_mask]
    | intros E; apply app_eq_nil in E as [_ E]; congruence
    | reflexivity
    | cbn [extra]; first [exact I|split; [intros toks p q R F|intros NB toks p q R F; specialize (B'' NB) as B3]|intros toks p q R F]
    | intros toks p q R F; cbn [follow] in F; parts; finish ].
  - parts. eexists. intros e. fails.
  - rd. assert (forall e, sem toks (amb l) (GNT N_operator_prefix) e x (SFail x)).
    { intros e. eapply (sem_clear _ _ _ _ _ (firstg (GNT N_operator_prefix))); [eapply begins_clear; [exact B'|exact NE|eassumption|]|reflexivity|reflexivity]. reflexivity. }
    destruct (goods_many toks l Attribute attrs p x GA eq_refl) as (vs & HS & _); [exact (fun _ H => H)|reflexivity|assumption|clr|].
    names. eexists. intros e. fails.
  - rd. destruct (B3 _ _ _ H0 F) as (s & X). 
    use_one. names. eexists. intros e. fails.
Qed.

(** * Bounds *)
Lemma no_bounds_ok l : good l Bounds [] (node "TraitBounds" [VList []]).
Proof.
  rule. rd. destruct (goods_list toks l (Bound false) KPlus) with (ts := @nil text) (tr := false) (p := q) (q := q) as (vs & HS & O);
    [reflexivity|plain|compute_mask|constructor|reflexivity|clr|]. names. finish.
Qed.

Lemma some_bounds_ok l bs o ps v c : goods l (Bound false) bs -> good l (Bound o) ps v -> o && c = false ->
    good l Bounds (separated KPlus (spelled bs ++ [ps]) c) (node "TraitBounds" [VList (asts bs ++ [v])]).
Proof.
  intros G G' OC.
  destruct (begins_separated_last l _ _ _ _ _ KPlus c (firstg (GNT N_trait_bound)) G G' eq_refl eq_refl eq_refl) as [B NE]; [now destruct o|].
  assert (X : forall toks p q, reads toks p (separated KPlus (spelled bs ++ [ps]) c) q -> clear toks (fmask Bounds) q ->
    exists vs, (forall e err app, bval toks p e app (VList []) ->
        sem toks (amb l) (tailed_values app (GTok (MK KPlus) err) (GNT N_trait_bound)) e p (SOk q (VList vs))) /\
      outlines vs = asts bs ++ [v]).
  { intros toks p q R F.
    eapply (goods_list_last toks l (Bound false) KPlus) with (c' := Bound o) (tr := c);
      [reflexivity|plain|compute_mask|reflexivity|plain|exact G|exact G'| |exact R|destruct o, c; clr].
    intros ->. destruct o; [discriminate|]. compute_mask. }
  constructor; [apply (begins_sub _ _ _ B); compute_mask|intros E; congruence|reflexivity|exact I|].
  intros toks p q R F. cbn [follow] in F. destruct (X _ _ _ R F) as (vs & HS & O). names. finish.
Qed.

Lemma bound_life_ok l ps v : good l Lifetime ps v ->
    good l (Bound false) ps (VVar "TraitBound" "Lifetime" (node "TraitBoundLifetime" [v])).
Proof. rule. parts. finish. Qed.

Lemma bound_normal_ok l o ps v : good l (BoundTy o) ps v ->
    good l (Bound o) ps (VVar "TraitBound" "Normal" (node "TraitBoundNormal" [v])).
Proof. destruct o; rule; parts; finish. Qed.

Lemma bound_relaxed_ok l o ps v : good l (BoundTy o) ps v ->
    good l (Bound o) (Sym KQuestionMark :: ps) (VVar "TraitBound" "Relaxed" (node "TraitBoundRelaxed" [v])).
Proof. destruct o; rule; parts; finish. Qed.

Lemma bound_named_ok l o ps v : good l (TyNamed o) ps v -> good l (BoundTy o) ps (VVar "TraitBoundType" "Named" v).
Proof. destruct o; rule; parts; finish. Qed.

Lemma bound_for_ok l o ps v : good l (TyHrtb o) ps v -> good l (BoundTy o) ps (VVar "TraitBoundType" "HigherRankedTraitBounds" v).
Proof. destruct o; rule; parts; finish. Qed.

Lemma bounds_after_colon_ok l ps v : good l Bounds ps v -> good l BoundsDecl (Sym KColon :: ps) v.
Proof. rule; parts; finish. Qed.

Lemma default_ok l ps v : good l Ty ps v -> good l TyDefault (Sym KEquals :: ps) v.
Proof. rule; parts; finish. Qed.

(** * Generics *)
Lemma life_bounds_ok l ys c : goods l Lifetime ys ->
    good l LifeBounds (Sym KColon :: separated KPlus (spelled ys) c) (VList (asts ys)).
Proof. rule; parts; finish. Qed.

Lemma lifetime_param_ok l xs x bs bv : good l Lifetime xs x -> goodo l LifeBounds bs bv ->
    good l GenericLifetime (xs ++ bs) (node "GenericDeclarationLifetime" [x; or_nil bv]).
Proof. intros G [[-> ->]|(w & -> & G')]; rule; parts; finish. Qed.

Lemma type_param_ok l ns n bs bv ds dv : good l Name ns n -> goodo l BoundsDecl bs bv -> goodo l TyDefault ds dv ->
    good l GenericType (ns ++ bs ++ ds) (node "GenericDeclarationType" [n; bv; dv]).
Proof. rule; parts; finish. Qed.

Lemma const_param_ok l ns n ps v : good l Name ns n -> good l Ty ps v ->
    good l GenericConst (Sym KConst :: ns ++ Sym KColon :: ps) (node "GenericDeclarationConst" [n; v]).
Proof. rule; parts; finish. Qed.

Definition attr_mask : N := bits [KHash; KDocCommentOuterLine; KDocCommentOuterBlock].

Lemma plain_begins l c ts sep tr : goods l c ts -> nullg (gram c) = false -> plain_head ts = true ->
  begins (N.ldiff (firstg (gram c)) attr_mask) (separated sep (spelled ts) tr).
Proof.
  intros G N P. destruct ts as [|[ps v] ts]; [exact I|]. inversion_clear G. cbn [fst snd] in H.
  cbn [plain_head] in P. apply negb_true_iff in P. cbn [existsb] in P. rewrite !orb_false_iff in P. destruct P as (P1 & P2 & P3 & _).
  assert (B : begins (N.ldiff (firstg (gram c)) attr_mask) ps).
  { pose proof (begins_without _ _ _ (begins_without _ _ _ (begins_without _ _ _ (g_begins _ _ _ _ H) P1) P2) P3) as B.
    eapply begins_sub; [exact B|]. unfold attr_mask, bits. cbn [fold_right]. rewrite !N.ldiff_ldiff_l, N.lor_0_r.
    rewrite ?N.lor_assoc. apply subset_refl. }
  pose proof (good_nonempty _ _ _ _ H N). destruct ts; cbn [spelled map separated fst]; apply begins_app; auto; intros; congruence.
Qed.

Lemma generics_ok l xs tys cs c : goods l (With "GenericDeclarationLifetime" GenericLifetime) xs ->
    goods l (With "GenericDeclarationType" GenericType) tys -> goods l (With "GenericDeclarationConst" GenericConst) cs ->
    plain_head tys = true -> plain_head cs = true ->
    good l Generics (Sym KLeftAngle :: commas (spelled xs ++ spelled tys ++ spelled cs) c ++ [Sym KRightAngle])
      (node "GenericDeclarations" [VList (asts xs); VList (asts tys); VList (asts cs)]).
Proof.
  intros G1 G2 G3 P2 P3. rule. rd.
  pose proof (plain_begins _ _ _ KComma c G3 eq_refl P3) as B3.
  pose proof (plain_begins _ _ _ KComma (match spelled cs with [] => c | _ => true end) G2 eq_refl P2) as B2.
  tk. use_all. names. finish.
Qed.

(** * Where clauses *)
Lemma where_life_ok l xs x bs bv : good l Lifetime xs x -> good l LifeBounds bs bv ->
    good l WhereItem (xs ++ bs) (node "Where" [VList []; VVar "WhereKind" "Lifetime" (node "WhereLifetime" [x; bv])]).
Proof. rule; parts; finish. Qed.

Lemma where_ty_ok l hs hv ps v bs bv : goodo l Hrtb hs hv -> good l Ty ps v -> good l BoundsDecl bs bv ->
    (hs = [] -> starts_with KFor ps = false) ->
    good l WhereItem (hs ++ ps ++ bs)
      (node "Where" [or_nil hv; VVar "WhereKind" "Type" (node "WhereType" [v; bv])]).
Proof.
  intros [[-> ->]|(w & -> & G)] G1 G2 X.
  - pose proof (begins_without _ _ _ (g_begins _ _ _ _ G1) (X eq_refl)) as B. pose proof (good_nonempty _ _ _ _ G1 eq_refl) as NE.
    rule; parts; finish.
  - clear X. rule; parts; finish.
Qed.

Lemma wheres_ok l ws c : ws <> [] -> goods l WhereItem ws -> good l Wheres (Sym KWhere :: commas (spelled ws) c) (VList (asts ws)).
Proof. destruct c; rule; parts; finish. Qed.

(** * Visibility *)
Lemma vis_pub_ok l : good l (Vis false) [Sym KPub] (VVar "Visibility" "Public" (node "VisibilityPublic" [VNone])).
Proof. rule; [right; compute_mask|]. parts. finish. Qed.

Lemma vis_pub_self_ok l : good l (Vis true) [Sym KPub; Sym KLeftParen; Sym KSelfIdent; Sym KRightParen]
    (VVar "Visibility" "Public" (node "VisibilityPublic" [VSome (VVar "VisibilityPublicQualifier" "SelfIdent" VUnit)])).
Proof. rule; [right; compute_mask|]. parts. finish. Qed.

Lemma vis_pub_crate_ok l : good l (Vis true) [Sym KPub; Sym KLeftParen; Sym KCrate; Sym KRightParen]
    (VVar "Visibility" "Public" (node "VisibilityPublic" [VSome (VVar "VisibilityPublicQualifier" "Crate" VUnit)])).
Proof. rule; [right; compute_mask|]. parts. finish. Qed.

Lemma vis_pub_path_ok l ps v : good l Path ps v -> starts_with KSelfIdent ps = false ->
    good l (Vis true) ([Sym KPub; Sym KLeftParen] ++ ps ++ [Sym KRightParen])
      (VVar "Visibility" "Public" (node "VisibilityPublic" [VSome (VVar "VisibilityPublicQualifier" "Path" v)])).
Proof.
  intros G X. pose proof (begins_without _ _ _ (g_begins _ _ _ _ G) X) as B. pose proof (good_nonempty _ _ _ _ G eq_refl) as NE.
  rule; [right; compute_mask|]. parts. finish.
Qed.

Lemma vis_crate_ok l : good l (Vis true) [Sym KCrate] (VVar "Visibility" "Crate" hole).
Proof. rule; [now left|]. parts. finish. Qed.

Lemma vis_either_ok l ps v : good l (Vis true) ps v -> good l (Vis false) ps v.
Proof. intros G. rule; [exact (good_extra _ _ _ _ G)|]. parts. eauto. Qed.

(** * Fields *)
Lemma named_field_ok l vs vv ns n ps v : goodo l (Vis false) vs vv -> good l Name ns n -> good l Ty ps v ->
    good l FieldNamed (vs ++ ns ++ Sym KColon :: ps) (node "StructDefinitionFieldNamed" [vv; n; v]).
Proof. rule; parts; finish. Qed.

Lemma unnamed_field_ok l vs vv ps v : goodo l (Vis true) vs vv -> good l Ty ps v -> (vs = [] -> starts_with KCrate ps = false) ->
    good l FieldUnnamed (vs ++ ps) (node "StructDefinitionFieldUnnamed" [vv; v]).
Proof.
  intros [[-> ->]|(w & -> & G)] G1 X.
  - pose proof (begins_without _ _ _ (g_begins _ _ _ _ G1) (X eq_refl)) as B. pose proof (good_nonempty _ _ _ _ G1 eq_refl) as NE.
    rule; parts; finish.
  - clear X. rule; parts; finish.
Qed.

Lemma unnamed_pub_field_ok l ps v : good l Ty ps v -> starts_with KLeftParen ps = false ->
    good l FieldUnnamed (Sym KPub :: ps)
      (node "StructDefinitionFieldUnnamed" [VSome (VVar "Visibility" "Public" (node "VisibilityPublic" [VNone])); v]).
Proof.
  intros G X. pose proof (begins_without _ _ _ (g_begins _ _ _ _ G) X) as B. pose proof (good_nonempty _ _ _ _ G eq_refl) as NE.
  rule; parts; finish.
Qed.
