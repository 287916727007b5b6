(** The parser follows the rules for words, attributes, paths and types. *)

From Coq Require Import String List NArith Arith Bool Lia.
From Verif Require Import Base Peresil Token Schema Value Nt Grammar Points Table Static Amb Sem First OutlineSpec Reads Syntax UseSpec RustSpec Rules.
Import ListNotations.
Local Open Scope string_scope.
Local Open Scope list_scope.
Local Open Scope nat_scope.

(** * Words *)
Lemma begins_word (f : tkind -> bool) m w :
  forallb (fun k => implb (f k) (subset (bit k) m)) all_tkinds = true -> f (fst w) = true -> begins m [spell_word w].
Proof.
  intros H K. rewrite forallb_forall in H. specialize (H (fst w) (all_tkinds_complete _)). rewrite K in H. exact H.
Qed.

Lemma name_ok l w : ident_kind (fst w) = true -> good l Name [spell_word w] (ident w).
Proof.
  intros K. constructor; [apply (begins_word ident_kind); [vm_compute; reflexivity|exact K]|discriminate|reflexivity|first [exact I|apply apart_one]|].
  intros toks p q R _. cbn [reads] in R. destruct R as (r & T & <-). exists (vident (snd w)). split; [|reflexivity].
  intros e. eapply sem_ident; [exact K|exact T].
Qed.

Lemma member_ok l w : member_kind (fst w) = true -> good l Member [spell_word w] (ident w).
Proof.
  intros K. constructor; [apply (begins_word member_kind); [vm_compute; reflexivity|exact K]|discriminate|reflexivity|first [exact I|apply apart_one]|].
  intros toks p q R _. cbn [reads] in R. destruct R as (r & T & <-). exists (vident (snd w)). split; [|reflexivity].
  intros e. eapply sem_member; [exact K|exact T].
Qed.

Lemma lifetime_ok l x : good l Lifetime [Word KLifetime x] (VNode "Lifetime" [hole; VNode "Ident" [VExt x]]).
Proof.
  constructor; [vm_compute; reflexivity|discriminate|reflexivity|first [exact I|apply apart_one]|].
  intros toks p q R _. cbn [reads] in R. destruct R as (r & T & <-). exists (vlifetime x). split; [|reflexivity].
  intros e. now apply sem_lifetime.
Qed.

Lemma str_ok l w : string_kind (fst w) = true -> good l Str [spell_word w] (VNode "String" [VExt (snd w); VExt (snd w)]).
Proof.
  intros K. constructor; [apply (begins_word string_kind); [vm_compute; reflexivity|exact K]|discriminate|reflexivity|exists (fst w), (snd w); auto|].
  intros toks p q R _. cbn [reads] in R. destruct R as (r & T & <-). cbn [gram].
  exists (VNode "String" [VExt (snd w); VExt (snd w)]). split; [|reflexivity].
  intros e. destruct w as [k x]. unfold string_kind in K. rewrite existsb_exists in K. destruct K as (k' & I & E).
  apply tkind_eqb_eq in E. cbn [fst] in E. subst k'. cbn [spell_word fst snd] in *.
  enter. apply sem_alt. destruct I as [<-|[<-|[]]].
  - apply alts_hit. seq; [apply sem_gets; exact T|]. seq_done.
  - eapply alts_skip; [skip T|]. apply alts_last. seq; [apply sem_gets; exact T|]. seq_done.
Qed.

(** * Paths *)
Lemma path_ok l g ws : ws <> [] -> goods l Name ws ->
  good l Path (flag g KDoubleColon ++ separated KDoubleColon (spelled ws) false) (node "Path" [VList (asts ws)]).
Proof.
  rule. parts. finish.
Qed.

(** * Types *)
Lemma ty_plain_ok l o ps v : good l (TyKind o) ps v -> good l Ty ps (node "Type" [v; VList []]).
Proof.
  destruct o; rule; parts; finish.
Qed.

Lemma ty_array_ok l ps v qs w : good l Ty ps v -> good l (Expr false) qs w ->
  good l (TyKind false) (Sym KLeftSquare :: ps ++ Sym KSemicolon :: qs ++ [Sym KRightSquare])
      (VVar "TypeKind" "Array" (node "TypeArray" [v; w])).
Proof. rule. parts. finish. Qed.

Lemma ty_slice_ok l ps v : good l Ty ps v ->
  good l (TyKind false) (Sym KLeftSquare :: ps ++ [Sym KRightSquare]) (VVar "TypeKind" "Slice" (node "TypeSlice" [v])).
Proof. rule. parts. finish. Qed.

Lemma ty_tuple_ok l tys c : goods l Ty tys ->
    good l (TyKind false) (Sym KLeftParen :: commas (spelled tys) c ++ [Sym KRightParen])
      (VVar "TypeKind" "Tuple" (node "TypeTuple" [VList (asts tys)])).
Proof. rule. parts. finish. Qed.

Lemma ty_never_ok l : good l (TyKind false) [Sym KBang] (VVar "TypeKind" "Uninhabited" hole).
Proof. rule. parts. finish. Qed.

Lemma ty_pointer_ok l (m : bool) ps v : good l Ty ps v ->
    good l (TyKind true) ([Sym KAsterisk; Sym (if m then KMut else KConst)] ++ ps)
      (VVar "TypeKind" "Pointer" (node "TypePointer" [VVar "TypePointerKind" (if m then "Mutable" else "Const") VUnit; v])).
Proof. destruct m; rule; parts; finish. Qed.

Lemma ty_reference_ok l ks kv ps v : good l RefKind ks kv -> good l Ty ps v ->
    good l (TyKind true) (ks ++ ps) (VVar "TypeKind" "Reference" (node "TypeReference" [kv; v])).
Proof. rule. parts. finish. Qed.

Lemma ty_more_ok l ps v adds o qs w : good l (TyKind false) ps v ->
    goods l (TyAdditional false) adds -> good l (TyAdditional o) qs w ->
    good l Ty (ps ++ Sym KPlus :: separated KPlus (spelled adds ++ [qs]) false) (node "Type" [v; VList (asts adds ++ [w])]).
Proof.
  destruct o; rule; rd.
  - edestruct (goods_resumed_last toks l (TyAdditional false) KPlus) with (c' := TyAdditional true) (tr := false) as (ws & HS & O);
      [reflexivity|plain|compute_mask|reflexivity|plain|eassumption|eassumption|discriminate|eassumption|eassumption|clr|].
    parts. finish.
  - edestruct (goods_resumed_last toks l (TyAdditional false) KPlus) with (c' := TyAdditional false) (tr := false) as (ws & HS & O);
      [reflexivity|plain|compute_mask|reflexivity|plain|eassumption|eassumption|discriminate|eassumption|eassumption|clr|].
    parts. finish.
Qed.

Lemma ty_dyn_ok l o ps v : good l (TyNamed o) ps v ->
  good l (TyKind o) (Sym KDyn :: ps) (VVar "TypeKind" "DynTrait" (node "TypeDynTrait" [v])).
Proof. destruct o; rule; parts; finish. Qed.

Lemma ty_impl_ok l o ps v : good l (TyNamed o) ps v ->
  good l (TyKind o) (Sym KImpl :: ps) (VVar "TypeKind" "ImplTrait" (node "TypeImplTrait" [v])).
Proof. destruct o; rule; parts; finish. Qed.

Lemma good_without k l c ps v m : good l c ps v -> begins m ps -> starts_with k ps = false -> begins (N.ldiff m (bit k)) ps.
Proof. intros _. apply begins_without. Qed.

Lemma ty_name_ok l o ps v : good l (TyNamed o) ps v -> starts_with KDefault ps = false -> starts_with KDyn ps = false ->
  good l (TyKind o) ps (VVar "TypeKind" "Named" v).
Proof.
  intros G D1 D2. pose proof (begins_without _ _ _ (begins_without _ _ _ (g_begins _ _ _ _ G) D1) D2) as B.
  pose proof (good_nonempty _ _ _ _ G eq_refl) as NE.
  destruct o; rule; parts; finish.
Qed.

Lemma ty_fn_ok l o ps v : good l (TyFunction o) ps v -> good l (TyKind o) ps (VVar "TypeKind" "Function" v).
Proof. destruct o; rule; parts; finish. Qed.

Lemma ty_for_ok l o ps v : good l (TyHrtb o) ps v -> good l (TyKind o) ps (VVar "TypeKind" "HigherRankedTraitBounds" v).
Proof. destruct o; rule; parts; finish. Qed.

Lemma ty_disambiguation_ok l ps v ts tv cs : good l Ty ps v -> goodo l AsNamed ts tv -> goods l (TyComponent false) cs ->
    good l (TyKind false)
      (Sym KLeftAngle :: ps ++ ts ++ [Sym KRightAngle] ++
       (match cs with [] => [] | _ => Sym KDoubleColon :: separated KDoubleColon (spelled cs) false end))
      (VVar "TypeKind" "Disambiguation" (node "TypeDisambiguation" [v; tv; VList (asts cs)])).
Proof.
  destruct cs as [|c cs]; rule; rd.
  - parts. finish.
  - edestruct (goods_resumed toks l (TyComponent false) KDoubleColon eq_refl) with (tr := false) (ts := c :: cs) as (ws & HS & O);
      [plain|compute_mask|eassumption|discriminate|eassumption|eassumption|clr|]. parts. finish.
Qed.

Lemma as_named_ok l o ps v : good l (TyNamed o) ps v -> good l AsNamed (Sym KAs :: ps) v.
Proof. destruct o; rule; parts; finish. Qed.

Lemma ty_add_named_ok l o ps v : good l (TyNamed o) ps v -> good l (TyAdditional o) ps (VVar "TypeAdditional" "Named" v).
Proof. destruct o; rule; parts; finish. Qed.

Lemma ty_add_life_ok l ps v : good l Lifetime ps v -> good l (TyAdditional false) ps (VVar "TypeAdditional" "Lifetime" v).
Proof. rule; parts; finish. Qed.

Lemma ref_kind_ok l xs xv m : goodo l Lifetime xs xv ->
    good l RefKind (Sym KAmpersand :: xs ++ flag m KMut) (node "TypeReferenceKind" [xv; mark m]).
Proof. destruct m; rule; parts; finish. Qed.

Lemma named_ok l g cs o ps v : goods l (TyComponent false) cs -> good l (TyComponent o) ps v ->
    good l (TyNamed o) (flag g KDoubleColon ++ separated KDoubleColon (spelled cs ++ [ps]) false)
      (node "TypeNamed" [VList (asts cs ++ [v])]).
Proof.
  intros G G'.
  destruct (begins_separated_last l _ _ _ _ _ KDoubleColon false (firstg (GNT N_typ_named_component)) G G' eq_refl eq_refl eq_refl) as [B NE]; [now destruct o|].
  assert (A : apart (separated KDoubleColon (spelled cs ++ [ps]) false)).
  { eapply apart_separated_last; [exact G|exact G'|auto|auto|reflexivity|reflexivity|compute_mask]. }
  set (all := separated KDoubleColon (spelled cs ++ [ps]) false) in *.
  assert (X : forall toks p q, reads toks p all q -> clear toks (fmask (TyNamed o)) q ->
    exists vs, (forall e err, sem toks (amb l) (tailed1_values (GTok (MK KDoubleColon) err) (GNT N_typ_named_component)) e p (SOk q (VList vs))) /\
      outlines vs = asts cs ++ [v]).
  { intros toks p q R F.
    eapply (goods_list1_last toks l (TyComponent false) KDoubleColon) with (c' := TyComponent o) (tr := false);
      [reflexivity|plain|compute_mask|reflexivity|plain|exact G|exact G'|discriminate|exact R|destruct o; clr]. }
  clearbody all. clear G G'. destruct o; (constructor;
    [ destruct g; [compute_mask|apply (begins_sub _ _ _ B); compute_mask]
    | intros E; apply app_eq_nil in E as [_ E]; congruence
    | reflexivity
    | cbn [extra]; destruct g; [apply (apart_begins _ (bit KDoubleColon)); compute_mask|exact A]
    | intros toks p q R F; cbn [follow] in F; rd;
      destruct (X _ _ _ H0 F) as (vs & HS & O); parts; finish ]).
Qed.

Lemma component_plain_ok l ms m : good l Member ms m -> good l (TyComponent false) ms (node "TypeNamedComponent" [m; VNone]).
Proof. rule; parts; finish. Qed.

Lemma component_generic_ok l ms m o ps v : good l Member ms m -> good l (TyGenerics o) ps v ->
    good l (TyComponent o) (ms ++ ps) (node "TypeNamedComponent" [m; VSome v]).
Proof. destruct o; rule; parts; finish. Qed.

Lemma generics_fn_ok l tys c : goods l Ty tys ->
    good l (TyGenerics false) (Sym KLeftParen :: commas (spelled tys) c ++ [Sym KRightParen])
      (VVar "TypeGenerics" "Function" (node "TypeGenericsFunction" [VList (asts tys); VNone])).
Proof. rule; parts; finish. Qed.

Lemma generics_fn_return_ok l tys c ps v : goods l Ty tys -> good l ReturnTy ps v ->
    good l (TyGenerics true) (Sym KLeftParen :: commas (spelled tys) c ++ Sym KRightParen :: ps)
      (VVar "TypeGenerics" "Function" (node "TypeGenericsFunction" [VList (asts tys); VSome v])).
Proof. rule; parts; finish. Qed.

Lemma generics_angle_ok l ms c : goods l TyMember ms ->
    good l (TyGenerics false) (Sym KLeftAngle :: commas (spelled ms) c ++ [Sym KRightAngle])
      (VVar "TypeGenerics" "Angle" (node "TypeGenericsAngle" [VList (asts ms)])).
Proof. rule; parts; finish. Qed.

Lemma member_equal_ok l ns n ps v : good l Name ns n -> good l Ty ps v ->
    good l TyMember (ns ++ Sym KEquals :: ps)
      (VVar "TypeGenericsAngleMember" "AssociatedType"
        (node "AssociatedType" [n; VVar "AssociatedTypeValue" "Equal" (node "AssociatedTypeValueEqual" [v])])).
Proof. rule; parts; finish. Qed.

Lemma member_bound_ok l ns n ps v : good l Name ns n -> good l Bounds ps v ->
    good l TyMember (ns ++ Sym KColon :: ps)
      (VVar "TypeGenericsAngleMember" "AssociatedType"
        (node "AssociatedType" [n; VVar "AssociatedTypeValue" "Bound" (node "AssociatedTypeValueBound" [v])])).
Proof. rule; parts; finish. Qed.

Lemma member_life_ok l ps v : good l Lifetime ps v -> good l TyMember ps (VVar "TypeGenericsAngleMember" "Lifetime" v).
Proof. rule; parts; finish. Qed.

(** A type does not start with a name and [=] or [:]. *)
Lemma ty_not_named toks a l ps v p q : good l Ty ps v -> reads toks p ps q -> clear toks (bits [KEquals; KColon]) q ->
    (exists s, forall e, sem toks a (GNT N_ident) e p (SFail s)) \/
    (exists r w, (forall e, sem toks a (GNT N_ident) e p (SOk r w)) /\ clear toks (bits [KEquals; KColon]) r).
Proof.
  intros G R C. eapply not_named; [apply (g_begins _ _ _ _ G)|exact (good_nonempty _ _ _ _ G eq_refl)|exact (good_extra _ _ _ _ G)|compute_mask|exact R|exact C].
Qed.

Lemma member_type_ok l ps v : good l Ty ps v -> good l TyMember ps (VVar "TypeGenericsAngleMember" "Type" v).
Proof.
  rule. destruct (ty_not_named toks (amb l) l ps v p q H R) as [(s & X)|(s & w & X & Y)]; [clr| |]; parts; finish.
Qed.

(** A list behind another one. *)
Ltac onto c :=
  match goal with
  | G : goods ?l c ?ts, R : reads ?t ?x (separated ?sep (spelled ?ts) ?tr) ?y,
    HS : forall e err app, bval _ _ _ _ _ -> sem ?t _ _ _ _ (SOk ?x (VList ?l0)) |- _ =>
      let w := fresh "w" in let H := fresh "HS" in let O := fresh "O" in
      let D := fresh "D" in assert (D : N.land (fmask c) (could_tbl sep) = 0%N) by compute_mask;
      destruct (goods_list_onto t l c sep eq_refl (fun _ H => H) D l0 ts tr x y G R) as (w & H & O); [clr|]; clear D
  end.

Lemma function_ok l qs qv args vas c : good l Qualifiers qs qv -> goods l TyArg args -> goods l TyVariadic vas ->
    good l (TyFunction false)
      (qs ++ [Sym KFn; Sym KLeftParen] ++ commas (spelled args ++ spelled vas) c ++ [Sym KRightParen])
      (node "TypeFunction" [qv; VList (asts args ++ asts vas); VNone]).
Proof.
  rule. rd; tk; use_all. onto TyVariadic. names. eexists; split; [intros ?; run|]. outl.
Qed.

Lemma function_return_ok l qs qv args vas c ps v : good l Qualifiers qs qv -> goods l TyArg args -> goods l TyVariadic vas -> good l ReturnTy ps v ->
    good l (TyFunction true)
      (qs ++ [Sym KFn; Sym KLeftParen] ++ commas (spelled args ++ spelled vas) c ++ Sym KRightParen :: ps)
      (node "TypeFunction" [qv; VList (asts args ++ asts vas); VSome v]).
Proof.
  rule. rd; tk; use_all. onto TyVariadic. names. eexists; split; [intros ?; run|]. outl.
Qed.

Lemma variadic_ok l : good l TyVariadic [Sym KTriplePeriod] (VVar "TypeFunctionArgument" "Variadic" hole).
Proof. rule; parts; finish. Qed.

Lemma qualifiers_ok l d c u a :
    good l Qualifiers (flag d KDefault ++ flag c KConst ++ flag u KUnsafe ++ flag a KAsync)
      (node "FunctionQualifiers" [mark d; mark c; mark u; mark a; VNone; VNone]).
Proof. rule; [split; [apt|destruct d, c, u, a; first [exact I|compute_mask]]|]. parts. finish. Qed.

Lemma qualifiers_extern_ok l d c u a ss sv : goodo l Str ss sv ->
    good l Qualifiers (flag d KDefault ++ flag c KConst ++ flag u KUnsafe ++ flag a KAsync ++ Sym KExtern :: ss)
      (node "FunctionQualifiers" [mark d; mark c; mark u; mark a; VSome hole; sv]).
Proof.
  intros G. assert (E : ss = [] \/ exists k x, ss = [Word k x] /\ string_kind k = true).
  { destruct G as [[-> _]|(w & _ & G)]; [now left|right; exact (good_extra _ _ _ _ G)]. }
  rule; [split; [apt|destruct d, c, u, a; first [exact I|exact E|compute_mask]]|]. parts. finish.
Qed.

Lemma arg_type_ok l ps v : good l Ty ps v ->
    good l TyArg ps (VVar "TypeFunctionArgument" "Named" (node "TypeFunctionArgumentNamed" [VNone; v])).
Proof.
  rule. destruct (ty_not_named toks (amb l) l ps v p q H R) as [(s & X)|(s & w & X & Y)]; [clr| |]; parts; finish.
Qed.

Lemma arg_named_ok l ns n ps v : good l Name ns n -> good l Ty ps v ->
    good l TyArg (ns ++ Sym KColon :: ps)
      (VVar "TypeFunctionArgument" "Named" (node "TypeFunctionArgumentNamed" [VSome n; v])).
Proof. rule; parts. finish. Qed.

Lemma returns_ok l ps v : good l Ty ps v -> good l ReturnTy (Sym KThinArrow :: ps) v.
Proof. rule; parts. finish. Qed.

Lemma for_lives_ok l xs c : goods l Lifetime xs ->
    good l Hrtb ([Sym KFor; Sym KLeftAngle] ++ commas (spelled xs) c ++ [Sym KRightAngle]) (VList (asts xs)).
Proof. rule; parts. finish. Qed.

Lemma hrtb_named_ok l hs hv o ps v : good l Hrtb hs hv -> good l (TyNamed o) ps v ->
    good l (TyHrtb o) (hs ++ ps)
      (node "TypeHigherRankedTraitBounds" [hv; VVar "TypeHigherRankedTraitBoundsChild" "Named" v]).
Proof. destruct o; rule; parts; finish. Qed.

Lemma hrtb_function_ok l hs hv o ps v : good l Hrtb hs hv -> good l (TyFunction o) ps v -> starts_with KDefault ps = false ->
    good l (TyHrtb o) (hs ++ ps)
      (node "TypeHigherRankedTraitBounds" [hv; VVar "TypeHigherRankedTraitBoundsChild" "Function" v]).
Proof.
  intros H G D. pose proof (begins_without _ _ _ (g_begins _ _ _ _ G) D) as B.
  pose proof (good_nonempty _ _ _ _ G eq_refl) as NE.
  destruct o; rule; parts; finish.
Qed.

Lemma hrtb_reference_ok l hs hv ks kv ps v : good l Hrtb hs hv -> good l RefKind ks kv -> good l Ty ps v ->
    good l (TyHrtb true) (hs ++ ks ++ ps)
      (node "TypeHigherRankedTraitBounds"
        [hv; VVar "TypeHigherRankedTraitBoundsChild" "Reference" (node "TypeReference" [kv; v])]).
Proof. rule; parts; finish. Qed.

(** * Paths *)
Lemma path_component_plain_ok l ms m : good l Member ms m -> good l PathComponent ms (node "PathComponent" [m; VNone]).
Proof. rule. destruct F as [F|(r & T & F)]; parts; finish. Qed.

Lemma path_component_turbofish_ok l ms m xs tys c : good l Member ms m -> goods l Lifetime xs -> goods l Ty tys ->
    good l PathComponent
      (ms ++ [Sym KDoubleColon; Sym KLeftAngle] ++ commas (spelled xs ++ spelled tys) c ++ [Sym KRightAngle])
      (node "PathComponent" [m; VSome (node "Turbofish" [VList (asts xs); VList (asts tys)])]).
Proof. rule; parts. finish. Qed.

Lemma pathed_ok l g cs : cs <> [] -> goods l PathComponent cs ->
    good l PathedIdent (flag g KDoubleColon ++ separated KDoubleColon (spelled cs) false)
      (node "PathedIdent" [VList (asts cs)]).
Proof.
  rule.
  { destruct g; cbn [flag app]; [apply (apart_begins _ (bit KDoubleColon)); compute_mask|].
    eapply apart_separated; [eassumption|auto|reflexivity|compute_mask]. }
  rd.
  match goal with H : reads _ _ (separated _ _ _) _ |- _ => edestruct (path_list1 toks l cs) as (vs & HS & O); [eassumption|eassumption|exact H|clr|] end.
  parts. finish.
Qed.
