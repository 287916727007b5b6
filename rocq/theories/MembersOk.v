(** The parser follows the rules for functions and the members of traits, implementations and foreign blocks. *)

From Coq Require Import String List NArith Arith Bool Lia.
From Verif Require Import Base Peresil Token Schema Value Nt Grammar Points Table Static Amb Sem First OutlineSpec Reads Syntax UseSpec UseOk RustSpec Rules NestedOk TypesOk BoundsOk ItemsOk.
Import ListNotations.
Local Open Scope string_scope.
Local Open Scope list_scope.
Local Open Scope nat_scope.

(** * Attributes within an item *)
Lemma inner_item_ok l ps v : good l InnerAttribute ps v -> good l (With "Item" Item) ps (node "Attributed<Item>" [VList []; item "AttributeContaining" v]).
Proof.
  intros G. pose proof (good_extra _ _ _ _ G) as X. cbn [extra] in X. pose proof (good_nonempty _ _ _ _ G eq_refl) as NE.
  pose proof (g_begins _ _ _ _ G) as B.
  constructor; [apply (begins_sub _ _ _ B); compute_mask|congruence|reflexivity|exact I|].
  intros toks p q R F. rejections.
  assert (HS : forall e, sem toks (amb l) (GMany (GNT N_attribute)) e p (SOk p (VList []))).
  { intros e. apply sem_many. eapply manys_nil. apply HF. }
  use_all. names. finish.
Qed.

(** * Implementations *)
Lemma impl_for_ok l ps v : good l Ty ps v -> good l ImplTarget ps (VVar "ImplOfTraitType" "Type" v).
Proof. rule. parts. finish. Qed.

Lemma impl_for_all_ok l : good l ImplTarget [Sym KDoublePeriod] (VVar "ImplOfTraitType" "Wildcard" hole).
Proof. rule. parts. finish. Qed.

Lemma impl_inherent_ok l ps v : good l Ty ps v -> starts_with KBang ps = false ->
    good l ImplSubject ps (VVar "ImplKind" "Inherent" (node "ImplOfInherent" [v])).
Proof.
  intros G S. pose proof (begins_without _ _ _ (g_begins _ _ _ _ G) S) as B. pose proof (good_nonempty _ _ _ _ G eq_refl) as NE.
  rule. parts. finish.
Qed.

Lemma impl_trait_ok l (b : bool) ps v qs w : good l Ty ps v -> (b = false -> starts_with KBang ps = false) -> good l ImplTarget qs w ->
    good l ImplSubject (flag b KBang ++ ps ++ Sym KFor :: qs)
      (VVar "ImplKind" "Trait" (node "ImplOfTrait" [mark b; v; w])).
Proof.
  intros G S G'. pose proof (good_nonempty _ _ _ _ G eq_refl) as NE.
  destruct b; [|specialize (S eq_refl); pose proof (begins_without _ _ _ (g_begins _ _ _ _ G) S) as B]; cbn [flag app mark].
  all: rule; parts; finish.
Qed.

Lemma impl_const_ok l vs vv ns n ps v es e : goodo l (Vis false) vs vv -> good l Name ns n -> good l Ty ps v -> good l (Expr false) es e ->
    good l ImplMember (vs ++ Sym KConst :: ns ++ Sym KColon :: ps ++ Sym KEquals :: es ++ [Sym KSemicolon])
      (VVar "ImplMember" "Const" (node "ImplConst" [vv; n; v; e])).
Proof. rule. parts. finish. Qed.

Lemma impl_fn_ok l hs h bs b : good l FnHeader hs h -> good l Block bs b ->
    good l ImplMember (hs ++ bs) (VVar "ImplMember" "Function" (node "ImplFunction" [h; b])).
Proof.
  intros G GB. destruct (good_extra _ _ _ _ G) as (_ & _ & _ & X).
  rule. rd. rejections. tk. use_all. names. finish.
Qed.

Lemma impl_type_ok l ns n ps v : good l Name ns n -> good l Ty ps v ->
    good l ImplMember (Sym KType :: ns ++ Sym KEquals :: ps ++ [Sym KSemicolon])
      (VVar "ImplMember" "Type" (node "ImplType" [n; v])).
Proof. rule. rd. destruct (no_qualifiers toks l p) as (w & HS); [clr|]. tk. use_all. names. finish. Qed.

Lemma impl_macro_ok l ps v : good l MacroItem ps v -> macro_start ps = true ->
    good l ImplMember ps (VVar "ImplMember" "MacroCall" v).
Proof. intros G S. rule. macro_heads l ps G S [N_impl_const; N_impl_function; N_impl_type]. parts. finish. Qed.

(** * Traits *)
Lemma trait_fn_ok l hs h bs b : good l TraitFnHeader hs h -> good l TraitFnBody bs b ->
    good l TraitMember (hs ++ bs) (VVar "TraitMember" "Function" (node "TraitMemberFunction" [h; b])).
Proof. rule. parts. finish. Qed.

Lemma trait_fn_default_ok l ps v : good l Block ps v -> good l TraitFnBody ps (VSome v).
Proof. rule. parts. finish. Qed.

Lemma trait_fn_required_ok l : good l TraitFnBody [Sym KSemicolon] VNone.
Proof. rule. parts. finish. Qed.

Lemma trait_type_ok l ns n bs b ds d : good l Name ns n -> goodo l BoundsDecl bs b -> goodo l TyDefault ds d ->
    good l TraitMember (Sym KType :: ns ++ bs ++ ds ++ [Sym KSemicolon])
      (VVar "TraitMember" "Type" (node "TraitMemberType" [n; b; d])).
Proof. rule. rd. destruct (no_qualifiers toks l p) as (w & HS); [clr|]. tk. use_all. names. finish. Qed.

Lemma trait_const_ok l ns n ps v es e : good l Name ns n -> good l Ty ps v -> goodo l (Assigned OfConst) es e ->
    good l TraitMember (Sym KConst :: ns ++ Sym KColon :: ps ++ es ++ [Sym KSemicolon])
      (VVar "TraitMember" "Const" (node "TraitMemberConst" [n; v; e])).
Proof.
  rule. rd. tk.
  assert (Q : exists w, forall e, sem toks (amb l) (GNT N_function_qualifiers) e p (SOk x w)) by (eexists; intros ?; run).
  destruct Q as (w & HS). use_all. names. finish.
Qed.

Lemma trait_macro_ok l ps v : good l MacroItem ps v -> macro_start ps = true ->
    good l TraitMember ps (VVar "TraitMember" "MacroCall" v).
Proof. intros G S. rule. macro_heads l ps G S [N_trait_member_function; N_trait_member_type; N_trait_member_const]. parts. finish. Qed.

(** * Foreign blocks *)
Lemma extern_static_ok l vs vv m ns n ps v : goodo l (Vis false) vs vv -> good l Name ns n -> good l Ty ps v ->
    good l ExternMember (vs ++ Sym KStatic :: flag m KMut ++ ns ++ Sym KColon :: ps ++ [Sym KSemicolon])
      (VVar "ExternBlockMember" "Static" (node "ExternBlockMemberStatic" [vv; mark m; n; v])).
Proof. rule. parts. finish. Qed.

Lemma extern_type_ok l vs vv ns n : goodo l (Vis false) vs vv -> good l Name ns n ->
    good l ExternMember (vs ++ Sym KType :: ns ++ [Sym KSemicolon])
      (VVar "ExternBlockMember" "Type" (node "ExternBlockMemberType" [vv; n])).
Proof. rule. parts. finish. Qed.

Lemma extern_fn_ok l vs vv ns n gs gv args a rs r ws wv : goodo l (Vis false) vs vv -> good l Name ns n -> goodo l Generics gs gv ->
    good l ExternArgs args a -> goodo l ReturnTy rs r -> goodo l Wheres ws wv ->
    good l ExternMember (vs ++ Sym KFn :: ns ++ gs ++ args ++ rs ++ ws ++ [Sym KSemicolon])
      (VVar "ExternBlockMember" "Function" (node "ExternBlockMemberFunction" [vv; n; gv; a; r; or_nil wv])).
Proof. intros V N Ge A T [[-> ->]|(w & -> & G)]; rule; parts; finish. Qed.

Lemma extern_args_ok l args c : goods l ExternArg args ->
    good l ExternArgs (Sym KLeftParen :: commas (spelled args) c ++ [Sym KRightParen]) (VList (asts args)).
Proof. rule. parts. finish. Qed.

Lemma extern_arg_ok l ns n ps v : good l Pattern ns n -> good l Ty ps v ->
    good l ExternArg (ns ++ Sym KColon :: ps)
      (VVar "ExternBlockMemberFunctionArgument" "Named" (node "ExternBlockMemberFunctionArgumentNamed" [n; v])).
Proof. rule. parts. finish. Qed.

Lemma extern_variadic_ok l : good l ExternArg [Sym KTriplePeriod]
    (VVar "ExternBlockMemberFunctionArgument" "Variadic" (VNode "ExternBlockMemberFunctionArgumentVariadic" [hole])).
Proof. rule. parts. finish. Qed.

(** * Functions *)
Lemma arg_of_ok l ns n ps v : good l Pattern ns n -> good l Ty ps v ->
    good l Arg (ns ++ Sym KColon :: ps) (VVar "Argument" "Named" (node "NamedArgument" [n; v])).
Proof.
  intros G GT. rule.
  - intros toks p q R _. rd. pose proof (proj2 (good_extra _ _ _ _ G) _ (or_introl eq_refl)) as X. rejections. eauto.
  - parts. finish.
Qed.

Lemma trait_arg_ok l ns n ps v : good l Pattern ns n -> good l Ty ps v ->
    good l TraitArg (ns ++ Sym KColon :: ps) (VVar "TraitImplArgument" "Named" (node "TraitImplArgumentNamed" [VSome n; v])).
Proof.
  intros G GT. rule.
  - intros toks p q R _. rd. pose proof (proj2 (good_extra _ _ _ _ G) _ (or_introl eq_refl)) as X. rejections. eauto.
  - parts. finish.
Qed.

Lemma self_value_ok l m x c :
    good l (SelfArg c) (flag m KMut ++ Word KSelfIdent x :: flag c KComma)
      (VVar "SelfArgument" "Shorthand" (node "SelfArgumentShorthand"
        [if m then VSome (VVar "SelfArgumentShorthandQualifier" "Mut" hole) else VNone; VNode "Ident" [VExt x]])).
Proof. destruct m, c; cbn [flag app]; rule; parts; finish. Qed.

Lemma self_reference_ok l ks k x c : good l RefKind ks k ->
    good l (SelfArg c) (ks ++ Word KSelfIdent x :: flag c KComma)
      (VVar "SelfArgument" "Shorthand" (node "SelfArgumentShorthand"
        [VSome (VVar "SelfArgumentShorthandQualifier" "Reference" k); VNode "Ident" [VExt x]])).
Proof. destruct c; cbn [flag app]; rule; parts; finish. Qed.

Lemma self_typed_ok l m x ps v c : good l Ty ps v ->
    good l (SelfArg c) (flag m KMut ++ Word KSelfIdent x :: Sym KColon :: ps ++ flag c KComma)
      (VVar "SelfArgument" "Longhand" (node "SelfArgumentLonghand" [mark m; VNode "Ident" [VExt x]; v])).
Proof. destruct c; cbn [flag app]; rule; parts; finish. Qed.

Lemma no_self toks l c args tr p q : c = Arg \/ c = TraitArg -> goods l c args -> reads toks p (commas (spelled args) tr) q ->
  clear toks (firstg (GNT N_self_argument)) q -> exists s, forall e, sem toks (amb l) (GNT N_self_argument) e p (SFail s).
Proof.
  intros E G R C. destruct G as [|[ps v] args G _].
  - cbn in R. subst q. eexists. intros e. cannot.
  - assert (X : rejected l (GNT N_self_argument) 0 ps).
    { pose proof (good_extra _ _ _ _ G) as X. destruct E as [-> | ->]; exact X. }
    assert (Y : exists r, reads toks p ps r).
    { cbn [spelled map fst commas separated] in R. destruct (map fst args) in R; apply reads_app in R as (r & R & _); eauto. }
    destruct Y as (r & Y). apply (X toks p r Y). now apply clear_zero.
Qed.

Lemma outline_list_cons v l r rs : outline v = r -> is_whitespace r = false -> outlines l = rs -> outline (VList (v :: l)) = VList (r :: rs).
Proof. intros A B C. exact (f_equal VList (outlines_cons v l r rs A B C)). Qed.

(** The arguments behind [self]. *)
Ltac none := try match goal with H : reads _ _ (separated _ (spelled []) _) _ |- _ => cbn [spelled map separated reads] in H; subst end.
Ltac onto_self c var :=
  match goal with
  | G : goods ?l c ?ts, R : reads ?t ?x (separated ?sep (spelled ?ts) ?tr) ?y, HS : forall e, sem ?t _ (GNT N_self_argument) e _ (SOk ?x ?v) |- _ =>
      let w := fresh "w" in let H := fresh "HS" in let O := fresh "O" in
      let D := fresh "D" in assert (D : N.land (fmask c) (could_tbl sep) = 0%N) by compute_mask;
      destruct (goods_list_onto t l c sep eq_refl (fun _ H => H) D [VVar var "SelfArgument" v] ts tr x y G R) as (w & H & O); [clr|]; clear D
  | G : goods ?l c [], HS : forall e, sem ?t _ (GNT N_self_argument) e _ (SOk ?x ?v) |- _ =>
      let w := fresh "w" in let H := fresh "HS" in let O := fresh "O" in
      let D := fresh "D" in assert (D : N.land (fmask c) (could_tbl KComma) = 0%N) by compute_mask;
      destruct (goods_list_onto t l c KComma eq_refl (fun _ H => H) D [VVar var "SelfArgument" v] [] false x x G eq_refl) as (w & H & O); [clr|]; clear D
  end.

Lemma args_plain_ok l args c : goods l Arg args ->
    good l Args (Sym KLeftParen :: commas (spelled args) c ++ [Sym KRightParen]) (VList (asts args)).
Proof.
  rule. rd. match goal with R : reads toks ?x (separated _ (spelled args) _) ?y |- _ =>
    destruct (no_self toks l Arg args c x y) as (s & N); [auto|assumption|exact R|clr|] end.
  tk. use_all. names. finish.
Qed.

Lemma args_self_ok l ss s args c : good l (SelfArg (match args with [] => c | _ => true end)) ss s -> goods l Arg args ->
    good l Args (Sym KLeftParen :: ss ++ commas (spelled args) c ++ [Sym KRightParen])
      (VList (VVar "Argument" "SelfArgument" s :: asts args)).
Proof.
  destruct args as [|a args]; [destruct c|]; rule.
  all: rd; none; tk; use_all; names; onto_self Arg "Argument"; names.
  all: eexists; split; [intros ?; run|cbn [app]; apply outline_list_cons; [outl|reflexivity|assumption]].
Qed.

Lemma trait_args_plain_ok l args c : goods l TraitArg args ->
    good l TraitArgs (Sym KLeftParen :: commas (spelled args) c ++ [Sym KRightParen]) (VList (asts args)).
Proof.
  rule. rd. match goal with R : reads toks ?x (separated _ (spelled args) _) ?y |- _ =>
    destruct (no_self toks l TraitArg args c x y) as (s & N); [auto|assumption|exact R|clr|] end.
  tk. use_all. names. finish.
Qed.

Lemma trait_args_self_ok l ss s args c : good l (SelfArg (match args with [] => c | _ => true end)) ss s -> goods l TraitArg args ->
    good l TraitArgs (Sym KLeftParen :: ss ++ commas (spelled args) c ++ [Sym KRightParen])
      (VList (VVar "TraitImplArgument" "SelfArgument" s :: asts args)).
Proof.
  destruct args as [|a args]; [destruct c|]; rule.
  all: rd; none; tk; use_all; names; onto_self TraitArg "TraitImplArgument"; names.
  all: eexists; split; [intros ?; run|cbn [app]; apply outline_list_cons; [outl|reflexivity|assumption]].
Qed.

(** What looks like a function is nothing else. *)
Lemma header_only toks l vs vv qs qv p x y z : goodo l (Vis false) vs vv -> good l Qualifiers qs qv ->
  reads toks p vs x -> reads toks x qs y -> takes toks y (Sym KFn) z ->
  forall n, In n [N_p_const; N_extern_crate; N_extern_block; N_impl_const] ->
  exists s, forall e, sem toks (amb l) (GNT n) e p (SFail s).
Proof.
  intros V Q R1 R2 T n I.
  assert (HV : exists w, forall e, sem toks (amb l) (GOpt (GNT N_visibility)) e p (SOk x w)).
  { tk. use_all. names. eauto. }
  destruct HV as (w & HV). destruct (good_extra _ _ _ _ Q) as (_ & E).
  assert (D : starts_with KConst qs = false /\ starts_with KExtern qs = false \/
    (exists r, qs = Sym KConst :: r /\ begins (bits [KUnsafe; KAsync; KExtern]) r) \/
    (exists r, qs = Sym KExtern :: r /\ (r = [] \/ exists k x, r = [Word k x] /\ string_kind k = true))).
  { destruct qs as [|[[]| | |] qs]; try now destruct E.
    all: first [now left|right; left; eauto; fail|right; right; eauto]. }
  destruct D as [(D1 & D2)|[(r & -> & B)|(r & -> & [-> |(k & x' & -> & K)])]].
  - pose proof (begins_without _ _ _ (begins_without _ _ _ (g_begins _ _ _ _ Q) D1) D2) as B.
    destruct V as [[-> ->]|(v & -> & GV)]; [cbn [reads] in R1; subst|].
    all: destruct I as [<-|[<-|[<-|[<-|[]]]]]; eexists; intros e; fails.
  - destruct V as [[-> ->]|(v & -> & GV)]; [cbn [reads] in R1; subst|]; rd; tk.
    all: destruct I as [<-|[<-|[<-|[<-|[]]]]]; eexists; intros e; fails.
  - destruct V as [[-> ->]|(v & -> & GV)]; [cbn [reads] in R1; subst|]; rd; tk.
    all: destruct I as [<-|[<-|[<-|[<-|[]]]]]; eexists; intros e; fails.
  - pose proof (str_ok l (k, x') K) as GS. cbn [spell_word fst snd] in GS.
    assert (R3 : exists x1 x2, takes toks x (Sym KExtern) x1 /\ reads toks x1 [Word k x'] x2 /\ takes toks x2 (Sym KFn) z).
    { destruct R2 as (x1 & T1 & R2). exists x1, y. auto. }
    destruct R3 as (x1 & x2 & T1 & R3 & T2). clear T R2 y.
    destruct V as [[-> ->]|(v & -> & GV)]; [cbn [reads] in R1; subst|]; tk; use_all; names.
    all: destruct I as [<-|[<-|[<-|[<-|[]]]]]; eexists; intros e; fails.
Qed.

Lemma header_ok l vs vv qs qv ns n gs gv args a rs r ws wv : goodo l (Vis false) vs vv -> good l Qualifiers qs qv -> good l Name ns n ->
    goodo l Generics gs gv -> good l Args args a -> goodo l ReturnTy rs r -> goodo l Wheres ws wv ->
    good l FnHeader (vs ++ qs ++ Sym KFn :: ns ++ gs ++ args ++ rs ++ ws)
      (node "FunctionHeader" [vv; qv; n; gv; a; r; or_nil wv]).
Proof.
  intros V Q N Ge A T [[-> ->]|(w & -> & G)]; rule.
  1, 3: repeat split; intros toks p q R _; rd; eapply header_only; eauto; cbn; tauto.
  all: parts; finish.
Qed.

Lemma trait_header_ok l vs vv qs qv ns n gs gv args a rs r ws wv : goodo l (Vis false) vs vv -> good l Qualifiers qs qv -> good l Name ns n ->
    goodo l Generics gs gv -> good l TraitArgs args a -> goodo l ReturnTy rs r -> goodo l Wheres ws wv ->
    good l TraitFnHeader (vs ++ qs ++ Sym KFn :: ns ++ gs ++ args ++ rs ++ ws)
      (node "TraitImplFunctionHeader" [vv; qv; n; gv; a; r; or_nil wv]).
Proof.
  intros V Q N Ge A T [[-> ->]|(w & -> & G)]; rule; parts; finish.
Qed.
