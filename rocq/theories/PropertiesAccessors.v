(** Property C60: the generated methods tell the variants of the enums apart, and every
    node has its extent. *)

From Coq Require Import String Ascii List Bool Arith NArith Lia.
From Verif Require Import Base Peresil Token Tokenizer TokenizerSpec Schema Value Grammar Lib Items FileToks LibOk FileSpec SpanSpec Extents Accessors.
From Verif Require SpansOk Account PropertiesSpans.
Import ListNotations.
Local Open Scope string_scope.
Local Open Scope list_scope.
Local Open Scope nat_scope.

(** ** Specification *)

(** [v] is the variant [x] of the enum [e]. *)
Definition is_variant (e x : string) (v : val) : Prop := exists p, v = VVar e x p.

(** The names of the variants of [e]. *)
Definition variants (e : string) : list string := match enum_variants e with Some vs => map fst vs | None => [] end.

(** The extent stored in a node: the field [extent] of a struct; for an enum, that of
    what is in it. *)
Inductive stored : val -> extent -> Prop :=
| stored_itself e : stored (VExt e) e
| stored_struct k fs fields i e : struct_fields k = Some fields ->
    nth_error (map field_name fields) i = Some "extent" -> nth_error fs i = Some (VExt e) -> stored (VNode k fs) e
| stored_enum k x p e : stored p e -> stored (VVar k x p) e.

(** The type of a node. *)
Definition type_of (v : val) : option string := match v with VNode k _ | VVar k _ _ => Some k | _ => None end.

(** ** Names *)

Lemma lowercase_cases c : is_lowercase c = true \/ is_lowercase c = false /\ (is_lowercase (to_lowercase c) = true -> c = ascii_of_N (N_of_ascii (to_lowercase c) - 32)) /\
  (is_lowercase (to_lowercase c) = false -> to_lowercase c = c).
Proof. destruct c as [[] [] [] [] [] [] [] []]; vm_compute; intuition congruence. Qed.
Lemma to_lowercase_inj c d : is_lowercase c = false -> is_lowercase d = false -> to_lowercase c = to_lowercase d -> c = d.
Proof.
  intros C D E. destruct (lowercase_cases c) as [H|(_ & C1 & C2)]; [congruence|]. destruct (lowercase_cases d) as [H|(_ & D1 & D2)]; [congruence|].
  rewrite E in C1, C2. destruct (is_lowercase (to_lowercase d)); [|exact (eq_trans (eq_sym (C2 eq_refl)) (D2 eq_refl))].
  exact (eq_trans (C1 eq_refl) (eq_sym (D1 eq_refl))).
Qed.

(** Different variants have methods of different names. *)
Theorem C60_names : forall x y, camelcase_to_snake_case x = camelcase_to_snake_case y -> x = y.
Proof.
  induction x as [|c x IH]; intros [|d y]; cbn [camelcase_to_snake_case]; try (now destruct (is_lowercase _)); [reflexivity|].
  destruct (is_lowercase c) eqn:C, (is_lowercase d) eqn:D; intros E; injection E.
  - intros E2 ->. f_equal. auto.
  - intros _ ->. discriminate C.
  - intros _ <-. discriminate D.
  - intros E2 E1. apply to_lowercase_inj in E1 as ->; auto. f_equal. auto.
Qed.

Lemma append_inj p x y : (p ++ x)%string = (p ++ y)%string -> x = y.
Proof. induction p as [|c p IH]; cbn; [auto|]. intros E. injection E. auto. Qed.

Lemma variant_found prefix e x : In x (variants e) -> variant_of prefix e (prefix ++ camelcase_to_snake_case x) = Some x.
Proof.
  unfold variants, variant_of. destruct (enum_variants e) as [vs|]; [|intros []]. induction (map fst vs) as [|y l IH]; [intros []|].
  cbn [find]. destruct (String.eqb_spec (prefix ++ camelcase_to_snake_case y) (prefix ++ camelcase_to_snake_case x)) as [E|N].
  - intros _. apply append_inj, C60_names in E. now subst.
  - intros [->|I]; [congruence|auto].
Qed.

(** ** Telling the variants apart *)

Lemma typed_variant v e : typed v (TN e) -> decomposed e = true -> exists x p t, v = VVar e x p /\ In x (variants e) /\
  assoc x (match enum_variants e with Some vs => vs | None => [] end) = Some (Some t) /\ typed p t.
Proof.
  assert (NS : forallb (fun d => negb (decomposed (fst d)) || match struct_fields (fst d) with None => true | _ => false end) enums = true) by (vm_compute; reflexivity).
  assert (NU : forallb (fun d => negb (decomposed (fst d)) || match enum_variants (fst d) with Some vs => forallb (fun x => match snd x with Some _ => true | None => false end) vs | _ => false end) enums = true) by (vm_compute; reflexivity).
  intros T D. pose proof D as D'. unfold decomposed in D'. apply andb_true_iff in D' as [D' _]. apply existsb_exists in D' as (d & I & Q). apply String.eqb_eq in Q as ->.
  rewrite forallb_forall in NS, NU. specialize (NS _ I). specialize (NU _ I). rewrite D in NS, NU. cbn [negb orb] in NS, NU.
  inversion T as [| | | | | | | | | |k fs fields F Tf|en x p vs t V A Tp|en x vs V A]; subst.
  - rewrite F in NS. discriminate.
  - exists x, p, t. rewrite V. repeat split; auto. unfold variants. rewrite V. apply SpansOk.assoc_in in A. apply (in_map fst) in A. exact A.
  - rewrite V in NU. apply SpansOk.assoc_in in A. rewrite forallb_forall in NU. specialize (NU _ A). discriminate.
Qed.

(** [is_*] answers [true] exactly for the values of its variant. *)
Theorem C60_is : forall e x v, decomposed e = true -> In x (variants e) -> typed v (TN e) ->
  exists b, call_is e ("is" ++ camelcase_to_snake_case x) v = Some b /\ (b = true <-> is_variant e x v).
Proof.
  intros e x v D I T. unfold call_is. rewrite (variant_found _ _ _ I). destruct (typed_variant v e T D) as (y & p & t & -> & _). eexists. split; [reflexivity|].
  unfold is_variant. split; [intros H; apply String.eqb_eq in H as ->; eauto|]. intros [q [= -> _]]. apply String.eqb_refl.
Qed.

(** Exactly one of the [is_*] of an enum answers [true]. *)
Theorem C60_exactly_one : forall e v, decomposed e = true -> typed v (TN e) ->
  exists x, In x (variants e) /\ forall y, In y (variants e) ->
    call_is e ("is" ++ camelcase_to_snake_case y) v = Some true <-> y = x.
Proof.
  intros e v D T. destruct (typed_variant v e T D) as (x & p & t & -> & I & _). exists x. split; [exact I|]. intros y Iy.
  unfold call_is. rewrite (variant_found _ _ _ Iy). split.
  - intros [= H]. now apply String.eqb_eq in H.
  - intros ->. now rewrite String.eqb_refl.
Qed.

(** [as_*] and [into_*] give what is in the variant, of the type of the declaration, and
    nothing for other variants. *)
Theorem C60_as_into : forall e x v, decomposed e = true -> In x (variants e) -> typed v (TN e) ->
  exists r t, call_as e ("as" ++ camelcase_to_snake_case x) v = Some r /\ call_into e ("into" ++ camelcase_to_snake_case x) v = Some r /\
    (forall p, r = Some p <-> v = VVar e x p) /\
    In (x, Some t) (match enum_variants e with Some vs => vs | None => [] end) /\ (forall p, r = Some p -> typed p t).
Proof.
  intros e x v D I T. unfold call_as, call_into, call_payload. rewrite !(variant_found _ _ _ I).
  destruct (typed_variant v e T D) as (y & p & t & -> & Iy & A & Tp). destruct (String.eqb_spec x y) as [->|N].
  - eexists. exists t. split; [reflexivity|]. split; [reflexivity|]. split; [intros q; split; congruence|]. split; [now apply SpansOk.assoc_in in A|]. intros q [= <-]. exact Tp.
  - assert (NU : forallb (fun d => negb (decomposed (fst d)) || match enum_variants (fst d) with Some vs => forallb (fun x => match snd x with Some _ => true | None => false end) vs | _ => false end) enums = true) by (vm_compute; reflexivity).
    pose proof D as D'. unfold decomposed in D'. apply andb_true_iff in D' as [D' _]. apply existsb_exists in D' as (d & J & Q). apply String.eqb_eq in Q as ->.
    rewrite forallb_forall in NU. specialize (NU _ J). rewrite D in NU. cbn [negb orb] in NU. unfold variants in I.
    destruct (enum_variants (fst d)) as [vs|]; [|discriminate]. rewrite forallb_forall in NU. apply in_map_iff in I as ([x' [u|]] & <- & I);
      [|specialize (NU _ I); discriminate]. eexists. exists u. split; [reflexivity|]. split; [reflexivity|]. split; [intros q; split; congruence|]. split; [exact I|]. discriminate.
Qed.

(** ** Extents *)

Definition rooted (t : ty) : bool := match t with TExt => true | TN k => has_extent k | _ => false end.
Lemma structs_rooted : forallb (fun d => String.eqb (fst d) "File" ||
  match struct_fields (fst d), enum_variants (fst d) with
  | Some ((f, TExt, _) :: fields), None => String.eqb f "extent" && forallb (fun g => negb (String.eqb (field_name g) "extent")) fields
  | _, _ => false
  end) structs = true.
Proof. vm_compute. reflexivity. Qed.
Lemma enums_rooted : forallb (fun d => negb (decomposed (fst d) && negb (existsb (String.eqb (fst d)) extentless_enums)) ||
  match struct_fields (fst d), enum_variants (fst d) with
  | None, Some vs => forallb (fun x => match snd x with Some t => rooted t | None => false end) vs
  | _, _ => false
  end) enums = true.
Proof. vm_compute. reflexivity. Qed.

Lemma rooted_extent v : forall t, typed v t -> rooted t = true ->
  exists e, extent_of v = Some e /\ In e (extents v) /\ forall e', stored v e' <-> e' = e.
Proof.
  induction v as [e|b|q|q|q| | |v IH|l IH|a b IHa IHb|k fs IH|en vn x IH] using val_ind'; intros t T R;
    inversion T as [| | | | | | | | | |k' fs' fields F Tf|en' vn' x' vs u V A Tx|en' vn' vs V A]; subst; try discriminate R; cbn [rooted] in R.
  - exists e. split; [reflexivity|]. split; [now left|]. intros e'. split; [intros S; now inversion S|intros ->; constructor].
  - apply orb_true_iff in R as [R|R].
    + apply andb_true_iff in R as [R NF]. apply existsb_exists in R as (d & I & Q). apply String.eqb_eq in Q as ->.
      pose proof structs_rooted as S. rewrite forallb_forall in S. specialize (S _ I). apply negb_true_iff in NF. rewrite NF, F in S. cbn [orb] in S.
      destruct fields as [|[[f []] fl] fields]; try discriminate. destruct (enum_variants (fst d)); [discriminate|]. apply andb_true_iff in S as [S1 S2].
      apply String.eqb_eq in S1 as ->. inversion Tf as [|y ? fs' ? Ty Tf']; subst. cbn [fst snd] in Ty. inversion Ty; subst.
      exists e. split; [reflexivity|]. split; [now left|]. intros e'. split.
      * intros S. inversion S as [|? ? fields' i ? F' Ni Nv|]; subst. rewrite F in F'. injection F' as <-. destruct i as [|i]; [now injection Nv|].
        cbn [map nth_error] in Ni. apply nth_error_In, in_map_iff in Ni as (g & G & Ig). rewrite forallb_forall in S2. specialize (S2 _ Ig). rewrite G in S2. discriminate.
      * intros ->. eapply stored_struct with (i := 0); [exact F|reflexivity|reflexivity].
    + apply andb_true_iff in R as [R _]. destruct (typed_variant _ _ T R) as (? & ? & ? & ? & _). discriminate.
  - assert (D : decomposed en && negb (existsb (String.eqb en) extentless_enums) = true).
    { apply orb_true_iff in R as [R|R]; [|exact R]. apply andb_true_iff in R as [R NF]. apply existsb_exists in R as (d & I & Q). apply String.eqb_eq in Q as ->.
      pose proof structs_rooted as S. rewrite forallb_forall in S. specialize (S _ I). apply negb_true_iff in NF. rewrite NF, V in S.
      destruct (struct_fields (fst d)) as [[|[[? []] ?] ?]|]; discriminate S. }
    pose proof D as D'. apply andb_true_iff in D' as [D' _]. unfold decomposed in D'. apply andb_true_iff in D' as [D' _]. apply existsb_exists in D' as (d & I & Q). apply String.eqb_eq in Q as ->.
    pose proof enums_rooted as S. rewrite forallb_forall in S. specialize (S _ I). rewrite D, V in S. cbn [negb orb] in S.
    destruct (struct_fields (fst d)); [discriminate|]. rewrite forallb_forall in S. apply SpansOk.assoc_in in A. specialize (S _ A). cbn [snd] in S.
    destruct (IH _ Tx S) as (e & E1 & E2 & E3). exists e. split; [exact E1|]. split; [exact E2|]. intros e'. rewrite <- E3. split; [intros H; now inversion H|constructor; auto].
  - destruct (typed_variant _ _ T) as (? & ? & u & [= <- <-] & _ & A' & _).
    + apply orb_true_iff in R as [R|R]; [|now apply andb_true_iff in R]. apply andb_true_iff in R as [R NF]. apply existsb_exists in R as (d & I & Q). apply String.eqb_eq in Q as ->.
      pose proof structs_rooted as S. rewrite forallb_forall in S. specialize (S _ I). apply negb_true_iff in NF. rewrite NF, V in S.
      destruct (struct_fields (fst d)) as [[|[[? []] ?] ?]|]; discriminate S.
    + rewrite V in A'. congruence.
Qed.

Lemma part_typed w v : part_of w v -> forall t, typed v t -> forall k, type_of w = Some k -> typed w (TN k).
Proof.
  induction 1 as [|v _ IH|e x v _ IH|a b _ IH|a b _ IH|v l I _ IH|v k fs I _ IH]; intros t T k' K.
  - inversion T; subst; try discriminate K; cbn in K; injection K as <-; exact T.
  - inversion T; subst. eauto.
  - inversion T; subst; eauto using T_Unit.
  - inversion T; subst; eauto.
  - inversion T; subst; eauto.
  - inversion T; subst; eauto.
  - inversion T as [| | | | | | | | | |k2 fs2 fields F Tf| |]; subst. clear T F.
    induction Tf as [|x f fs fields Hx _ IHf]; [destruct I|]. destruct I as [->|I]; eauto.
Qed.
Lemma part_extents w v : part_of w v -> forall e, In e (extents w) -> In e (extents v).
Proof.
  induction 1; intros x I; cbn [extents]; auto; try (apply in_app_iff; auto); apply in_flat_map; eauto.
Qed.

Lemma file_typed X : xid_sane X -> forall code f, parse_rust_file X code = FileOk f -> typed f (TN "File").
Proof. intros XS code f E. destruct (file_accepted X XS code f E) as (ts & parsed & _ & _ & F). destruct F. assumption. Qed.

(** Every node of a file, of a type that has an extent, has one: the one stored in it.
    It lies in the text; and indexing the text with the node gives the text there. *)
Theorem C60_extent : forall X, xid_sane X -> forall code f, parse_rust_file X code = FileOk f ->
  forall v k, part_of v f -> type_of v = Some k -> has_extent k = true ->
  exists e, extent_of v = Some e /\ (forall e', stored v e' <-> e' = e) /\ fst e <= snd e /\ snd e <= blen code /\
    (no_marks code -> exists before inside behind, index_text code v = Some inside /\
       code = before ++ inside ++ behind /\ blen before = fst e /\ blen before + blen inside = snd e).
Proof.
  intros X XS code f E v k P K H. pose proof (part_typed _ _ P _ (file_typed X XS code f E) _ K) as T.
  destruct (rooted_extent _ _ T H) as (e & E1 & E2 & E3). exists e. pose proof (part_extents _ _ P _ E2) as I.
  destruct (file_extents X XS code f E e I) as [L1 L2]. repeat split; auto; try apply E3.
  intros NM. destruct (file_index X XS code f NM E e I) as (w & S & W). unfold index_text. rewrite E1.
  unfold slice in S |- *. destruct (split_at code (snd e)) as [[h b]|] eqn:S1; [|discriminate].
  destruct (split_at h (fst e)) as [[a m]|] eqn:S2; [|discriminate]. injection S as ->.
  apply split_at_inv in S1 as [C1 B1]. apply split_at_inv in S2 as [C2 B2]. exists a, w, b. subst. rewrite <- app_assoc.
  repeat split; auto. lia.
Qed.

Lemma part_public w v : part_of w v -> forall t, typed v t -> Account.public t = true -> forall k, type_of w = Some k -> Account.public (TN k) = true.
Proof.
  induction 1 as [|v _ IH|e x v _ IH|a b _ IH|a b _ IH|v l I _ IH|v k fs I _ IH]; intros t T B k' K.
  - inversion T; subst; try discriminate K; cbn in K; injection K as <-; exact B.
  - inversion T; subst. eauto.
  - inversion T; subst.
    + match goal with H : enum_variants _ = Some _ |- _ => apply (Account.public_enum _ _ B) in H as J end. eapply IH; eauto using Account.public_variant.
    + eapply IH; eauto using T_Unit.
  - inversion T; subst. cbn [Account.public] in B. apply andb_true_iff in B as [B1 B2]. eauto.
  - inversion T; subst. cbn [Account.public] in B. apply andb_true_iff in B as [B1 B2]. eauto.
  - inversion T; subst; eauto.
  - inversion T as [| | | | | | | | | |k2 fs2 fields F Tf| |]; subst. apply (Account.public_struct _ _ B), Account.public_fields in F. clear T B.
    unfold Account.struct_ok in F. apply andb_true_iff in F as [_ F]. cbn [snd] in F.
    induction Tf as [|x f fs fields Hx _ IHf]; [destruct I|]. cbn [forallb] in F. apply andb_true_iff in F as [F1 F2]. apply andb_true_iff in F1 as [F1 _].
    destruct I as [->|I]; eauto.
Qed.

(** Which types those are: all types of nodes a file may have but these. *)
Theorem C60_types : forall X, xid_sane X -> forall code f, parse_rust_file X code = FileOk f ->
  forall v k, part_of v f -> type_of v = Some k ->
  has_extent k = true <-> ~ In k ["File"; "TypePointerKind"; "UnaryOp"; "BinaryOp"; "VisibilityPublicQualifier";
    "EnumVariantBody"; "Argument"; "TraitImplArgument"; "PatternStructField"].
Proof.
  intros X XS code f E v k P K. pose proof (part_public _ _ P _ (file_typed X XS code f E) eq_refl _ K) as B.
  assert (S : forallb (fun k => Bool.eqb (has_extent k) (negb (existsb (String.eqb k) ["File"; "TypePointerKind"; "UnaryOp"; "BinaryOp"; "VisibilityPublicQualifier";
    "EnumVariantBody"; "Argument"; "TraitImplArgument"; "PatternStructField"])))
    (map fst structs ++ map fst enums) = true) by (vm_compute; reflexivity).
  rewrite forallb_forall in S. specialize (S k).
  assert (I : In k (map fst structs ++ map fst enums)).
  { cbn [Account.public] in B. apply in_app_iff. apply orb_true_iff in B as [B|B]; [left|right]; apply existsb_exists in B as (d & I & Q);
      apply String.eqb_eq in Q as ->; now apply in_map. }
  apply S, Bool.eqb_prop in I. rewrite I, negb_true_iff. set (l := ["File"; _; _; _; _; _; _; _; _]). clearbody l. clear. split.
  - intros H J. assert (existsb (String.eqb k) l = true) by (apply existsb_exists; exists k; split; [exact J|apply String.eqb_refl]). congruence.
  - intros H. destruct (existsb (String.eqb k) l) eqn:Q; [|reflexivity]. apply existsb_exists in Q as (y & J & Q). apply String.eqb_eq in Q as ->. contradiction.
Qed.

(** The methods apply to every node of a file. *)
Theorem C60_nodes : forall X, xid_sane X -> forall code f, parse_rust_file X code = FileOk f ->
  forall v k, part_of v f -> type_of v = Some k -> typed v (TN k).
Proof. intros X XS code f E v k P K. exact (part_typed _ _ P _ (file_typed X XS code f E) _ K). Qed.

(** ** Examples *)
Definition is_call (v : val) : bool := match v with VVar e x _ => String.eqb e "Expression" && String.eqb x "Call" | _ => false end.

Example C60_ex : camelcase_to_snake_case "FieldAccess" = "_field_access" /\ decomposed "Expression" = true /\ In "FieldAccess" (variants "Expression") /\
  exists f v, parse_rust_file ascii_xid (str "const A: u8 = f(1);") = FileOk f /\ part_of v f /\ type_of v = Some "Expression" /\
    call_is "Expression" "is_call" v = Some true /\ call_is "Expression" "is_value" v = Some false /\
    call_as "Expression" "as_value" v = Some None /\ (exists p, call_into "Expression" "into_call" v = Some (Some p)) /\
    call_is "Expression" "is_calls" v = None /\
    index_text (str "const A: u8 = f(1);") v = Some (str "f(1)").
Proof.
  split; [reflexivity|]. split; [reflexivity|]. split; [vm_compute; repeat (first [left; reflexivity|right])|].
  destruct (parse_rust_file ascii_xid (str "const A: u8 = f(1);")) as [f| | |] eqn:E; try (vm_compute in E; discriminate).
  exists f. destruct (find is_call (PropertiesSpans.parts f)) as [v|] eqn:F; [|vm_compute in E; injection E as <-; vm_compute in F; discriminate].
  exists v. split; [reflexivity|]. split; [apply PropertiesSpans.parts_part; apply (find_some _ _ F)|].
  vm_compute in E. injection E as <-. vm_compute in F. injection F as <-.
  repeat split; try (vm_compute; reflexivity). eexists. vm_compute. reflexivity.
Qed.

Print Assumptions C60_names.
Print Assumptions C60_is.
Print Assumptions C60_exactly_one.
Print Assumptions C60_as_into.
Print Assumptions C60_extent.
Print Assumptions C60_types.
Print Assumptions C60_nodes.
