(** C60, for tokens and numbers: the generated methods tell their variants apart, and
    those that the parser uses to take a token are among them.

    Read with: TokenMethods.v ([kind_name]: the names of the variants; the methods). *)

From Coq Require Import String Ascii List Bool Arith NArith Lia.
From Verif Require Import Base Token Tokenizer TokenizerSpec Schema Value Grammar Accessors TokenMethods PropertiesAccessors.
Import ListNotations.
Local Open Scope string_scope.
Local Open Scope list_scope.
Local Open Scope nat_scope.

(** What the method for a variant of [Token] is about. *)
Inductive token_variant : string -> token -> val -> Prop :=
| variant_kind k e : token_variant (kind_name k) (Tk k e) (VExt e)
| variant_number n : token_variant "Number" (TkNumber n) (VNum n).

Inductive number_variant : string -> number -> Prop :=
| variant_binary n : n_radix n = RBinary -> number_variant "Binary" n
| variant_decimal n : n_radix n = RDecimal -> number_variant "Decimal" n
| variant_hexadecimal n : n_radix n = RHexadecimal -> number_variant "Hexadecimal" n
| variant_octal n : n_radix n = ROctal -> number_variant "Octal" n.

Lemma found variants prefix x : In x variants -> method_variant variants prefix (prefix ++ camelcase_to_snake_case x) = Some x.
Proof.
  unfold method_variant. induction variants as [|y l IH]; [intros []|].
  cbn [find]. destruct (String.eqb_spec (prefix ++ camelcase_to_snake_case y) (prefix ++ camelcase_to_snake_case x)) as [E|N].
  - intros _. apply append_inj, C60_names in E. now subst.
  - intros [->|I]; [congruence|auto].
Qed.

Lemma kind_listed k : In (kind_name k) token_variants.
Proof. unfold token_variants. apply in_app_iff. left. apply in_map, all_tkinds_complete. Qed.

Lemma kind_name_inj k k' : kind_name k = kind_name k' -> k = k'.
Proof.
  assert (N : NoDup (map kind_name all_tkinds)).
  { assert (B : (fix go l := match l with [] => true | x :: r => negb (existsb (String.eqb x) r) && go r end) (map kind_name all_tkinds) = true) by (vm_compute; reflexivity).
    revert B. induction (map kind_name all_tkinds) as [|x l IH]; intros B; constructor; apply andb_true_iff in B as [B1 B2]; auto.
    intros I. apply negb_true_iff in B1. assert (E : existsb (String.eqb x) l = true) by (apply existsb_exists; exists x; split; [exact I|apply String.eqb_refl]). congruence. }
  pose proof (all_tkinds_complete k) as I. pose proof (all_tkinds_complete k') as I'. intros E.
  apply In_nth_error in I as [i Hi]. apply In_nth_error in I' as [j Hj].
  assert (i = j).
  { rewrite NoDup_nth_error in N. apply N; [apply nth_error_Some; rewrite (map_nth_error _ _ _ Hi); discriminate|].
    rewrite (map_nth_error _ _ _ Hi), (map_nth_error _ _ _ Hj). now rewrite E. }
  congruence.
Qed.

Lemma kind_not_number k : kind_name k <> "Number".
Proof. destruct k; discriminate. Qed.

Lemma token_parts_spec x t v : token_variant x t v <-> token_parts t = (x, v).
Proof.
  split; [intros []; reflexivity|]. destruct t as [k e|n]; cbn; intros [= <- <-]; constructor.
Qed.

(** [is_*] answers [true] exactly for the tokens of its variant; [as_*] and [into_*] give
    what is in them, and nothing for other tokens. *)
Theorem C60_token_methods : forall x t, In x token_variants ->
  (exists b, token_is ("is" ++ camelcase_to_snake_case x) t = Some b /\ (b = true <-> exists v, token_variant x t v)) /\
  exists r, token_as ("as" ++ camelcase_to_snake_case x) t = Some r /\ token_into ("into" ++ camelcase_to_snake_case x) t = Some r /\
    forall v, r = Some v <-> token_variant x t v.
Proof.
  intros x t I. unfold token_is, token_as, token_into, method_is, method_payload. rewrite !(found _ _ _ I). split.
  - eexists. split; [reflexivity|]. split.
    + intros E. apply String.eqb_eq in E. exists (snd (token_parts t)). apply token_parts_spec. rewrite E. now destruct (token_parts t).
    + intros [v V]. apply token_parts_spec in V. rewrite V. apply String.eqb_refl.
  - eexists. split; [reflexivity|]. split; [reflexivity|]. intros v. rewrite token_parts_spec.
    destruct (String.eqb_spec x (fst (token_parts t))) as [->|N]; destruct (token_parts t) as [y w]; cbn [fst snd] in *; split; congruence.
Qed.

(** Exactly one [is_*] answers [true] for a token. *)
Theorem C60_token_exactly_one : forall t, exists x v, token_variant x t v /\
  forall y, In y token_variants -> token_is ("is" ++ camelcase_to_snake_case y) t = Some true <-> y = x.
Proof.
  intros t. exists (fst (token_parts t)), (snd (token_parts t)). split; [apply token_parts_spec; now destruct (token_parts t)|].
  intros y I. unfold token_is, method_is. rewrite (found _ _ _ I). split; [intros [= E]; now apply String.eqb_eq in E|intros ->; now rewrite String.eqb_refl].
Qed.

(** The extent of a token ([Token::extent]) is the one in it. *)
Theorem C60_token_extent : forall x t v, token_variant x t v -> extent_of v = Some (token_extent t) \/ exists n, v = VNum n /\ token_extent t = n_extent n.
Proof. intros x t v []; [now left|right; eauto]. Qed.

(** What the parser takes a token with is the method named after the variant. *)
Theorem C60_parser_methods : forall k t,
  token_into ("into" ++ camelcase_to_snake_case (kind_name k)) t = Some (convert (MK k) t) /\
  token_into "into_number" t = Some (convert MNumber t) /\
  token_is ("is" ++ camelcase_to_snake_case (kind_name k)) t = Some (is_kind k t).
Proof.
  intros k t. unfold token_into, token_is, method_payload, method_is. rewrite !(found _ _ _ (kind_listed k)).
  change "into_number" with ("into" ++ camelcase_to_snake_case "Number")%string.
  rewrite found by (unfold token_variants; apply in_app_iff; right; now left).
  assert (Q : forall k', String.eqb (kind_name k) (kind_name k') = tkind_eqb k k').
  { intros k'. destruct (String.eqb_spec (kind_name k) (kind_name k')) as [E|N].
    - apply kind_name_inj in E as ->. symmetry. now apply tkind_eqb_eq.
    - destruct (tkind_eqb k k') eqn:E; [|reflexivity]. apply tkind_eqb_eq in E as ->. congruence. }
  destruct t as [k' e|n]; cbn [token_parts fst snd convert is_kind]; rewrite ?Q.
  - split; [reflexivity|]. split; [|reflexivity].
    destruct (String.eqb_spec "Number" (kind_name k')) as [E|N]; [|reflexivity]. now destruct (kind_not_number k').
  - destruct (String.eqb_spec (kind_name k) "Number") as [E|N]; [now destruct (kind_not_number k)|]. repeat split.
Qed.

(** The same for numbers. *)
Theorem C60_number_methods : forall x n, In x number_variants ->
  (exists b, number_is ("is" ++ camelcase_to_snake_case x) n = Some b /\ (b = true <-> number_variant x n)) /\
  exists r, number_as ("as" ++ camelcase_to_snake_case x) n = Some r /\ number_into ("into" ++ camelcase_to_snake_case x) n = Some r /\
    forall m, r = Some m <-> m = n /\ number_variant x n.
Proof.
  intros x n I. unfold number_is, number_as, number_into, method_is, method_payload. rewrite !(found _ _ _ I).
  assert (V : number_variant x n <-> x = radix_name (n_radix n)).
  { split; [intros []; match goal with H : n_radix _ = _ |- _ => now rewrite H end|]. intros ->. destruct (n_radix n) eqn:R; now constructor. }
  unfold number_parts. cbn [fst snd]. split.
  - eexists. split; [reflexivity|]. rewrite V. apply String.eqb_eq.
  - eexists. split; [reflexivity|]. split; [reflexivity|]. intros m. rewrite V.
    destruct (String.eqb_spec x (radix_name (n_radix n))) as [->|N]; split; try congruence; [intros [= <-]; auto|intros [-> _]; reflexivity|intros [_ E]; congruence].
Qed.

Example C60_ex_tokens :
  camelcase_to_snake_case (kind_name KDoublePeriodEquals) = "_double_period_equals" /\
  exists ts, tokenize ascii_xid (str "..= 0x1f") = TokOk ts /\
    map (token_is "is_double_period_equals") ts = [Some true; Some false; Some false; Some false] /\
    map (token_as "as_double_period_equals") ts = [Some (Some (VExt (0, 3))); Some None; Some None; Some None] /\
    map (token_is "is_number") ts = [Some false; Some false; Some true; Some false] /\
    map (fun t => match token_into "into_number" t with Some (Some (VNum n)) => (number_is "is_hexadecimal" n, number_is "is_decimal" n) | _ => (None, None) end) ts =
      [(None, None); (None, None); (Some true, Some false); (None, None)] /\
    token_is "is_dots" (Tk KDoublePeriodEquals (0, 3)) = None.
Proof. split; [reflexivity|]. eexists. split; [vm_compute; reflexivity|]. repeat split; vm_compute; reflexivity. Qed.

Print Assumptions C60_token_methods.
Print Assumptions C60_token_exactly_one.
Print Assumptions C60_token_extent.
Print Assumptions C60_parser_methods.
Print Assumptions C60_number_methods.
