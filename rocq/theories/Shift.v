(** A run that starts at a later token is the run on the tokens from there on, with all
    positions moved: what stands in front does not matter. *)

From Coq Require Import String List Arith Bool Lia.
From Verif Require Import Base Peresil Token Schema Value Nt Grammar Rel.
Import ListNotations.
Local Open Scope string_scope.
Local Open Scope list_scope.
Local Open Scope nat_scope.

Lemma nth_skipn {A} n : forall (l : list A) i, nth_error (skipn n l) i = nth_error l (n + i).
Proof. induction n as [|n IH]; intros [|x l] i; try reflexivity; [now destruct i|]. cbn. apply IH. Qed.

Section Shift.
  (** [toks1] are the tokens of [toks2] from the [kk]th on, with extents less by [dd]. *)
  Variables kk dd : nat.
  Variables toks1 toks2 : list token.

  Definition sh (p : point) : point := mkPt (kk + off p) (sub p).
  Definition er (e : extent) : extent := (dd + fst e, dd + snd e).
  Definition eu (n : nat) : nat := n.

  Hypothesis HT : map (tmap er eu) toks1 = skipn kk toks2.

  Fixpoint smap (v : val) : val :=
    match v with
    | VExt e => VExt (er e)
    | VNum n => VNum (nmap er eu n)
    | VPoint p => VPoint (sh p)
    | VSome x => VSome (smap x)
    | VList l => VList (map smap l)
    | VPair a b => VPair (smap a) (smap b)
    | VNode k fs => VNode k (map smap fs)
    | VVar e k p => VVar e k (smap p)
    | _ => v
    end.

  Definition shmap_env (e : env) : env := map (fun p => (fst p, smap (snd p))) e.

  Lemma get_field_map f v : get_field f (smap v) = option_map smap (get_field f v).
  Proof.
    destruct v; try reflexivity. cbn [smap get_field]. destruct (struct_fields k) as [fields|]; [|reflexivity].
    destruct (field_index f fields) as [i|]; [|reflexivity]. apply nth_error_map.
  Qed.

  Lemma extent_of_map v : extent_of (smap v) = option_map er (extent_of v).
  Proof.
    induction v using val_ind'; try reflexivity.
    - cbn [smap extent_of map]. destruct fs as [|x fs]; [reflexivity|]. cbn [map]. destruct x; reflexivity.
    - exact IHv.
  Qed.

  Lemma assoc_map x e : assoc x (shmap_env e) = option_map smap (assoc x e).
  Proof.
    induction e as [|[k v] e IH]; [reflexivity|]. cbn [shmap_env map assoc fst snd].
    destruct (String.eqb x k); [reflexivity|exact IH].
  Qed.

  Lemma bind_pat_map p : forall v e, bind_pat p (smap v) (shmap_env e) = option_map shmap_env (bind_pat p v e).
  Proof.
    induction p as [x|a IHa b IHb]; intros v e; cbn [bind_pat]; [reflexivity|].
    destruct v; try reflexivity. cbn [smap]. rewrite IHa.
    destruct (bind_pat a v1 e) as [e'|]; [apply IHb|reflexivity].
  Qed.

  Lemma may_terminate_map v : may_terminate_statement (smap v) = may_terminate_statement v.
  Proof.
    unfold may_terminate_statement. rewrite get_field_map.
    destruct (get_field "value" v) as [x|]; [|reflexivity]. cbn [option_map].
    destruct x; try reflexivity. cbn [smap may_terminate_expr].
    destruct (existsb _ _); [reflexivity|]. destruct (String.eqb v0 "MacroCall"); [|reflexivity].
    rewrite get_field_map. destruct (get_field "args" x) as [y|]; [|reflexivity].
    destruct y; reflexivity.
  Qed.

  Lemma implicit_map v : is_implicit_separator (smap v) = is_implicit_separator v.
  Proof.
    rewrite !implicit_eq. destruct v as [| | | | | | | | | |k fs|e k p]; try reflexivity; cbn [smap].
    - change (VNode k (map smap fs)) with (smap (VNode k fs)). rewrite get_field_map.
      destruct (get_field "hand" (VNode k fs)) as [y|]; [|reflexivity]. destruct y; reflexivity.
    - rewrite may_terminate_map. reflexivity.
  Qed.

  Lemma block_split_map l b :
    block_split (map smap l) b = (map smap (fst (block_split l b)), smap (snd (block_split l b))).
  Proof.
    rewrite !block_split_eq, <- map_rev. destruct (rev l) as [|v r]; [reflexivity|].
    cbn [map]. destruct v as [| | | | | | | | | | |e k p]; try reflexivity. cbn [smap].
    destruct (String.eqb k "Expression"); [|reflexivity]. destruct b; [reflexivity|].
    cbn [fst snd smap]. rewrite map_rev. reflexivity.
  Qed.

  Lemma paren_map x l n : smap (paren_or_tuple x l n) = paren_or_tuple (er x) (map smap l) n.
  Proof. unfold paren_or_tuple. destruct l as [|v [|w l]]; [reflexivity| |reflexivity]. destruct n; reflexivity. Qed.

  Lemma convert_number_map n : smap (convert_number n) = convert_number (nmap er eu n).
  Proof.
    unfold convert_number. cbn [smap map nmap n_radix n_extent n_integral n_fractional n_exponent n_type_suffix].
    repeat f_equal;
      match goal with |- context [match ?o with _ => _ end] => destruct o; reflexivity
                    | |- smap (vopt ?o) = _ => destruct o; reflexivity end.
  Qed.

  Lemma is_range_map v : is_range (smap v) = is_range v.
  Proof. destruct v; reflexivity. Qed.

  Notation vm := smap.
  Definition vs (a b : val) : Prop := vm a = b.
  Definition es (a b : env) : Prop := shmap_env a = b.

  Definition ms (a b : pm_t) : Prop := m_state a = m_state b.

  Inductive ps {A B} (R : A -> B -> Prop) : progress point A perror -> progress point B perror -> Prop :=
  | ps_ok p a b : R a b -> ps R (Success p a) (Success (sh p) b)
  | ps_fail p e : ps R (Failure p e) (Failure (sh p) e)
  | ps_abort w : ps R (Abort w) (Abort w).

  (** The first run may be out of fuel; otherwise the results correspond. *)
  Definition rs {A B} (R : A -> B -> Prop) (a : pm_t * progress point A perror)
             (b : pm_t * progress point B perror) : Prop :=
    snd a = Abort OutOfFuel \/ ms (fst a) (fst b) /\ ps R (snd a) (snd b).

  Definition prs {A B} (R : A -> B -> Prop) (f : gparser A) (f' : gparser B) : Prop :=
    forall pm pm' p, ms pm pm' -> rs R (f pm p) (f' pm' (sh p)).

  Lemma ms_record pm pm' p q e : ms pm pm' -> ms (record_failure pt_lt pm p e) (record_failure pt_lt pm' q e).
  Proof. intros A. exact A. Qed.

  Lemma rs_ok {A B} (R : A -> B -> Prop) pm pm' p a b :
    ms pm pm' -> R a b -> rs R (pm, Success p a) (pm', Success (sh p) b).
  Proof. intros. right. split; [assumption|constructor; assumption]. Qed.
  Lemma rs_fail {A B} (R : A -> B -> Prop) pm pm' p e :
    ms pm pm' -> rs R (pm, Failure p e) (pm', Failure (sh p) e).
  Proof. intros. right. split; [assumption|constructor]. Qed.
  Lemma rs_abort {A B} (R : A -> B -> Prop) pm pm' w :
    ms pm pm' -> rs R (pm, Abort w) (pm', Abort w).
  Proof. intros. right. split; [assumption|constructor]. Qed.
  Lemma rs_out {A B} (R : A -> B -> Prop) pm (x : pm_t * progress point B perror) :
    rs R (pm, Abort OutOfFuel) x.
  Proof. left. reflexivity. Qed.

  (** Run both sides of a related pair of parsers. *)
  Ltac both H :=
    match type of H with
    | prs _ ?f ?f' =>
        match goal with
        | M : ms ?pm ?pm' |- context [f ?pm ?p] =>
            match goal with
            | |- context [f' pm' (sh p)] =>
                let E := fresh "E" in let X := fresh "X" in
                pose proof (H pm pm' p M) as X;
                let pm1 := fresh "pm" in let pm2 := fresh "pm" in
                let r1 := fresh "r" in let r2 := fresh "r" in
                destruct (f pm p) as [pm1 r1]; destruct (f' pm' (sh p)) as [pm2 r2];
                let M' := fresh "M" in
                destruct X as [X|[M' X]];
                [cbn [snd] in X; subst r1; try apply rs_out
                |clear M; cbn [fst snd] in M', X; destruct X as [? ? ? X|? ?|?]]
            end
        end
    end.

  Lemma nth_rel i : nth_error toks2 (kk + i) = option_map (tmap er eu) (nth_error toks1 i).
  Proof. rewrite <- nth_error_map, HT. symmetry. apply nth_skipn. Qed.

  Lemma pt_lt_sh a b : pt_lt (sh a) (sh b) = pt_lt a b.
  Proof.
    unfold pt_lt. cbn [sh off sub]. destruct (Nat.ltb_spec (kk + off a) (kk + off b)), (Nat.ltb_spec (off a) (off b)); try reflexivity; try lia.
    destruct (Nat.eqb_spec (kk + off a) (kk + off b)), (Nat.eqb_spec (off a) (off b)); try reflexivity; lia.
  Qed.

  Lemma HE s e : bsim (fun a b => er a = b) (ex toks1 s e) (ex toks2 (sh s) (sh e)).
  Proof.
    unfold ex. cbn [sh off sub]. rewrite nth_rel. destruct (nth_error toks1 (off s)) as [t|]; cbn [option_map]; [|constructor].
    assert (F : forall t, token_extent (tmap er eu t) = er (token_extent t)) by (intros [|]; reflexivity).
    assert (C : (kk + off s ?= kk + off e) = (off s ?= off e)).
    { destruct (Nat.compare_spec (kk + off s) (kk + off e)), (Nat.compare_spec (off s) (off e)); try reflexivity; lia. }
    rewrite C. destruct (Nat.compare_spec (off s) (off e)) as [Q|Q|Q]; [| |constructor].
    - destruct (sub_rank (sub s) ?= sub_rank (sub e)); [apply bs_ok|apply bs_ok|apply bs_abort]; unfold start_offset; rewrite F; unfold er; cbn [sh off sub fst snd]; f_equal; lia.
    - replace (kk + off e - 1) with (kk + (off e - 1)) by lia. rewrite nth_rel.
      destruct (nth_error toks1 (off e - 1)); cbn [option_map]; [|apply bs_abort]. apply bs_ok. unfold start_offset. rewrite !F. unfold er. cbn [sh off sub fst snd]. f_equal; lia.
  Qed.

  Lemma split_rel t n : split (tmap er eu t) n = option_map (fun p => (tmap er eu (fst p), tmap er eu (snd p))) (split t n).
  Proof.
    destruct t as [k [s e]|n1]; [|reflexivity].
    destruct k; cbn [split tmap]; try reflexivity; destruct n as [|[|n]]; cbn [split tmap option_map fst snd]; try reflexivity; unfold er; cbn [fst snd];
      rewrite ?Nat.add_assoc; reflexivity.
  Qed.

  Lemma convert_rel m t : convert m (tmap er eu t) = option_map vm (convert m t).
  Proof. destruct m as [k|], t as [k1 e1|n1]; cbn [tmap convert]; try reflexivity. destruct (tkind_eqb k k1); reflexivity. Qed.

  Lemma sh_off p i s : mkPt (off (sh p) + i) s = sh (mkPt (off p + i) s).
  Proof. unfold sh. cbn [off sub]. f_equal. lia. Qed.

  Lemma tok_rel m err : prs vs (tok toks1 m err) (tok toks2 m err).
  Proof.
    intros pm pm' p M. unfold tok. change (nth_error toks2 (off (sh p))) with (nth_error toks2 (kk + off p)). rewrite nth_rel.
    destruct (nth_error toks1 (off p)) as [t1|]; cbn [option_map]; [|now apply rs_fail].
    change (sub (sh p)) with (sub p). rewrite sh_off.
    assert (C : match sub p with Some n => match split (tmap er eu t1) n with Some (_, b) => Some b | None => None end | None => Some (tmap er eu t1) end =
      option_map (tmap er eu) (match sub p with Some n => match split t1 n with Some (_, b) => Some b | None => None end | None => Some t1 end)).
    { destruct (sub p) as [n|]; [|reflexivity]. rewrite split_rel. destruct (split t1 n) as [[a b]|]; reflexivity. }
    rewrite C.
    destruct (match sub p with Some n => match split t1 n with Some (_, b) => Some b | None => None end | None => Some t1 end) as [c1|];
      cbn [option_map]; [|now apply rs_abort].
    rewrite convert_rel. destruct (convert m c1) as [v1|]; cbn [option_map].
    - now apply rs_ok.
    - rewrite split_rel. destruct (split t1 (sub_rank (sub p))) as [[a b]|]; cbn [option_map fst snd]; [|now apply rs_fail].
      rewrite convert_rel. destruct (convert m a) as [v1|]; cbn [option_map]; [|now apply rs_fail].
      change (mkPt (off (sh p)) ?x) with (sh (mkPt (off p) x)). now apply rs_ok.
  Qed.

  Lemma is_kind_rel k t : is_kind k (tmap er eu t) = is_kind k t.
  Proof. destruct t; reflexivity. Qed.

  Lemma skip_rel o c : forall l d, nested_skip o c d (map (tmap er eu) l) = nested_skip o c d l.
  Proof.
    induction l as [|t l IH]; intros n; [reflexivity|]. cbn [map nested_skip]. rewrite !is_kind_rel, !IH.
    destruct n; rewrite ?IH; reflexivity.
  Qed.

  Lemma skipn_rel i : skipn (kk + i) toks2 = map (tmap er eu) (skipn i toks1).
  Proof. rewrite <- skipn_map, HT. clear. revert toks2. induction kk as [|n IH]; intros [|x l]; try reflexivity; [now destruct i|]. cbn. apply IH. Qed.

  Lemma nested_rel o c : prs vs (nested toks1 o c) (nested toks2 o c).
  Proof.
    intros pm pm' p M. unfold nested. change (skipn (off (sh p)) toks2) with (skipn (kk + off p) toks2). rewrite skipn_rel, skip_rel, sh_off.
    destruct (HE p (mkPt (off p + nested_skip o c 0 (skipn (off p) toks1)) None)) as [a b H|w];
      [apply rs_ok|apply rs_abort]; auto. unfold vs. cbn [smap]. congruence.
  Qed.

  (** ** Building results *)

  Lemma as_point_rel o1 o2 : option_map vm o1 = o2 -> bsim (fun p q => sh p = q) (as_point o1) (as_point o2).
  Proof. intros <-. destruct o1 as [[]|]; cbn [option_map as_point smap]; constructor; reflexivity. Qed.

  Lemma assoc_rel x e1 e2 : es e1 e2 -> option_map vm (assoc x e1) = assoc x e2.
  Proof. unfold es. intros <-. now rewrite <- assoc_map. Qed.

  Lemma ext_rel p q : bsim vs (bbind (ex toks1 p q) (fun x => BOk (VExt x))) (bbind (ex toks2 (sh p) (sh q)) (fun x => BOk (VExt x))).
  Proof.
    destruct (HE p q) as [a b H|w]; constructor. unfold vs. cbn [smap]. congruence.
  Qed.

  Ltac inv H := unfold vs in H; cbn [smap] in H;
    match type of H with
    | _ = _ => first [discriminate H | injection H as H | idtac]
    end.

  Lemma vs_list l1 l2 : vs (VList l1) (VList l2) <-> map vm l1 = l2.
  Proof. unfold vs. cbn [smap]. split; [intros [= H]; exact H|intros ->; reflexivity]. Qed.

  Lemma beval_rel pt e1 e2 : es e1 e2 -> forall b, bsim vs (beval toks1 pt e1 b) (beval toks2 (sh pt) e2 b).
  Proof.
    intros He. fix go 1. intros b.
    destruct b as [x|x|x y| | | |b|b|b|b|b d|k fs|en v b|a b|b|b|f b|b|b|b|b|s t|s t|x t|b]; cbn [beval].
    - pose proof (assoc_rel x _ _ He) as A.
      destruct (assoc x e1), (assoc x e2); try discriminate; constructor. injection A as A. exact A.
    - eapply bsim_bind; [apply as_point_rel, assoc_rel, He|]. intros ? ? <-. apply ext_rel.
    - eapply bsim_bind; [apply as_point_rel, assoc_rel, He|]. intros ? ? <-.
      eapply bsim_bind; [apply as_point_rel, assoc_rel, He|]. intros ? ? <-. apply ext_rel.
    - constructor. reflexivity.
    - constructor. reflexivity.
    - constructor. reflexivity.
    - eapply bsim_bind; [apply go|]. intros a a' H. constructor. unfold vs in *. cbn [smap]. congruence.
    - eapply bsim_bind; [apply go|]. intros a a' H. constructor. unfold vs in *. cbn [smap map]. congruence.
    - eapply bsim_bind; [apply go|]. intros a a' H.
      destruct a, a'; inv H; constructor; unfold vs; cbn [smap map]; congruence.
    - eapply bsim_bind; [apply go|]. intros a a' H.
      destruct a, a'; inv H; constructor; unfold vs; cbn [smap map]; congruence.
    - eapply bsim_bind; [apply go|]. intros a a' H.
      destruct a, a'; inv H; try (constructor; unfold vs; cbn [smap map]; congruence). apply go.
    - eapply bsim_bind with (R := fun l l' => map vm l = l').
      + induction fs as [|[nm b] fs IH]; [constructor; reflexivity|].
        eapply bsim_bind; [apply go|]. intros a a' H.
        eapply bsim_bind; [apply IH|]. intros l l' H'. constructor. cbn [map]. unfold vs in H. congruence.
      + intros l l' H. constructor. unfold vs. cbn [smap]. congruence.
    - eapply bsim_bind; [apply go|]. intros x x' H. constructor. unfold vs in *. cbn [smap]. congruence.
    - eapply bsim_bind; [apply go|]. intros x x' H. eapply bsim_bind; [apply go|]. intros y y' H'.
      constructor. unfold vs in *. cbn [smap]. congruence.
    - eapply bsim_bind; [apply go|]. intros a a' H.
      destruct a, a'; inv H; constructor; unfold vs; congruence.
    - eapply bsim_bind; [apply go|]. intros a a' H.
      destruct a, a'; inv H; constructor; unfold vs; congruence.
    - eapply bsim_bind; [apply go|]. intros a a' <-. rewrite get_field_map.
      destruct (get_field f a); constructor. reflexivity.
    - eapply bsim_bind; [apply go|]. intros a a' <-. rewrite extent_of_map.
      destruct (extent_of a); constructor. reflexivity.
    - eapply bsim_bind; [apply go|]. intros a a' <-. destruct a; constructor; reflexivity.
    - eapply bsim_bind; [apply go|]. intros a a' <-. destruct a as [| | | | | | |a| | | |]; cbn [smap]; try (constructor; reflexivity).
      destruct a; constructor; reflexivity.
    - eapply bsim_bind; [apply go|]. intros a a' <-. destruct a as [| | | | | | |a| | | |]; cbn [smap]; try (constructor; reflexivity).
      destruct a; constructor; reflexivity.
    - eapply bsim_bind; [apply go|]. intros x x' <-. eapply bsim_bind; [apply go|]. intros y y' <-.
      destruct x; cbn [smap]; try constructor. destruct y; cbn [smap]; try constructor. rewrite block_split_map. reflexivity.
    - eapply bsim_bind; [apply go|]. intros x x' <-. eapply bsim_bind; [apply go|]. intros y y' <-.
      destruct x; cbn [smap]; try constructor. destruct y; cbn [smap]; try constructor. rewrite block_split_map. reflexivity.
    - eapply bsim_bind; [apply go|]. intros z z' <-. eapply bsim_bind; [apply go|]. intros y y' <-.
      destruct z; cbn [smap]; try constructor. destruct y; cbn [smap]; try constructor.
      destruct y1; cbn [smap]; try constructor. destruct y2; cbn [smap]; try constructor.
      destruct y2_1; cbn [smap]; try constructor. unfold vs. now rewrite paren_map.
    - eapply bsim_bind; [apply go|]. intros z z' <-. destruct z; cbn [smap]; constructor. unfold vs. now rewrite convert_number_map.
  Qed.

  Lemma bind_pat_rel p v1 v2 e1 e2 : vs v1 v2 -> es e1 e2 ->
    match bind_pat p v1 e1, bind_pat p v2 e2 with
    | Some a, Some b => es a b
    | None, None => True
    | _, _ => False
    end.
  Proof. unfold vs, es. intros <- <-. rewrite bind_pat_map. destruct (bind_pat p v1 e1); cbn; auto. Qed.

  Lemma steps_rel rn1 rn2 steps b :
    (forall x e1 e2, es e1 e2 -> prs vs (rn1 x e1) (rn2 x e2)) ->
    forall e1 e2, es e1 e2 -> prs vs (run_steps toks1 rn1 steps b e1) (run_steps toks2 rn2 steps b e2).
  Proof.
    intros Hr. induction steps as [|[pt x] steps IH]; intros e1 e2 He pm pm' p M; cbn [run_steps].
    - destruct (beval_rel p e1 e2 He b) as [v1 v2 H|w]; [now apply rs_ok|now apply rs_abort].
    - pose proof (Hr x e1 e2 He) as H. both H.
      + pose proof (bind_pat_rel pt a b0 e1 e2 X He) as G.
        destruct (bind_pat pt a e1), (bind_pat pt b0 e2); try contradiction; [|now apply rs_abort].
        now apply IH.
      + now apply rs_fail.
      + now apply rs_abort.
  Qed.

  (** ** Combinators *)

  Lemma alternate_rel (fs1 fs2 : list (gparser val)) :
    Forall2 (prs vs) fs1 fs2 -> prs vs (alternate pt_lt recov fs1) (alternate pt_lt recov fs2).
  Proof.
    assert (A : forall fs1 fs2 : list (gparser val), Forall2 (prs vs) fs1 fs2 ->
      forall r1 r2, ps vs r1 r2 -> forall pm pm' pt, ms pm pm' ->
      rs vs (alternate_from pt_lt recov r1 fs1 pm pt) (alternate_from pt_lt recov r2 fs2 pm' (sh pt))).
    { clear fs1 fs2. induction 1 as [|f1 f2 fs1 fs2 Hf _ IH]; intros r1 r2 Hr pm pm' pt M; cbn [alternate_from].
      - right. split; assumption.
      - destruct Hr as [p a b H|p e|w]; [now apply rs_ok| |now apply rs_abort]. cbn [recov].
        pose proof (Hf pm pm' pt M) as X. destruct (f1 pm pt) as [pm1 r1], (f2 pm' (sh pt)) as [pm2 r2].
        destruct X as [X|[M' X]]; cbn [fst snd] in *.
        + subst r1. destruct fs1; cbn [alternate_from]; apply rs_out.
        + apply IH; [exact X|now apply ms_record]. }
    intros H pm pm' pt M. destruct H as [|f1 f2 fs1 fs2 Hf H]; cbn [alternate]; [now apply rs_abort|].
    pose proof (Hf pm pm' pt M) as X. destruct (f1 pm pt) as [pm1 r1], (f2 pm' (sh pt)) as [pm2 r2].
    destruct X as [X|[M' X]]; cbn [fst snd] in *.
    - subst r1. destruct fs1; cbn [alternate_from]; apply rs_out.
    - now apply A.
  Qed.

  Lemma map_rel {A B} (R : A -> A -> Prop) (R' : B -> B -> Prop) f1 f2 h :
    prs R f1 f2 -> (forall a b, R a b -> R' (h a) (h b)) -> prs R' (map_p f1 h) (map_p f2 h).
  Proof.
    intros H Hh pm pm' p M. unfold map_p. both H; [apply rs_ok|apply rs_fail|apply rs_abort]; auto.
  Qed.

  Definition os (a b : option val) : Prop := option_map vm a = b.

  Lemma optional_rel f1 f2 : prs vs f1 f2 -> prs os (optional pt_lt recov f1) (optional pt_lt recov f2).
  Proof.
    intros H pm pm' p M. unfold optional. both H.
    - apply rs_ok; [assumption|]. unfold os, vs in *. cbn. congruence.
    - cbn [recov]. apply rs_ok; [now apply ms_record|reflexivity].
    - now apply rs_abort.
  Qed.

  Lemma peek_rel f1 f2 : prs vs f1 f2 -> prs vs (peek f1) (peek f2).
  Proof. intros H pm pm' p M. unfold peek. both H; [apply rs_ok|apply rs_fail|apply rs_abort]; auto. Qed.

  Definition ls (a b : list val) : Prop := map vm a = b.

  Lemma many_rel f1 f2 : prs vs f1 f2 -> forall n m, n <= m ->
    prs ls (zero_or_more pt_lt recov n f1) (zero_or_more pt_lt recov m f2).
  Proof.
    intros H n. induction n as [|n IH]; intros m L pm pm' p M; cbn [zero_or_more]; [apply rs_out|].
    destruct m as [|m]; [lia|]. cbn [zero_or_more]. both H.
    - specialize (IH m ltac:(lia)). both IH.
      + apply rs_ok; [assumption|]. unfold ls, vs in *. cbn [map]. congruence.
      + now apply rs_fail.
      + now apply rs_abort.
    - cbn [recov]. apply rs_ok; [now apply ms_record|reflexivity].
    - now apply rs_abort.
  Qed.

  Lemma vtailed_rel v1 v2 c l : ls v1 v2 -> vs (vtailed v1 c l) (vtailed v2 c l).
  Proof. intros <-. reflexivity. Qed.

  Lemma ls_snoc l1 l2 v1 v2 : ls l1 l2 -> vs v1 v2 -> ls (l1 ++ [v1]) (l2 ++ [v2]).
  Proof. intros <- <-. unfold ls. rewrite map_app. reflexivity. Qed.

  Lemma tailed_rel s1 s2 f1 f2 : prs vs s1 s2 -> prs vs f1 f2 -> forall n m, n <= m ->
    forall l1 l2, ls l1 l2 -> forall c b, prs vs (tailed_loop n s1 f1 l1 c b) (tailed_loop m s2 f2 l2 c b).
  Proof.
    intros Hs Hf n. induction n as [|n IH]; intros m L l1 l2 Hl c b pm pm' p M; cbn [tailed_loop]; [apply rs_out|].
    destruct m as [|m]; [lia|]. cbn [tailed_loop]. both Hf.
    - both Hs.
      + apply IH; [lia|now apply ls_snoc|assumption].
      + apply rs_ok; [assumption|]. now apply vtailed_rel, ls_snoc.
      + now apply rs_abort.
    - apply rs_ok; [assumption|]. now apply vtailed_rel.
    - now apply rs_abort.
  Qed.

  Lemma tailed1_rel s1 s2 f1 f2 : prs vs s1 s2 -> prs vs f1 f2 -> forall n m, n <= m ->
    prs vs (tailed1 n s1 f1) (tailed1 m s2 f2).
  Proof.
    intros Hs Hf n m L pm pm' p M. unfold tailed1. both Hf.
    - assert (Hl : ls [a] [b]) by (unfold ls, vs in *; cbn [map]; congruence). both Hs.
      + now apply (tailed_rel s1 s2 f1 f2 Hs Hf n m L).
      + apply rs_ok; [assumption|]. now apply vtailed_rel.
      + now apply rs_abort.
    - now apply rs_fail.
    - now apply rs_abort.
  Qed.

  Lemma resume_rel s1 s2 f1 f2 : prs vs s1 s2 -> prs vs f1 f2 -> forall n m, n <= m ->
    prs vs (resume n s1 f1) (resume m s2 f2).
  Proof.
    intros Hs Hf n m L pm pm' p M. unfold resume. both Hs.
    - pose proof (tailed1_rel s1 s2 f1 f2 Hs Hf n m L) as Ht. both Ht.
      + destruct a0, b0; try discriminate; try now apply rs_abort.
        injection X0 as A B. apply rs_ok; [assumption|exact A].
      + apply rs_ok; [assumption|reflexivity].
      + now apply rs_abort.
    - apply rs_ok; [assumption|reflexivity].
    - now apply rs_abort.
  Qed.

  Lemma implicit_rel v1 v2 : vs v1 v2 -> is_implicit_separator v1 = is_implicit_separator v2.
  Proof. intros <-. now rewrite implicit_map. Qed.

  Lemma implicit_loop_rel s1 s2 f1 f2 : prs vs s1 s2 -> prs vs f1 f2 -> forall n m, n <= m ->
    forall l1 l2, ls l1 l2 -> forall c b, prs vs (implicit_loop n s1 f1 l1 c b) (implicit_loop m s2 f2 l2 c b).
  Proof.
    intros Hs Hf n. induction n as [|n IH]; intros m L l1 l2 Hl c b pm pm' p M; cbn [implicit_loop]; [apply rs_out|].
    destruct m as [|m]; [lia|]. cbn [implicit_loop]. both Hf.
    - rewrite (implicit_rel _ _ X). both Hs.
      + apply IH; [lia|now apply ls_snoc|assumption].
      + destruct (is_implicit_separator b0).
        * apply IH; [lia|now apply ls_snoc|assumption].
        * apply rs_ok; [assumption|]. now apply vtailed_rel, ls_snoc.
      + now apply rs_abort.
    - apply rs_ok; [assumption|]. now apply vtailed_rel.
    - now apply rs_abort.
  Qed.

  Lemma with_amb_rel l f1 f2 : prs vs f1 f2 -> prs vs (with_amb l f1) (with_amb l f2).
  Proof.
    intros H pm pm' p Ms. unfold with_amb.
    assert (M : ms (set_amb pm l) (set_amb pm' l)) by reflexivity.
    pose proof (H _ _ p M) as X.
    destruct (f1 (set_amb pm l) p) as [pm1 r1], (f2 (set_amb pm' l) (sh p)) as [pm2 r2].
    destruct X as [X|[M' X]]; cbn [fst snd] in *; [left; exact X|].
    right. split; [|exact X]. exact Ms.
  Qed.

  (** ** The shunting yard *)
  Definition opmap (o : opk) : opk :=
    match o with OpPrefix v => OpPrefix (vm v) | OpInfix v => OpInfix (vm v) | OpPostfix v => OpPostfix (vm v) end.
  Definition cmap {A} (h : A -> A) (c : car A) : car A := mkCar (h (c_val c)) (sh (c_spt c)) (sh (c_ept c)).
  Definition rsim (a b : list (car val)) : Prop := map (cmap vm) a = b.
  Definition osim (a b : list (car opk)) : Prop := map (cmap opmap) a = b.
  Definition ysim (a b : yard) : Prop := osim (y_ops a) (y_ops b) /\ rsim (y_res a) (y_res b).

  Inductive asim {A B} (R : A -> B -> Prop) : ares A -> ares B -> Prop :=
  | as_ok a b : R a b -> asim R (AOk a) (AOk b)
  | as_err p e : asim R (AErr p e) (AErr (sh p) e)
  | as_abort w : asim R (AAbort w) (AAbort w).
  Lemma asim_bind {A B A' B'} (R : A -> A' -> Prop) (R' : B -> B' -> Prop) r r' k k' :
    asim R r r' -> (forall a a', R a a' -> asim R' (k a) (k' a')) -> asim R' (abind r k) (abind r' k').
  Proof. intros [a b H|p e|w] K; cbn [abind]; [auto|constructor|constructor]. Qed.
  Lemma asim_of_b {A B} (R : A -> B -> Prop) r r' : bsim R r r' -> asim R (a_of_b r) (a_of_b r').
  Proof. intros [a b H|w]; constructor; auto. Qed.

  Lemma car_inv {A} (h : A -> A) (a b : car A) : cmap h a = b ->
    h (c_val a) = c_val b /\ sh (c_spt a) = c_spt b /\ sh (c_ept a) = c_ept b.
  Proof. intros <-. auto. Qed.

  Lemma rsim_cons a b l1 l2 : cmap vm a = b -> rsim l1 l2 -> rsim (a :: l1) (b :: l2).
  Proof. unfold rsim. cbn [map]. congruence. Qed.

  Lemma pop_rel r1 r2 loc : rsim r1 r2 ->
    asim (fun a b => cmap vm (fst a) = fst b /\ rsim (snd a) (snd b)) (pop_expression r1 loc) (pop_expression r2 (sh loc)).
  Proof. intros <-. destruct r1 as [|a r1]; cbn [pop_expression map]; constructor. cbn [fst snd]. split; reflexivity. Qed.

  Lemma exa_rel p q : asim (fun a b => er a = b) (a_of_b (ex toks1 p q)) (a_of_b (ex toks2 (sh p) (sh q))).
  Proof. apply asim_of_b, HE. Qed.

  Lemma HJ a b a' b' : er a = a' -> er b = b' -> er (fst a, snd b) = (fst a', snd b').
  Proof. intros <- <-. reflexivity. Qed.

  Definition frel (f g : extent -> val -> val) : Prop := forall x a, vs (f x a) (g (er x) (vm a)).
  Definition frel2 (f g : extent -> val -> val -> val) : Prop := forall x a c, vs (f x a c) (g (er x) (vm a) (vm c)).

  Lemma prefix_rel r1 s e x1 at1 f1 f2 : frel f1 f2 ->
    asim rsim (apply_prefix toks1 r1 s e x1 at1 f1) (apply_prefix toks2 (map (cmap vm) r1) (sh s) (sh e) (er x1) (vm at1) f2).
  Proof.
    intros Hf. unfold apply_prefix. eapply asim_bind; [now apply pop_rel|].
    intros [c1 q1] [c2 q2] [A B]. cbn [fst snd] in A, B. subst c2. unfold rsim in B. subst q2. cbn [cmap c_val c_spt c_ept]. rewrite pt_lt_sh.
    destruct (pt_lt (c_ept c1) s); [constructor|]. eapply asim_bind; [apply exa_rel|]. intros i1 i2 <-.
    constructor. apply rsim_cons; [|reflexivity]. unfold cmap. cbn [c_val c_spt c_ept smap map].
    specialize (Hf i1 (c_val c1)). unfold vs in Hf. rewrite Hf. reflexivity.
  Qed.

  Lemma maybe_prefix_rel r1 s e x1 at1 f1 f2 : frel f1 f2 ->
    asim rsim (apply_maybe_prefix toks1 r1 s e x1 at1 f1) (apply_maybe_prefix toks2 (map (cmap vm) r1) (sh s) (sh e) (er x1) (vm at1) f2).
  Proof.
    intros Hf. unfold apply_maybe_prefix. destruct r1 as [|c1 r1]; cbn [map].
    - eapply asim_bind; [apply exa_rel|]. intros i1 i2 <-. constructor. apply rsim_cons; [|reflexivity].
      unfold cmap. cbn [c_val c_spt c_ept smap map].
      specialize (Hf i1 VNone). unfold vs in Hf. rewrite Hf. reflexivity.
    - apply (prefix_rel (c1 :: r1)). intros x a. apply (Hf x (VSome a)).
  Qed.

  Lemma into_attributed_rel x a : vm (into_attributed x a) = into_attributed (er x) (vm a).
  Proof. reflexivity. Qed.

  Lemma infix_rel r1 s e f1 f2 : frel2 f1 f2 ->
    asim rsim (apply_infix toks1 r1 s e f1) (apply_infix toks2 (map (cmap vm) r1) (sh s) (sh e) f2).
  Proof.
    intros Hf. unfold apply_infix. eapply asim_bind; [now apply pop_rel|].
    intros [c1 q1] [c2 q2] [A B]. cbn [fst snd] in A, B. subst c2. eapply asim_bind; [apply pop_rel, B|].
    intros [d1 u1] [d2 u2] [A' B']. cbn [fst snd] in A', B'. subst d2. cbn [cmap c_val c_spt c_ept].
    eapply asim_bind; [apply exa_rel|]. intros i1 i2 <-. constructor. apply rsim_cons; [|exact B'].
    unfold cmap. cbn [c_val c_spt c_ept]. f_equal. rewrite into_attributed_rel. f_equal. apply Hf.
  Qed.

  Lemma maybe_infix_rel r1 s e f1 f2 : frel2 f1 f2 ->
    asim rsim (apply_maybe_infix toks1 r1 s e f1) (apply_maybe_infix toks2 (map (cmap vm) r1) (sh s) (sh e) f2).
  Proof.
    intros Hf. unfold apply_maybe_infix. rewrite map_length. destruct (List.length r1 <=? 1).
    - eapply asim_bind; [now apply pop_rel|]. intros [c1 q1] [c2 q2] [A B]. cbn [fst snd] in A, B. subst c2. cbn [cmap c_val c_spt c_ept].
      eapply asim_bind; [apply exa_rel|]. intros i1 i2 <-. constructor. apply rsim_cons; [|exact B].
      unfold cmap. cbn [c_val c_spt c_ept]. f_equal. rewrite into_attributed_rel. f_equal. apply (Hf i1 (c_val c1) VNone).
    - apply infix_rel. intros x a c. apply (Hf x a (VSome c)).
  Qed.

  Lemma postfix_rel r1 s e f1 f2 : frel f1 f2 ->
    asim rsim (apply_postfix toks1 r1 s e f1) (apply_postfix toks2 (map (cmap vm) r1) (sh s) (sh e) f2).
  Proof.
    intros Hf. unfold apply_postfix. eapply asim_bind; [now apply pop_rel|].
    intros [c1 q1] [c2 q2] [A B]. cbn [fst snd] in A, B. subst c2. cbn [cmap c_val c_spt c_ept].
    eapply asim_bind; [apply exa_rel|]. intros i1 i2 <-. constructor. apply rsim_cons; [|exact B].
    unfold cmap. cbn [c_val c_spt c_ept]. f_equal. rewrite into_attributed_rel. f_equal. apply Hf.
  Qed.

  Ltac node := unfold vs in *; intros; unfold expr_node; cbn [smap map]; congruence.

  Lemma apply_one_rel r1 o1 s e :
    asim rsim (apply_one toks1 r1 o1 s e) (apply_one toks2 (map (cmap vm) r1) (opmap o1) (sh s) (sh e)).
  Proof.
    destruct o1 as [v1|v1|v1]; cbn [opmap]; destruct v1 as [| | | | | | | | | |n1 fs1|e1 k1 p1]; cbn [smap]; try constructor.
    - destruct fs1 as [|[x1| | | | | | | | | | |] fs1]; cbn [map smap]; try constructor.
      destruct fs1 as [|b1 fs1]; cbn [map]; [constructor|].
      destruct fs1 as [|[| | | | | | | | | | |e1 k1 p1] fs1]; cbn [map smap]; try constructor.
      destruct fs1 as [|d1 [|g1 fs1]]; cbn [map]; [constructor| |constructor].
      cbn [apply_one].
      repeat match goal with |- context [String.eqb k1 ?s] => destruct (String.eqb k1 s) end;
        first [apply prefix_rel|apply maybe_prefix_rel]; intros ? ?; reflexivity.
    - cbn [apply_one].
      repeat match goal with |- context [String.eqb k1 ?s] => destruct (String.eqb k1 s) end;
        first [apply infix_rel|apply maybe_infix_rel]; intros ? ? ?; reflexivity.
    - cbn [apply_one].
      repeat match goal with |- context [String.eqb k1 ?s] => destruct (String.eqb k1 s) end;
        apply postfix_rel; intros ? ?; reflexivity.
  Qed.

  Lemma should_pop_rel o t : should_pop (opmap o) (opmap t) = should_pop o t.
  Proof. destruct o, t; reflexivity. Qed.

  Lemma precedence_rel o1 : forall ops1 r1,
    asim ysim (apply_precedence toks1 ops1 r1 o1) (apply_precedence toks2 (map (cmap opmap) ops1) (map (cmap vm) r1) (opmap o1)).
  Proof.
    induction ops1 as [|t1 ops1 IH]; intros r1; cbn [apply_precedence map].
    - constructor. split; reflexivity.
    - cbn [cmap c_val c_spt c_ept]. rewrite should_pop_rel. destruct (should_pop o1 (c_val t1)).
      + eapply asim_bind; [apply apply_one_rel|]. intros q1 q2 <-. apply IH.
      + constructor. split; reflexivity.
  Qed.

  Lemma all_rel : forall ops1 r1, asim rsim (apply_all toks1 ops1 r1) (apply_all toks2 (map (cmap opmap) ops1) (map (cmap vm) r1)).
  Proof.
    induction ops1 as [|t1 ops1 IH]; intros r1; cbn [apply_all map].
    - constructor. reflexivity.
    - cbn [cmap c_val c_spt c_ept]. eapply asim_bind; [apply apply_one_rel|]. intros q1 q2 <-. apply IH.
  Qed.

  Lemma add_op_rel y1 y2 o1 o2 s e : ysim y1 y2 -> opmap o1 = o2 ->
    asim ysim (add_op toks1 y1 o1 s e) (add_op toks2 y2 o2 (sh s) (sh e)).
  Proof.
    intros [A B] <-. unfold add_op. rewrite <- A, <- B. eapply asim_bind; [apply precedence_rel|].
    intros z1 z2 [C D]. constructor. split; [|exact D]. unfold osim in *. cbn [y_ops map]. rewrite C. reflexivity.
  Qed.

  Lemma add_expression_rel y1 y2 v1 v2 s e : ysim y1 y2 -> vs v1 v2 ->
    ysim (add_expression y1 v1 s e) (add_expression y2 v2 (sh s) (sh e)).
  Proof.
    intros [A B] <-. split; [exact A|]. apply rsim_cons; [|exact B]. reflexivity.
  Qed.

  Lemma adapt_rel stmt y1 y2 s : ysim y1 y2 -> adapt_state stmt y1 s = adapt_state stmt y2 s.
  Proof.
    intros [A B]. destruct s; try reflexivity. cbn [adapt_state]. destruct stmt; [|reflexivity].
    rewrite <- A, <- B. destruct (y_ops y1); [|reflexivity]. cbn [map]. rewrite <- map_rev.
    destruct (rev (y_res y1)) as [|c1 l1]; [reflexivity|]. cbn [map cmap c_val]. now rewrite may_terminate_map.
  Qed.

  Lemma finish_rel pm pm' y1 y2 p : ms pm pm' -> ysim y1 y2 ->
    rs vs (finish_progress pm (finish_yard toks1 y1 p)) (finish_progress pm' (finish_yard toks2 y2 (sh p))).
  Proof.
    intros M [A B]. unfold finish_yard. rewrite <- A, <- B. destruct (all_rel (y_ops y1) (y_res y1)) as [r1 r2 H|q e|w]; cbn [abind finish_progress];
      [|now apply rs_fail|now apply rs_abort].
    rewrite <- H. destruct r1 as [|c1 [|d1 r1]]; cbn [map finish_progress].
    - now apply rs_fail.
    - now apply rs_ok.
    - now apply rs_abort.
  Qed.

  Lemma shunt_rel f1 g1 f2 g2 f3 g3 stmt : prs vs f1 g1 -> prs vs f2 g2 -> prs vs f3 g3 -> forall n m, n <= m ->
    forall y1 y2, ysim y1 y2 -> forall s,
    prs vs (shunt_loop toks1 n f1 f2 f3 stmt y1 s) (shunt_loop toks2 m g1 g2 g3 stmt y2 s).
  Proof.
    intros H1 H2 H3 n. induction n as [|n IH]; intros m L y1 y2 Hy s pm pm' p M; [apply rs_out|].
    destruct m as [|m]; [lia|]. rewrite !shunt_loop_S. cbv zeta.
    assert (L' : n <= m) by lia.
    assert (ADD : forall pm1 pm1' o1 o2 s1 nx p1, ms pm1 pm1' -> opmap o1 = o2 ->
      rs vs (match add_op toks1 y1 o1 s1 p1 with
             | AOk y' => shunt_loop toks1 n f1 f2 f3 stmt y' (adapt_state stmt y' nx) pm1 p1
             | AErr q e => (pm1, Failure q e)
             | AAbort w => (pm1, Abort w)
             end)
            (match add_op toks2 y2 o2 (sh s1) (sh p1) with
             | AOk y' => shunt_loop toks2 m g1 g2 g3 stmt y' (adapt_state stmt y' nx) pm1' (sh p1)
             | AErr q e => (pm1', Failure q e)
             | AAbort w => (pm1', Abort w)
             end)).
    { intros pm1 pm1' o1 o2 s1 nx p1 M1 Ho.
      destruct (add_op_rel y1 y2 o1 o2 s1 p1 Hy Ho) as [z1 z2 Hz|q e|w]; [|now apply rs_fail|now apply rs_abort].
      rewrite (adapt_rel stmt z1 z2 nx Hz). now apply IH. }
    assert (PA : forall pm1 pm1' v1 v2 q, ms pm1 pm1' -> vs v1 v2 ->
      rs vs
        (on_prefix_or_atom v1
          (fun op => match add_op toks1 y1 (OpPrefix op) p q with
             | AOk y' => shunt_loop toks1 n f1 f2 f3 stmt y' (adapt_state stmt y' SPrefix) pm1 q
             | AErr q e => (pm1, Failure q e)
             | AAbort w => (pm1, Abort w)
             end)
          (fun v => shunt_loop toks1 n f1 f2 f3 stmt (add_expression y1 v p q)
             (adapt_state stmt (add_expression y1 v p q) SAtom) pm1 q) (pm1, Abort IllTyped))
        (on_prefix_or_atom v2
          (fun op => match add_op toks2 y2 (OpPrefix op) (sh p) (sh q) with
             | AOk y' => shunt_loop toks2 m g1 g2 g3 stmt y' (adapt_state stmt y' SPrefix) pm1' (sh q)
             | AErr q e => (pm1', Failure q e)
             | AAbort w => (pm1', Abort w)
             end)
          (fun v => shunt_loop toks2 m g1 g2 g3 stmt (add_expression y2 v (sh p) (sh q))
             (adapt_state stmt (add_expression y2 v (sh p) (sh q)) SAtom) pm1' (sh q)) (pm1', Abort IllTyped))).
    { intros pm1 pm1' v1 v2 q M1 Hv. unfold vs in Hv.
      destruct v1 as [| | | | | | | | | | |e1 k1 x1], v2 as [| | | | | | | | | | |e2 k2 x2]; try discriminate Hv;
        cbn [on_prefix_or_atom]; try now apply rs_abort.
      cbn [smap] in Hv. injection Hv as -> -> Hv.
      destruct (String.eqb k2 "Prefix"); [apply ADD; [assumption|cbn [opmap]; congruence]|].
      destruct (String.eqb k2 "Atom"); [|now apply rs_abort].
      pose proof (add_expression_rel y1 y2 x1 x2 p q Hy Hv) as Hz.
      rewrite (adapt_rel stmt _ _ SAtom Hz). now apply IH. }
    assert (IP : forall pm1 pm1' v1 v2 q, ms pm1 pm1' -> vs v1 v2 ->
      rs vs
        (on_infix_or_postfix v1
          (fun op => match add_op toks1 y1 (OpInfix op) p q with
             | AOk y' => shunt_loop toks1 n f1 f2 f3 stmt y' (adapt_state stmt y' (SInfix (is_range op))) pm1 q
             | AErr q e => (pm1, Failure q e)
             | AAbort w => (pm1, Abort w)
             end)
          (fun op => match add_op toks1 y1 (OpPostfix op) p q with
             | AOk y' => shunt_loop toks1 n f1 f2 f3 stmt y' (adapt_state stmt y' SPostfix) pm1 q
             | AErr q e => (pm1, Failure q e)
             | AAbort w => (pm1, Abort w)
             end) (pm1, Abort IllTyped))
        (on_infix_or_postfix v2
          (fun op => match add_op toks2 y2 (OpInfix op) (sh p) (sh q) with
             | AOk y' => shunt_loop toks2 m g1 g2 g3 stmt y' (adapt_state stmt y' (SInfix (is_range op))) pm1' (sh q)
             | AErr q e => (pm1', Failure q e)
             | AAbort w => (pm1', Abort w)
             end)
          (fun op => match add_op toks2 y2 (OpPostfix op) (sh p) (sh q) with
             | AOk y' => shunt_loop toks2 m g1 g2 g3 stmt y' (adapt_state stmt y' SPostfix) pm1' (sh q)
             | AErr q e => (pm1', Failure q e)
             | AAbort w => (pm1', Abort w)
             end) (pm1', Abort IllTyped))).
    { intros pm1 pm1' v1 v2 q M1 Hv. unfold vs in Hv.
      destruct v1 as [| | | | | | | | | | |e1 k1 x1], v2 as [| | | | | | | | | | |e2 k2 x2]; try discriminate Hv;
        cbn [on_infix_or_postfix]; try now apply rs_abort.
      cbn [smap] in Hv. injection Hv as -> -> Hv.
      destruct (String.eqb k2 "Infix").
      { rewrite <- (is_range_map x1), Hv. apply ADD; [assumption|cbn [opmap]; congruence]. }
      destruct (String.eqb k2 "Postfix"); [|now apply rs_abort].
      apply ADD; [assumption|cbn [opmap]; congruence]. }
    assert (Ms := M). unfold ms in Ms. rewrite Ms.
    destruct s as [|wr| | |].
    - both H1; [now apply PA|now apply finish_rel|now apply rs_abort].
    - destruct (is_ambiguous (m_state pm') && wr).
      + pose proof (with_amb_rel Maximum f1 g1 H1) as H1'.
        both H1'; [now apply PA|now apply finish_rel|now apply rs_abort].
      + both H1; [now apply PA|now apply finish_rel|now apply rs_abort].
    - both H2; [now apply IP|now apply finish_rel|now apply rs_abort].
    - both H2; [now apply IP|now apply finish_rel|now apply rs_abort].
    - both H3; [|now apply finish_rel|now apply rs_abort].
      apply ADD; [assumption|]. unfold vs in X. cbn [opmap]. congruence.
  Qed.

  Theorem run_rel tbl n : forall m, n <= m -> forall x e1 e2, es e1 e2 ->
    prs vs (run tbl toks1 n x e1) (run tbl toks2 m x e2).
  Proof.
    induction n as [|n IH]; intros m L x e1 e2 He pm pm' p M; [destruct x; apply rs_out|].
    destruct m as [|m]; [lia|]. assert (L' : n <= m) by lia. specialize (IH m L').
    destruct x as [mt err|nn| |steps b|gs|y|y|app sep f|sep f|sep f|sep f|o c|y|y|y err|y err|l y|err y|a b|stmt];
      cbn [run].
    - now apply tok_rel.
    - now apply IH.
    - apply rs_ok; [assumption|reflexivity].
    - now apply steps_rel.
    - apply alternate_rel; [|assumption]. induction gs as [|y gs IHg]; cbn [map]; constructor; auto.
    - apply map_rel with (R := os); [apply optional_rel; auto| |assumption].
      unfold os, vs. intros [a|] [b|] H; try discriminate; [|reflexivity]. cbn in *. congruence.
    - apply map_rel with (R := ls); [apply many_rel; auto| |assumption].
      unfold ls, vs. intros a b H. cbn [smap]. congruence.
    - destruct (beval_rel p e1 e2 He app) as [v1 v2 H|w]; [|now apply rs_abort].
      destruct v1, v2; try discriminate H; try now apply rs_abort.
      apply vs_list in H. apply tailed_rel; auto.
    - apply tailed1_rel; auto.
    - apply resume_rel; auto.
    - apply implicit_loop_rel; auto. reflexivity.
    - now apply nested_rel.
    - pose proof (IH y e1 e2 He) as H. both H; [|now apply rs_fail|now apply rs_abort].
      destruct (HE p p0) as [x1 x2 Hx|w]; [|now apply rs_abort]. apply rs_ok; [assumption|].
      unfold vs. cbn [smap]. congruence.
    - apply map_rel with (R := vs); [apply peek_rel; auto| |assumption]. reflexivity.
    - pose proof (IH y e1 e2 He) as H. both H; [now apply rs_ok|now apply rs_fail|now apply rs_abort].
    - pose proof (IH y e1 e2 He) as H. both H; [|now apply rs_fail|now apply rs_abort].
      destruct a, b; try discriminate X; try now apply rs_abort.
      unfold vs in X. cbn [smap] in X. injection X as <-. unfold into_simple.
      cbn [nmap n_radix n_fractional n_exponent n_type_suffix n_underscores].
      destruct (n_radix n0); try now apply rs_fail.
      destruct (n_fractional n0); cbn [option_map]; try now apply rs_fail.
      destruct (n_exponent n0); cbn [option_map]; try now apply rs_fail.
      destruct (n_type_suffix n0); cbn [option_map]; try now apply rs_fail.
      unfold eu. destruct (n_underscores n0); try now apply rs_fail.
      now apply rs_ok.
    - apply with_amb_rel; auto.
    - assert (Ms := M). unfold ms in Ms. rewrite Ms. destruct (is_maximum (m_state pm')); [now apply rs_fail|now apply IH].
    - assert (Ms := M). unfold ms in Ms. rewrite Ms. destruct (is_ambiguous (m_state pm')); now apply IH.
    - apply shunt_rel; auto; try (apply IH; reflexivity). split; reflexivity.
  Qed.
End Shift.
