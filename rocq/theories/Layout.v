(** Consequences of [run_rel]: results do not depend on the recorded failures
    nor, once it suffices, on the fuel (C45); nor do they depend on layout, but
    for the extents (C42). *)

From Coq Require Import String List Arith Bool Lia.
From Verif Require Import Base Peresil Token Tokenizer TokenizerSpec FileToks Schema Value Nt Grammar Table Apportion Lib Whitespace LibOk FileSpec Rel.
Import ListNotations.
Local Open Scope string_scope.
Local Open Scope list_scope.
Local Open Scope nat_scope.

(** * More fuel, other failures *)

Definition id_ext (e : extent) : extent := e.
Definition id_nat (n : nat) : nat := n.

Lemma nmap_id n : nmap id_ext id_nat n = n.
Proof. destruct n as [r e i [f|] [x|] [t|] u]; reflexivity. Qed.

Lemma map_id_in {A} (f : A -> A) l : Forall (fun x => f x = x) l -> map f l = l.
Proof. induction 1 as [|x l H _ IH]; [reflexivity|]. cbn [map]. congruence. Qed.

Lemma vmap_id v : vmap id_ext id_nat v = v.
Proof.
  induction v using val_ind'; cbn [vmap]; try reflexivity; try congruence.
  - f_equal. apply nmap_id.
  - f_equal. now apply map_id_in.
  - f_equal. now apply map_id_in.
Qed.

Lemma bsim_refl {A} (R : A -> A -> Prop) r : (forall a, R a a) -> bsim R r r.
Proof. destruct r; constructor; auto. Qed.

Lemma pm_eq (a b : pm_t) : m_state a = m_state b -> m_failures a = m_failures b -> a = b.
Proof. destruct a, b. cbn. intros -> ->. reflexivity. Qed.

Theorem run_fuel tbl toks n m x e pm p : n <= m ->
  snd (run tbl toks n x e pm p) <> Abort OutOfFuel ->
  run tbl toks m x e pm p = run tbl toks n x e pm p.
Proof.
  intros L NO.
  assert (R : rs eq (vs id_ext id_nat) (run tbl toks n x e pm p) (run tbl toks m x e pm p)).
  { apply run_rel; auto; try congruence.
    - unfold id_nat. intros a b ->. tauto.
    - unfold id_ext. intros s e0 s' e' [= -> ->]. auto.
    - unfold id_ext. intros a b a' b' -> ->. reflexivity.
    - intros s e0. now apply bsim_refl.
    - split; reflexivity. }
  destruct (run tbl toks n x e pm p) as [pm1 r1], (run tbl toks m x e pm p) as [pm2 r2].
  destruct R as [R|[[M1 M2] R]]; cbn [fst snd] in *; [contradiction|].
  assert (pm2 = pm1) as -> by (destruct pm1, pm2; cbn in *; congruence).
  destruct R as [q a b H|q er|w]; try reflexivity. unfold vs in H. rewrite !vmap_id in H. now subst.
Qed.

Theorem run_pure tbl toks n m x e pm pm' p : n <= m -> m_state pm = m_state pm' ->
  snd (run tbl toks n x e pm p) <> Abort OutOfFuel ->
  snd (run tbl toks m x e pm' p) = snd (run tbl toks n x e pm p).
Proof.
  intros L MS NO.
  assert (R : rs (fun _ _ => True) (vs id_ext id_nat) (run tbl toks n x e pm p) (run tbl toks m x e pm' p)).
  { apply run_rel; auto; try congruence.
    - unfold id_nat. intros a b ->. tauto.
    - unfold id_ext. intros s e0 s' e' [= -> ->]. auto.
    - unfold id_ext. intros a b a' b' -> ->. reflexivity.
    - intros s e0. now apply bsim_refl.
    - split; [exact MS|exact I]. }
  destruct (run tbl toks n x e pm p) as [pm1 r1], (run tbl toks m x e pm' p) as [pm2 r2].
  destruct R as [R|[_ R]]; cbn [fst snd] in *; [contradiction|].
  destruct R as [q a b H|q er|w]; try reflexivity. unfold vs in H. rewrite !vmap_id in H. now subst.
Qed.

(** * Layout *)

(** What the grammar can see of a token: its kind or, for a number, its radix,
    which parts it has and whether it has underscores. *)
Inductive form : Type :=
| FKind (k : tkind)
| FNumber (r : radix) (fraction exponent suffix underscores : bool).

Definition has {A} (o : option A) : bool := match o with Some _ => true | None => false end.

Definition form_of (t : token) : form :=
  match t with
  | Tk k _ => FKind k
  | TkNumber n =>
      FNumber (n_radix n) (has (n_fractional n)) (has (n_exponent n)) (has (n_type_suffix n))
        (negb (n_underscores n =? 0))
  end.

(** The shape of an AST: without extents and without whitespace. *)
Definition no_ext (_ : extent) : extent := (0, 0).
Definition some_or_none (n : nat) : nat := if n =? 0 then 0 else 1.
Definition shape (v : val) : val := vmap no_ext some_or_none (strip v).

(** Two outcomes that agree but for positions; [ts1] and [ts2] are the tokens. *)
Definition same_outcome (ts1 ts2 : list token) (r1 r2 : file_result) : Prop :=
  match r1, r2 with
  | FileOk f1, FileOk f2 => shape f1 = shape f2
  | FileErr l1 es1, FileErr l2 es2 =>
      es1 = es2 /\
      exists i t1 t2, nth_error ts1 i = Some t1 /\ nth_error ts2 i = Some t2 /\
        l1 = fst (token_extent t1) /\ l2 = fst (token_extent t2)
  | _, _ => False
  end.

Lemma form_tmap ts1 ts2 : map form_of ts1 = map form_of ts2 ->
  map (tmap no_ext some_or_none) ts1 = map (tmap no_ext some_or_none) ts2.
Proof.
  revert ts2. induction ts1 as [|t1 ts1 IH]; intros [|t2 ts2] H; try discriminate; [reflexivity|].
  cbn [map] in *. injection H as H1 H2. f_equal; [|auto]. clear - H1.
  destruct t1 as [k1 e1|[r1 e1 i1 f1 x1 s1 u1]], t2 as [k2 e2|[r2 e2 i2 f2 x2 s2 u2]]; try discriminate; cbn in *.
  - injection H1 as ->. reflexivity.
  - injection H1 as -> H1 H2 H3 H4. unfold nmap. cbn.
    assert (O : forall a b : option extent, has a = has b -> option_map no_ext a = option_map no_ext b)
      by (intros [a|] [b|] E; try discriminate E; reflexivity).
    rewrite (O _ _ H1), (O _ _ H2), (O _ _ H3). unfold some_or_none.
    assert (E : (u1 =? 0) = (u2 =? 0)) by (destruct (u1 =? 0), (u2 =? 0); cbn in *; congruence).
    rewrite E. reflexivity.
Qed.

Section Layout.
  Variables toks1 toks2 : list token.
  Hypothesis HT : map (tmap no_ext some_or_none) toks1 = map (tmap no_ext some_or_none) toks2.

  Lemma nth_same i : has (nth_error toks1 i) = has (nth_error toks2 i).
  Proof.
    pose proof (f_equal (fun l => nth_error l i) HT) as H. cbn beta in H. rewrite !nth_error_map in H.
    destruct (nth_error toks1 i), (nth_error toks2 i); try discriminate; reflexivity.
  Qed.

  Lemma ex_same s e : bsim (fun a b => no_ext a = no_ext b) (ex toks1 s e) (ex toks2 s e).
  Proof.
    unfold ex. pose proof (nth_same (off s)) as H1. pose proof (nth_same (off e - 1)) as H2.
    destruct (nth_error toks1 (off s)), (nth_error toks2 (off s)); try discriminate; [|constructor].
    destruct (off s ?= off e); try constructor.
    - destruct (sub_rank (sub s) ?= sub_rank (sub e)); constructor; reflexivity.
    - destruct (nth_error toks1 (off e - 1)), (nth_error toks2 (off e - 1)); try discriminate; constructor. reflexivity.
  Qed.

  Lemma run_layout tbl n x e pm p :
    snd (run tbl toks1 n x e pm p) = Abort OutOfFuel \/
    fst (run tbl toks1 n x e pm p) = fst (run tbl toks2 n x e pm p) /\
    ps (vs no_ext some_or_none) (snd (run tbl toks1 n x e pm p)) (snd (run tbl toks2 n x e pm p)).
  Proof.
    assert (R : rs eq (vs no_ext some_or_none) (run tbl toks1 n x e pm p) (run tbl toks2 n x e pm p)).
    { apply run_rel; auto; try congruence.
      - unfold some_or_none. intros a b. destruct a, b; cbn; try discriminate; try tauto. split; discriminate.
      - intros s e0. apply ex_same.
      - split; reflexivity. }
    destruct R as [R|[[M1 M2] R]]; [left; exact R|right]. split; [|exact R].
    now apply pm_eq.
  Qed.

  Definition items_same (r1 r2 : items_result) : Prop :=
    match r1, r2 with
    | ItemsOk l1, ItemsOk l2 => map (vmap no_ext some_or_none) l1 = map (vmap no_ext some_or_none) l2
    | ItemsErr l1 es1, ItemsErr l2 es2 =>
        es1 = es2 /\
        exists i t1 t2, nth_error toks1 i = Some t1 /\ nth_error toks2 i = Some t2 /\
          l1 = fst (token_extent t1) /\ l2 = fst (token_extent t2)
    | ItemsAbort w, _ => True
    | _, _ => False
    end.

  Lemma items_layout n : forall pm pt, items_same (items_loop toks1 n pm pt) (items_loop toks2 n pm pt).
  Proof.
    induction n as [|n IH]; intros pm pt; cbn [items_loop]; [exact I|].
    assert (L : List.length toks1 = List.length toks2).
    { apply (f_equal (@List.length _)) in HT. now rewrite !map_length in HT. }
    assert (K : match nth_error toks1 (off pt) with Some t => is_kind KEndOfFile t | None => true end =
                match nth_error toks2 (off pt) with Some t => is_kind KEndOfFile t | None => true end).
    { pose proof (f_equal (fun l => nth_error l (off pt)) HT) as H. cbn beta in H. rewrite !nth_error_map in H.
      destruct (nth_error toks1 (off pt)), (nth_error toks2 (off pt)); try discriminate; [|reflexivity].
      injection H as H. apply (is_kind_rel _ _ _ _ _ H). }
    rewrite K, L.
    destruct (match nth_error toks2 (off pt) with Some t => is_kind KEndOfFile t | None => true end); [reflexivity|].
    pose proof (run_layout table (parse_fuel (List.length toks2)) item_grammar [] pm pt) as R.
    destruct (run table toks1 (parse_fuel (List.length toks2)) item_grammar [] pm pt) as [pm1 r1],
             (run table toks2 (parse_fuel (List.length toks2)) item_grammar [] pm pt) as [pm2 r2].
    cbn [fst snd] in R. destruct R as [->|[<- R]]; [exact I|].
    destruct R as [q a b H|q er|w]; cbn [finish]; [| |exact I].
    - destruct (off pt <? off q); [|exact I]. specialize (IH pm1 q). unfold items_same in IH.
      destruct (items_loop toks1 n pm1 q), (items_loop toks2 n pm1 q); try contradiction; cbn [items_same]; auto.
      cbn [map]. unfold vs in H. congruence.
    - pose proof (nth_same (off (f_point (add_failure pt_lt (m_failures pm1) q er)))) as N.
      set (j := off (f_point (add_failure pt_lt (m_failures pm1) q er))) in *.
      destruct (nth_error toks1 j) as [t1|] eqn:E1, (nth_error toks2 j) as [t2|] eqn:E2; try discriminate; [|exact I].
      cbn [items_same]. split; [reflexivity|]. eauto 8.
  Qed.
End Layout.

Lemma strip_node k fs : strip (VNode k fs) =
  VNode k ((fix go (fs : list val) (fields : list (string * ty * bool)) : list val :=
      match fs, fields with
      | x :: fs', (f, _, _) :: fields' => (if String.eqb f "whitespace" then VList [] else strip x) :: go fs' fields'
      | x :: fs', [] => strip x :: go fs' []
      | [], _ => []
      end) fs (fields_of k)).
Proof. reflexivity. Qed.

Lemma strip_vmap er eu v : vmap er eu (strip v) = strip (vmap er eu v).
Proof.
  induction v using val_ind'; try reflexivity; try (cbn [strip vmap]; congruence).
  - cbn [strip vmap]. f_equal. rewrite !map_map. apply map_ext_in. intros x I. rewrite Forall_forall in H. auto.
  - cbn [vmap]. rewrite !strip_node. cbn [vmap]. f_equal. generalize (fields_of k).
    induction H as [|x fs Hx _ IH]; intros fields; [reflexivity|].
    destruct fields as [|[[f t] b] fields]; cbn [map]; rewrite IH, ?Hx; [reflexivity|].
    destruct (String.eqb f "whitespace"); [reflexivity|]. rewrite Hx. reflexivity.
Qed.

(** The shape of an accepted file is the shape of its items. *)
Theorem layout_outcome X c1 c2 ts1 ts2 : xid_sane X ->
  tokenize X c1 = TokOk ts1 -> tokenize X c2 = TokOk ts2 ->
  map form_of (solid ts1) = map form_of (solid ts2) ->
  same_outcome (solid ts1) (solid ts2) (parse_rust_file X c1) (parse_rust_file X c2).
Proof.
  intros XS T1 T2 F. apply form_tmap in F.
  assert (Q : items_same (solid ts1) (solid ts2) (parse_items (solid ts1)) (parse_items (solid ts2))).
  { unfold parse_items. assert (L : List.length (solid ts1) = List.length (solid ts2)).
    { apply (f_equal (@List.length _)) in F. now rewrite !map_length in F. }
    rewrite L. now apply items_layout. }
  pose proof (file_accepted X XS c1) as A1. pose proof (file_accepted X XS c2) as A2.
  pose proof (file_total X XS c1) as N1. pose proof (file_total X XS c2) as N2.
  assert (P1 : match parse_rust_file X c1 with FileTokErr _ => False | FileErr l es => parse_items (solid ts1) = ItemsErr l es | _ => True end).
  { unfold parse_rust_file. rewrite T1. pose proof (partition_filter ts1 []) as PF.
    destruct (partition_tokens ts1 []) as [ws toks]. cbn [snd] in PF. rewrite PF, solid_significant.
    destruct (parse_items (solid ts1)); try exact I; try reflexivity.
    destruct (apportion _ _) as [[f [|]]|]; exact I. }
  assert (P2 : match parse_rust_file X c2 with FileTokErr _ => False | FileErr l es => parse_items (solid ts2) = ItemsErr l es | _ => True end).
  { unfold parse_rust_file. rewrite T2. pose proof (partition_filter ts2 []) as PF.
    destruct (partition_tokens ts2 []) as [ws toks]. cbn [snd] in PF. rewrite PF, solid_significant.
    destruct (parse_items (solid ts2)); try exact I; try reflexivity.
    destruct (apportion _ _) as [[f [|]]|]; exact I. }
  destruct (parse_rust_file X c1) as [f1|e1|l1 es1|w1]; [|contradiction| |now destruct (N1 w1)].
  - destruct (A1 f1 eq_refl) as (ts1' & p1 & T1' & I1 & F1). rewrite T1 in T1'. injection T1' as <-.
    rewrite I1 in Q.
    destruct (parse_rust_file X c2) as [f2|e2|l2 es2|w2]; [|contradiction| |now destruct (N2 w2)].
    + destruct (A2 f2 eq_refl) as (ts2' & p2 & T2' & I2 & F2). rewrite T2 in T2'. injection T2' as <-.
      rewrite I2 in Q. cbn [items_same] in Q. cbn [same_outcome]. unfold shape.
      rewrite (fo_strip _ _ _ _ _ F1), (fo_strip _ _ _ _ _ F2), !strip_vmap. cbn [vmap map].
      now rewrite Q.
    + rewrite P2 in Q. contradiction.
  - rewrite P1 in Q.
    destruct (parse_rust_file X c2) as [f2|e2|l2 es2|w2]; [|contradiction| |now destruct (N2 w2)].
    + destruct (A2 f2 eq_refl) as (ts2' & p2 & T2' & I2 & F2). rewrite T2 in T2'. injection T2' as <-.
      rewrite I2 in Q. contradiction.
    + rewrite P2 in Q. exact Q.
Qed.

(** * Depth *)

(** [items_loop] with the depth of recursion as an argument (src/lib.rs:325-341). *)
Fixpoint items_loop_at (depth : nat) (toks : list token) (n : nat) (pm : pm_t) (pt : point) : items_result :=
  match n with
  | 0 => ItemsAbort OutOfFuel
  | S n' =>
      if match nth_error toks (off pt) with Some t => is_kind KEndOfFile t | None => true end
      then ItemsOk []
      else
        let (pm1, r) := run table toks depth item_grammar [] pm pt in
        let (pm2, r0) := finish pt_lt pt_zero pm1 r in
        match r0 with
        | Success next v =>
            if off pt <? off next
            then match items_loop_at depth toks n' pm2 next with
                 | ItemsOk items => ItemsOk (v :: items)
                 | ItemsErr l es => ItemsErr l es
                 | ItemsAbort w => ItemsAbort w
                 end
            else ItemsAbort Panicked
        | Failure p errs =>
            match nth_error toks (off p) with
            | Some t => ItemsErr (fst (token_extent t)) errs
            | None => ItemsAbort Panicked
            end
        | Abort w => ItemsAbort w
        end
  end.

Lemma items_depth toks d n : parse_fuel (List.length toks) <= d -> forall pm pt,
  (forall w, items_loop toks n pm pt <> ItemsAbort w) -> items_loop_at d toks n pm pt = items_loop toks n pm pt.
Proof.
  intros L. induction n as [|n IH]; intros pm pt NA; [reflexivity|]. cbn [items_loop items_loop_at] in *.
  destruct (match nth_error toks (off pt) with Some t => is_kind KEndOfFile t | None => true end); [reflexivity|].
  rewrite (run_fuel table toks (parse_fuel (List.length toks)) d _ _ _ _ L).
  - destruct (run table toks (parse_fuel (List.length toks)) item_grammar [] pm pt) as [pm1 r].
    destruct (finish pt_lt pt_zero pm1 r) as [pm2 [q v|q e|w]]; try reflexivity.
    destruct (off pt <? off q); [|reflexivity]. rewrite IH; [reflexivity|].
    intros w E. rewrite E in NA. now apply (NA w).
  - intros E. destruct (run table toks (parse_fuel (List.length toks)) item_grammar [] pm pt) as [pm1 r].
    cbn [snd] in E. subst r. now apply (NA OutOfFuel).
Qed.
