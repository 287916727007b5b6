(** The apportioner on well-typed trees: total, changes only the whitespace
    vectors, loses nothing and attaches entries to the innermost collector. *)

From Coq Require Import String List Arith Bool Lia Permutation Sorted.
From Verif Require Import Base Peresil Token Schema Value Grammar Points Apportion Whitespace Static Typing.
Import ListNotations.
Local Open Scope string_scope.
Local Open Scope list_scope.
Local Open Scope nat_scope.

(** * Equations for the nested recursions *)

Fixpoint strip_fields (fs : list val) (fields : list (string * ty * bool)) : list val :=
  match fs, fields with
  | x :: fs', (f, _, _) :: fields' =>
      (if String.eqb f "whitespace" then VList [] else strip x) :: strip_fields fs' fields'
  | x :: fs', [] => strip x :: strip_fields fs' []
  | [], _ => []
  end.

Lemma strip_node k fs : strip (VNode k fs) = VNode k (strip_fields fs (fields_of k)).
Proof.
  reflexivity.
Qed.

Lemma nodes_node k fs : nodes (VNode k fs) = VNode k fs :: flat_map nodes (reached fs (fields_of k)).
Proof.
  cbn [nodes]. f_equal. generalize (fields_of k). induction fs as [|x fs IH]; intros [|[[f t] b] fields]; auto.
  cbn [reached]. destruct b; cbn [flat_map]; now rewrite <- IH.
Qed.

Fixpoint ap_list (l : list val) (m : wsmap) : bres (list val * wsmap) :=
  match l with
  | [] => BOk ([], m)
  | x :: l' =>
      bbind (apportion x m) (fun '(x', m1) =>
      bbind (ap_list l' m1) (fun '(r, m2) => BOk (x' :: r, m2)))
  end.

Fixpoint ap_fields (fs : list val) (fields : list (string * ty * bool)) (m : wsmap) : bres (list val * wsmap) :=
  match fs, fields with
  | [], [] => BOk ([], m)
  | x :: fs', (_, _, visited) :: fields' =>
      bbind (if visited then apportion x m else BOk (x, m)) (fun '(x', m1) =>
      bbind (ap_fields fs' fields' m1) (fun '(r, m2) => BOk (x' :: r, m2)))
  | _, _ => BAbort IllTyped
  end.

Lemma apportion_list l m : apportion (VList l) m = bbind (ap_list l m) (fun '(l', m') => BOk (VList l', m')).
Proof.
  reflexivity.
Qed.

Lemma apportion_node k fs m fields : struct_fields k = Some fields ->
  apportion (VNode k fs) m = bbind (ap_fields fs fields m) (fun '(fs', m') => exit_node k fields fs' m').
Proof.
  intros S. cbn [apportion]. rewrite S. reflexivity.
Qed.

(** * Schema facts *)

Fixpoint nofile (t : ty) : bool :=
  match t with
  | TN k => negb (String.eqb k "File")
  | TOpt x | TList x => nofile x
  | TPair x y => nofile x && nofile y
  | _ => true
  end.

Lemma assoc_forallb {A} (P : string * A -> bool) (l : list (string * A)) k a :
  forallb P l = true -> assoc k l = Some a -> P (k, a) = true.
Proof. intros F H. rewrite forallb_forall in F. apply F. now apply assoc_in. Qed.

Lemma struct_nofile k fields : struct_fields k = Some fields -> forallb (fun f => nofile (snd (fst f))) fields = true.
Proof.
  assert (forallb (fun s => forallb (fun f => nofile (snd (fst f))) (snd s)) (structs ++ internal_structs) = true) as H
    by (vm_compute; reflexivity).
  intros S. exact (assoc_forallb _ _ _ _ H S).
Qed.

Lemma enum_nofile k vs v t : enum_variants k = Some vs -> assoc v vs = Some (Some t) -> nofile t = true.
Proof.
  assert (forallb (fun s => forallb (fun x => match snd x with Some t => nofile t | None => true end) (snd s))
            (enums ++ internal_enums) = true) as H by (vm_compute; reflexivity).
  intros S A. pose proof (assoc_forallb _ _ _ _ H S) as H1. exact (assoc_forallb _ _ _ _ H1 A).
Qed.

Definition ws_field_ok (fields : list (string * ty * bool)) : bool :=
  match field_index "whitespace" fields with
  | Some i => match nth_error fields i with
              | Some (f, TList (TN "Whitespace"), _) => String.eqb f "whitespace"
              | _ => false
              end
  | None => false
  end.

Definition ext_field_ok (fields : list (string * ty * bool)) : bool :=
  match fields with (_, TExt, _) :: _ => true | _ => false end.

Lemma handled_ok k : existsb (String.eqb k) handled = true ->
  exists fields, struct_fields k = Some fields /\ ws_field_ok fields = true /\ ext_field_ok fields = true.
Proof.
  assert (forallb (fun k => match struct_fields k with
                            | Some fields => ws_field_ok fields && ext_field_ok fields
                            | None => false end) handled = true) as H by (vm_compute; reflexivity).
  intros E. apply existsb_exists in E. destruct E as (k' & I & E). apply String.eqb_eq in E. subst k'.
  rewrite forallb_forall in H. apply H in I. destruct (struct_fields k) as [fields|]; [|discriminate].
  apply andb_true_iff in I. destruct I. eauto.
Qed.

Lemma handled_collects k : existsb (String.eqb k) handled = collects k.
Proof.
  destruct (existsb (String.eqb k) handled) eqn:E.
  - symmetry. apply existsb_exists in E. destruct E as (k' & I & E). apply String.eqb_eq in E. subst k'.
    assert (forallb collects handled = true) as H by (vm_compute; reflexivity).
    rewrite forallb_forall in H. now apply H.
  - destruct (collects k) eqn:C; [|reflexivity]. exfalso.
    assert (forallb (fun s => implb (collects (fst s)) (existsb (String.eqb (fst s)) handled)) structs = true) as H
      by (vm_compute; reflexivity).
    pose proof C as C'. unfold collects in C'. destruct (assoc k structs) as [fields|] eqn:A; [|discriminate].
    pose proof (assoc_forallb _ _ _ _ H A) as H1. cbn [fst] in H1. rewrite C, E in H1. discriminate.
Qed.

(** * Whitespace values *)

Lemma ws_value w : typed w (TN "Whitespace") -> nodes w = [] /\ whitespaces w = [w].
Proof.
  intros T. destruct (typed_enum _ _ _ T eq_refl eq_refl) as (n & p & -> & [(t & A & P)|(A & ->)]).
  - split; [|reflexivity]. cbn [nodes]. cbn [assoc String.eqb Ascii.eqb Bool.eqb] in A.
    destruct (String.eqb n "Comment").
    + injection A as <-. destruct (typed_enum _ _ _ P eq_refl eq_refl) as (n' & p' & -> & [(t & A & P')|(A & ->)]).
      * cbn [nodes]. cbn [assoc] in A. destruct (String.eqb n' "Line"); [injection A as <-; inversion P'; reflexivity|].
        destruct (String.eqb n' "Block"); [injection A as <-; inversion P'; reflexivity|discriminate].
      * reflexivity.
    + destruct (String.eqb n "Whitespace"); [injection A as <-; inversion P; reflexivity|discriminate].
  - split; reflexivity.
Qed.

Lemma ws_values l : (forall w, In w l -> typed w (TN "Whitespace")) ->
  flat_map nodes l = [] /\ flat_map whitespaces l = l.
Proof.
  induction l as [|w l IH]; intros H; [auto|]. cbn [flat_map].
  destruct (ws_value w) as [-> ->]; [apply H; now left|].
  destruct IH as [-> ->]; [intros x Hx; apply H; now right|]. auto.
Qed.

(** * The map of whitespace still to place *)

(** Every extent in the value satisfies [Q]. *)
Definition vq (Q : extent -> Prop) (v : val) : Prop := Forall Q (extents v).

Definition wsm (Q : extent -> Prop) (m : wsmap) : Prop :=
  Forall (fun x => typed (snd x) (TN "Whitespace") /\
                   (exists e, extent_of (snd x) = Some e /\ fst e = fst x) /\ vq Q (snd x)) m /\
  StronglySorted (fun a b => fst a < fst b) m.

Lemma wsm_filter Q f m : wsm Q m -> wsm Q (filter f m).
Proof.
  intros [A B]. split.
  - rewrite Forall_forall in *. intros x Hx. apply filter_In in Hx. apply A. tauto.
  - clear A. induction B as [|x m S IH F]; cbn [filter]; [constructor|]. destruct (f x); [|auto].
    constructor; [auto|]. rewrite Forall_forall in *. intros y Hy. apply filter_In in Hy. apply F. tauto.
Qed.

Lemma wsm_start Q m x : wsm Q m -> In x m -> start_of (snd x) = fst x.
Proof.
  intros [A _] H. rewrite Forall_forall in A. destruct (A x H) as (_ & (e & E & F) & _).
  unfold start_of. now rewrite E.
Qed.

Definition untaken (ns : list val) (m : wsmap) : wsmap := filter (fun x => negb (collected (fst x) ns)) m.

Lemma collected_app k a b : collected k (a ++ b) = collected k a || collected k b.
Proof. apply existsb_app. Qed.

Lemma filter_filter {A} (f h : A -> bool) l : filter f (filter h l) = filter (fun x => h x && f x) l.
Proof.
  induction l as [|x l IH]; [reflexivity|]. cbn [filter]. destruct (h x); cbn [filter andb]; rewrite <- IH; auto.
Qed.

Lemma untaken_app a b m : untaken (a ++ b) m = untaken b (untaken a m).
Proof.
  unfold untaken. rewrite filter_filter. apply filter_ext. intros x. now rewrite collected_app, negb_orb.
Qed.

Lemma untaken_nil m : untaken [] m = m.
Proof. unfold untaken. induction m as [|x m IH]; [reflexivity|]. cbn in *. now rewrite IH. Qed.

Lemma collected_map k a b : map collector a = map collector b -> collected k a = collected k b.
Proof.
  unfold collected. revert b. induction a as [|x a IH]; intros [|y b] E; try discriminate; [reflexivity|].
  cbn in E. injection E as E1 E2. cbn [existsb]. now rewrite E1, (IH b E2).
Qed.

Lemma untaken_map a b m : map collector a = map collector b -> untaken a m = untaken b m.
Proof. intros E. unfold untaken. apply filter_ext. intros x. now rewrite (collected_map _ _ _ E). Qed.

(** * Replacing a field *)

Fixpoint replace_nth (i : nat) (y : val) (fs : list val) : list val :=
  match i, fs with
  | 0, _ :: fs' => y :: fs'
  | S i, x :: fs' => x :: replace_nth i y fs'
  | _, [] => []
  end.

Lemma extend_nth_ok i taken fs l : nth_error fs i = Some (VList l) ->
  extend_nth i taken fs = BOk (replace_nth i (VList (l ++ taken)) fs).
Proof.
  revert fs. induction i as [|i IH]; intros [|x fs] H; try discriminate.
  - cbn in H. injection H as ->. reflexivity.
  - cbn [nth_error] in H. cbn [extend_nth replace_nth]. now rewrite (IH _ H).
Qed.

Lemma nth_replace i y fs x : nth_error fs i = Some x -> nth_error (replace_nth i y fs) i = Some y.
Proof. revert fs. induction i as [|i IH]; intros [|z fs] H; try discriminate; [reflexivity|]. cbn in *. eauto. Qed.

Lemma strip_replace i y fs fields f t b x : nth_error fs i = Some x -> nth_error fields i = Some (f, t, b) ->
  String.eqb f "whitespace" = true -> strip_fields (replace_nth i y fs) fields = strip_fields fs fields.
Proof.
  revert fs fields. induction i as [|i IH]; intros [|z fs] [|[[f' t'] b'] fields] H F W; try discriminate.
  - cbn in F. injection F as -> -> ->. cbn [replace_nth strip_fields]. now rewrite W.
  - cbn [nth_error] in H, F. cbn [replace_nth strip_fields]. now rewrite (IH _ _ H F W).
Qed.

Lemma nodes_replace i y fs fields x : nth_error fs i = Some x -> nodes y = nodes x ->
  flat_map nodes (reached (replace_nth i y fs) fields) = flat_map nodes (reached fs fields).
Proof.
  intros H E. revert fs fields H. induction i as [|i IH]; intros [|z fs] [|[[f' t'] b'] fields] H; try discriminate; auto.
  - cbn in H. injection H as ->. cbn [replace_nth reached]. destruct b'; auto. cbn [flat_map]. now rewrite E.
  - cbn [nth_error] in H. cbn [replace_nth reached].
    destruct b'; cbn [flat_map]; now rewrite (IH _ _ H).
Qed.

Lemma ws_replace i l taken fs : nth_error fs i = Some (VList l) ->
  Permutation (flat_map whitespaces (replace_nth i (VList (l ++ taken)) fs))
              (flat_map whitespaces fs ++ flat_map whitespaces taken).
Proof.
  revert fs. induction i as [|i IH]; intros [|z fs] H; try discriminate.
  - cbn in H. injection H as ->. cbn [replace_nth flat_map whitespaces]. rewrite flat_map_app.
    rewrite <- !app_assoc. apply Permutation_app_head. apply Permutation_app_comm.
  - cbn [nth_error] in H. cbn [replace_nth flat_map]. rewrite <- app_assoc.
    apply Permutation_app_head. now apply IH.
Qed.

Lemma typed_replace i y fs (fields : list (string * ty * bool)) f t b : Forall2 (fun v f => typed v (snd (fst f))) fs fields ->
  nth_error fields i = Some (f, t, b) -> typed y t ->
  Forall2 (fun v f => typed v (snd (fst f))) (replace_nth i y fs) fields.
Proof.
  intros F. revert i. induction F as [|x [[f' t'] b'] fs fields H F IH]; intros i N T; destruct i; try discriminate;
    cbn in N; cbn [replace_nth].
  - injection N as -> -> ->. now constructor.
  - constructor; auto.
Qed.

Lemma vq_replace Q i y fs : Forall (vq Q) fs -> vq Q y -> Forall (vq Q) (replace_nth i y fs).
Proof.
  intros F H. revert i. induction F as [|x fs Hx F IH]; intros [|i]; cbn [replace_nth]; constructor; auto.
Qed.

(** * The main induction *)

Definition fresh (v : val) : Prop := Forall (fun n => whitespace_of n = []) (nodes v).

Record ap (Q : extent -> Prop) (v : val) (t : ty) (m : wsmap) (v' : val) (m' : wsmap) : Prop := {
  ap_typed : typed v' t;
  ap_vq : vq Q v';
  ap_strip : strip v' = strip v;
  ap_coll : map collector (nodes v') = map collector (nodes v);
  ap_ext : extent_of v' = extent_of v;
  ap_left : m' = untaken (nodes v) m;
  ap_perm : Permutation (whitespaces v' ++ map snd m') (whitespaces v ++ map snd m);
  ap_placed : Forall placed (nodes v');
  ap_nil : v = VList [] -> v' = VList []
}.

Lemma ap_same Q v t m : typed v t -> vq Q v -> nodes v = [] -> ap Q v t m v m.
Proof.
  intros T V N. constructor; auto.
  - now rewrite N, untaken_nil.
  - rewrite N. constructor.
Qed.

Definition ap_spec (v : val) : Prop := forall (Q : extent -> Prop) t m, (forall e, Q e -> fst e <= snd e) -> typed v t -> nofile t = true -> vq Q v -> wsm Q m -> fresh v ->
  exists v' m', apportion v m = BOk (v', m') /\ ap Q v t m v' m'.

Lemma vq_forall Q l : Forall (vq Q) l <-> vq Q (VList l).
Proof.
  unfold vq. cbn [extents]. induction l as [|x l IH]; cbn [flat_map].
  - split; constructor.
  - rewrite Forall_app, <- IH. split; [intros H; inversion H; auto|intros [A B]; now constructor].
Qed.

Lemma fresh_list l : fresh (VList l) <-> Forall fresh l.
Proof.
  unfold fresh. cbn [nodes]. induction l as [|x l IH]; cbn [flat_map].
  - split; constructor.
  - rewrite Forall_app, IH. split; [intros [A B]; now constructor|intros H; inversion H; auto].
Qed.

Lemma list_ok (Q : extent -> Prop) t : (forall e, Q e -> fst e <= snd e) -> nofile t = true -> forall l, Forall ap_spec l ->
  forall m, (forall v, In v l -> typed v t) -> Forall (vq Q) l -> wsm Q m -> Forall fresh l ->
  exists l' m', ap_list l m = BOk (l', m') /\
    (forall v, In v l' -> typed v t) /\ Forall (vq Q) l' /\ map strip l' = map strip l /\
    map collector (flat_map nodes l') = map collector (flat_map nodes l) /\
    m' = untaken (flat_map nodes l) m /\
    Permutation (flat_map whitespaces l' ++ map snd m') (flat_map whitespaces l ++ map snd m) /\
    Forall placed (flat_map nodes l') /\ List.length l' = List.length l.
Proof.
  intros QO NF l F. induction F as [|x l Hx F IH]; intros m T V W Fr.
  - exists [], m. cbn. rewrite untaken_nil. repeat (split; auto).
  - inversion V as [|? ? V1 V2]; subst. inversion Fr as [|? ? Fr1 Fr2]; subst.
    destruct (Hx Q t m QO (T x (or_introl eq_refl)) NF V1 W Fr1) as (x' & m1 & E1 & A1). destruct A1.
    assert (wsm Q m1) as W1 by (subst m1; now apply wsm_filter).
    destruct (IH m1 (fun v Hv => T v (or_intror Hv)) V2 W1 Fr2)
      as (l' & m2 & E2 & T2 & VV & S2 & C2 & L2 & P2 & PL2 & LN).
    exists (x' :: l'), m2. cbn [ap_list]. rewrite E1. cbn [bbind]. rewrite E2. cbn [bbind].
    split; [reflexivity|]. split; [intros v [<-|Hv]; auto|]. split; [now constructor|].
    split; [cbn [map]; congruence|]. split; [cbn [flat_map]; rewrite !map_app; congruence|].
    split; [cbn [flat_map]; rewrite untaken_app; congruence|].
    split; [|split; [cbn [flat_map]; apply Forall_app; auto|cbn [List.length]; congruence]].
    cbn [flat_map]. rewrite <- !app_assoc. rewrite P2.
    rewrite (app_assoc (whitespaces x')), (Permutation_app_comm (whitespaces x')), <- app_assoc, ap_perm0.
    rewrite !app_assoc. apply Permutation_app_tail. apply Permutation_app_comm.
Qed.

Lemma fields_ok (Q : extent -> Prop) fs (fields : list (string * ty * bool)) : (forall e, Q e -> fst e <= snd e) -> Forall ap_spec fs -> Forall2 (fun v f => typed v (snd (fst f))) fs fields ->
  forallb (fun f => nofile (snd (fst f))) fields = true ->
  forall m, Forall (vq Q) fs -> wsm Q m -> Forall fresh (reached fs fields) ->
  exists fs' m', ap_fields fs fields m = BOk (fs', m') /\
    Forall2 (fun v f => typed v (snd (fst f))) fs' fields /\ Forall (vq Q) fs' /\
    strip_fields fs' fields = strip_fields fs fields /\
    map collector (flat_map nodes (reached fs' fields)) = map collector (flat_map nodes (reached fs fields)) /\
    m' = untaken (flat_map nodes (reached fs fields)) m /\
    Permutation (flat_map whitespaces fs' ++ map snd m') (flat_map whitespaces fs ++ map snd m) /\
    Forall placed (flat_map nodes (reached fs' fields)) /\
    Forall2 (fun x x' => extent_of x' = extent_of x /\ (x = VList [] -> x' = VList [])) fs fs'.
Proof.
  intros QO F. revert fields. induction F as [|x fs Hx F IH]; intros fields T NF m V W Fr.
  - inversion T; subst. exists [], m. cbn. rewrite untaken_nil. repeat (split; auto).
  - inversion T as [|? [[f t] b] ? fields' Tx T']; subst. cbn [forallb snd fst] in NF, Tx.
    apply andb_true_iff in NF. destruct NF as [NF1 NF2].
    inversion V as [|? ? V1 V2]; subst.
    assert (exists x' m1, (if b then apportion x m else BOk (x, m)) = BOk (x', m1) /\
              typed x' t /\ vq Q x' /\ strip x' = strip x /\
              map collector (if b then nodes x' else []) = map collector (if b then nodes x else []) /\
              m1 = untaken (if b then nodes x else []) m /\
              Permutation (whitespaces x' ++ map snd m1) (whitespaces x ++ map snd m) /\
              Forall placed (if b then nodes x' else []) /\ extent_of x' = extent_of x /\
              (x = VList [] -> x' = VList [])) as (x' & m1 & E1 & X1 & X2 & X3 & X4 & X5 & X6 & X7 & X8 & X9).
    { destruct b.
      - assert (fresh x) as Fx by (cbn [reached] in Fr; now inversion Fr).
        destruct (Hx Q t m QO Tx NF1 V1 W Fx) as (x' & m1 & E1 & A1). destruct A1.
        exists x', m1. repeat (split; auto).
      - exists x, m. rewrite untaken_nil. repeat (split; auto). }
    assert (wsm Q m1) as W1 by (subst m1; now apply wsm_filter).
    assert (Forall fresh (reached fs fields')) as Fr' by (cbn [reached] in Fr; destruct b; [now inversion Fr|auto]).
    destruct (IH fields' T' NF2 m1 V2 W1 Fr') as (fs' & m2 & E2 & T2 & VV & S2 & C2 & L2 & P2 & PL2 & FF).
    exists (x' :: fs'), m2. cbn [ap_fields]. rewrite E1. cbn [bbind]. rewrite E2. cbn [bbind].
    assert (forall y ys, flat_map nodes (reached (y :: ys) ((f, t, b) :: fields')) =
              (if b then nodes y else []) ++ flat_map nodes (reached ys fields')) as RE.
    { intros y ys. cbn [reached]. now destruct b. }
    split; [reflexivity|]. split; [constructor; auto|]. split; [now constructor|].
    split; [cbn [strip_fields]; rewrite X3; congruence|].
    split; [rewrite !RE, !map_app; congruence|].
    split; [rewrite RE, untaken_app; congruence|].
    split; [|split; [rewrite RE; apply Forall_app; auto|constructor; auto]].
    cbn [flat_map]. rewrite <- !app_assoc. rewrite P2.
    rewrite (app_assoc (whitespaces x')), (Permutation_app_comm (whitespaces x')), <- app_assoc, X6.
    rewrite !app_assoc. apply Permutation_app_tail. apply Permutation_app_comm.
Qed.

Lemma partition_perm {A} (f : A -> bool) l : Permutation (filter f l ++ filter (fun x => negb (f x)) l) l.
Proof.
  induction l as [|x l IH]; [reflexivity|]. cbn [filter]. destruct (f x); cbn [negb app].
  - now constructor.
  - etransitivity; [symmetry; apply Permutation_middle|]. now constructor.
Qed.

Lemma sorted_starts Q m : wsm Q m -> StronglySorted (fun a b => start_of a < start_of b) (map snd m).
Proof.
  intros [A B]. induction B as [|x m S IH F]; cbn [map]; [constructor|].
  inversion A as [|? ? A1 A2]; subst. constructor; [auto|]. rewrite Forall_map. rewrite Forall_forall in *.
  intros y Hy. pose proof (F y Hy). destruct A1 as (_ & (e & E & E') & _).
  destruct (A2 y Hy) as (_ & (e2 & E2 & E2') & _). unfold start_of. rewrite E, E2. lia.
Qed.

Lemma in_range_contains e k : in_range e k = contains e k.
Proof. reflexivity. Qed.

Lemma node_extent k fs fs' (fields : list (string * ty * bool)) :
  Forall2 (fun v f => typed v (snd (fst f))) fs fields ->
  Forall2 (fun v f => typed v (snd (fst f))) fs' fields ->
  Forall2 (fun x x' => extent_of x' = extent_of x /\ (x = VList [] -> x' = VList [])) fs fs' ->
  extent_of (VNode k fs') = extent_of (VNode k fs).
Proof.
  intros Tf T2 FF. destruct FF as [|x x' fs0 fs0' [X1 X2] FF]; [reflexivity|].
  destruct fields as [|[[f1 t1] b1] fields]; [inversion Tf|].
  inversion Tf as [|? ? ? ? Tx]; subst. inversion T2 as [|? ? ? ? Tx']; subst. cbn [snd fst] in *.
  inversion Tx; subst; inversion Tx'; subst; cbn [extent_of] in X1 |- *; congruence.
Qed.

Theorem apportion_ok v : ap_spec v.
Proof.
  induction v as [e|b|n|p|n| | |v IH|l IH|a b IHa IHb|k fs IH|en vn p IH] using val_ind';
    intros Q t m QO T NF V W Fr;
    try (do 2 eexists; split; [reflexivity|]; apply ap_same; auto; fail).
  - (* Some *) inversion T as [| | | | | | |? u Tv| | | | |]; subst. cbn [nofile] in NF.
    destruct (IH Q u m QO Tv NF V W Fr) as (v' & m' & E & A). destruct A.
    exists (VSome v'), m'. cbn [apportion]. rewrite E. split; [reflexivity|].
    constructor; auto; try (cbn [strip]; congruence); try discriminate. now constructor.
  - (* List *) inversion T as [| | | | | | | |? u Tl| | | |]; subst. cbn [nofile] in NF.
    apply vq_forall in V. apply fresh_list in Fr.
    destruct (list_ok Q u QO NF l IH m Tl V W Fr) as (l' & m' & E & T2 & VV & S2 & C2 & L2 & P2 & PL2 & LN).
    exists (VList l'), m'. rewrite apportion_list, E. split; [reflexivity|].
    constructor; auto.
    + now constructor.
    + now apply vq_forall.
    + cbn [strip]. congruence.
    + intros [= ->]. destruct l'; [reflexivity|discriminate].
  - (* Node *)
    assert (exists fields, struct_fields k = Some fields /\ t = TN k /\
              Forall2 (fun v f => typed v (snd (fst f))) fs fields) as (fields & SF & -> & Tf).
    { inversion T; subst; eauto. }
    assert (fields_of k = fields) as FO by (unfold fields_of; now rewrite SF).
    assert (Forall (vq Q) fs) as Vf.
    { apply vq_forall. exact V. }
    unfold fresh in Fr. rewrite nodes_node, FO in Fr. inversion Fr as [|? ? Fr1 Fr2]. clear H H0 x l.
    assert (Forall fresh (reached fs fields)) as Fr3.
    { apply fresh_list. exact Fr2. }
    destruct (fields_ok Q fs fields QO IH Tf (struct_nofile _ _ SF) m Vf W Fr3)
      as (fs' & m' & E & T2 & VV & S2 & C2 & L2 & P2 & PL2 & FF).
    assert (wsm Q m') as W' by (subst m'; now apply wsm_filter).
    rewrite (apportion_node _ _ _ _ SF), E. cbn [bbind].
    assert (extent_of (VNode k fs') = extent_of (VNode k fs)) as EE.
    { eapply node_extent; eauto. }
    unfold exit_node.
    assert (String.eqb k "File" = false) as NK by (cbn [nofile] in NF; now apply negb_true_iff in NF).
    rewrite NK. destruct (existsb (String.eqb k) handled) eqn:HK.
    + pose proof HK as HC. rewrite handled_collects in HC.
      destruct (handled_ok _ HK) as (fields' & SF' & WF' & EF'). rewrite SF in SF'. injection SF' as <-.
      unfold ws_field_ok in WF'. destruct (field_index "whitespace" fields) as [i|] eqn:FI; [|discriminate].
      destruct (nth_error fields i) as [[[f ft] fb]|] eqn:NI; [|discriminate].
      assert (ft = TList (TN "Whitespace") /\ String.eqb f "whitespace" = true) as [-> FW].
      { destruct ft as [| | | | | | |u| |]; try discriminate. destruct u as [| | | | | | | | |nm]; try discriminate.
        repeat match type of WF' with match ?s with _ => _ end = _ => destruct s; try discriminate end. auto. }
      assert (exists l, nth_error fs' i = Some (VList l) /\ typed (VList l) (TList (TN "Whitespace"))) as (l & NL & TL).
      { assert (exists x, nth_error fs' i = Some x /\ typed x (TList (TN "Whitespace"))) as (x & X1 & X2).
        { clear -T2 NI. revert i NI. induction T2 as [|x ff fs' fields Hx F IHF]; intros i NI; [destruct i; discriminate|].
          destruct i; cbn in NI; [injection NI as ->; exists x; auto|]. apply IHF in NI. exact NI. }
        inversion X2; subst; eauto. }
      assert (l = []) as ->.
      { unfold whitespace_of, get_field in Fr1. rewrite SF, FI in Fr1.
        assert (exists x, nth_error fs i = Some x /\ extent_of (VList l) = extent_of x /\ (x = VList [] -> VList l = VList []))
          as (x & X1 & _ & X2).
        { clear -FF NL. revert i NL. induction FF as [|x x' fs fs' Hx F IHF]; intros i NL; [destruct i; discriminate|].
          destruct i; cbn in NL; [injection NL as ->; exists x; auto|]. apply IHF in NL. exact NL. }
        rewrite X1 in Fr1.
        assert (typed x (TList (TN "Whitespace"))) as Tx.
        { clear -Tf NI X1. revert i NI X1. induction Tf as [|y ff fs fields Hx F IHF]; intros i NI X1; [destruct i; discriminate|].
          destruct i; cbn in NI, X1; [injection NI as ->; injection X1 as ->; exact Hx|]. eapply IHF; eauto. }
        inversion Tx; subst x. rewrite Fr1 in X2. specialize (X2 eq_refl). now injection X2. }
      assert (exists e, extent_of (VNode k fs') = Some e /\ Q e) as (e & EX & IE).
      { destruct fields as [|[[f1 t1] b1] fl]; [discriminate|]. destruct t1; try discriminate.
        inversion T2 as [|x ? ? ? Tx]; subst. cbn [snd fst] in Tx. inversion Tx; subst. cbn [extent_of].
        inversion VV as [|? ? Ve]; subst. unfold vq in Ve. cbn [extents] in Ve. inversion Ve; eauto. }
      rewrite EX. unfold divvy_up. assert (snd e <? fst e = false) as -> by (apply Nat.ltb_ge; auto).
      cbn [bbind]. unfold extend_whitespace. rewrite FI.
      set (taken := map snd (filter (fun x => in_range e (fst x)) m')).
      rewrite (extend_nth_ok i taken fs' [] NL). cbn [bbind app].
      set (fs2 := replace_nth i (VList taken) fs').
      do 2 eexists. split; [reflexivity|].
      assert (forall w, In w taken -> typed w (TN "Whitespace")) as TT.
      { intros w Hw. apply in_map_iff in Hw. destruct Hw as (x & <- & Hx). apply filter_In in Hx.
        destruct W' as [W1 _]. rewrite Forall_forall in W1. now apply W1. }
      assert (flat_map nodes (reached fs2 fields) = flat_map nodes (reached fs' fields)) as NR.
      { apply (nodes_replace _ _ _ _ _ NL). cbn [nodes]. destruct (ws_values taken TT) as [-> _]. reflexivity. }
      assert (nth_error fs2 i = Some (VList taken)) as N2 by (exact (nth_replace _ _ _ _ NL)).
      assert (whitespace_of (VNode k fs2) = taken) as WO.
      { unfold whitespace_of, get_field. rewrite SF, FI, N2. reflexivity. }
      assert (collector (VNode k fs2) = Some e /\ collector (VNode k fs) = Some e /\ extent_of (VNode k fs2) = extent_of (VNode k fs))
        as (CO2 & CO1 & EX2).
      { cbn [collector]. rewrite HC. rewrite <- EE, EX.
        assert (extent_of (VNode k fs2) = Some e) as ->; [|auto].
        destruct i as [|i].
        - exfalso. destruct fields as [|[[f1 t1] b1] fl]; [discriminate|]. cbn in NI. injection NI as -> -> ->.
          discriminate EF'.
        - unfold fs2. destruct fs' as [|x fs']; [discriminate|]. exact EX. }
      constructor.
      * econstructor; [exact SF|]. eapply typed_replace; eauto. now constructor.
      * apply vq_forall. apply vq_replace; auto. apply vq_forall. apply Forall_forall.
        intros w Hw. apply in_map_iff in Hw. destruct Hw as (x & <- & Hx). apply filter_In in Hx.
        destruct W' as [W1 _]. rewrite Forall_forall in W1. now apply W1.
      * rewrite !strip_node. rewrite ?FO. f_equal. rewrite <- S2.
        eapply strip_replace; eauto.
      * rewrite !nodes_node. rewrite ?FO. cbn [map]. rewrite CO1, CO2, NR, C2. reflexivity.
      * exact EX2.
      * rewrite nodes_node. rewrite ?FO.
        change (VNode k fs :: ?l) with ([VNode k fs] ++ l).
        rewrite L2. unfold untaken. rewrite !filter_filter. apply filter_ext. intros x.
        rewrite collected_app, negb_orb. rewrite andb_comm. f_equal. unfold collected. cbn [existsb].
        rewrite CO1, orb_false_r. reflexivity.
      * cbn [whitespaces]. unfold fs2.
        rewrite (ws_replace i [] taken fs' NL). destruct (ws_values taken TT) as [_ ->].
        rewrite <- app_assoc. unfold taken. rewrite <- map_app.
        rewrite (Permutation_map snd (partition_perm (fun x => in_range e (fst x)) m')). exact P2.
      * rewrite nodes_node. rewrite ?FO. constructor; [|rewrite NR; exact PL2].
        split.
        -- rewrite WO. apply sorted_starts with (Q := Q). now apply wsm_filter.
        -- rewrite WO. intros w Hw. apply in_map_iff in Hw. destruct Hw as (x & <- & Hx). apply filter_In in Hx.
           destruct Hx as [Hx1 Hx2]. rewrite (wsm_start Q m' x W' Hx1). split.
           ++ exists e. split; [exact CO2|exact Hx2].
           ++ unfold below. rewrite nodes_node. cbn [tl]. rewrite ?FO. rewrite NR.
              rewrite (collected_map _ _ _ C2). rewrite L2 in Hx1. unfold untaken in Hx1. apply filter_In in Hx1.
              destruct Hx1 as [_ Hx1]. now apply negb_true_iff in Hx1.
      * discriminate.
    + assert (collects k = false) as HC by (now rewrite <- handled_collects).
      assert (collector (VNode k fs) = None /\ collector (VNode k fs') = None) as [CO1 CO2] by (cbn [collector]; now rewrite HC).
      assert (whitespace_of (VNode k fs') = []) as WO.
      { unfold whitespace_of, get_field in *. rewrite SF in *. rewrite ?FO in *.
        destruct (field_index "whitespace" fields) as [i|]; [|reflexivity].
        clear -FF T2 Fr1 Tf. revert i Fr1. revert T2 Tf. generalize fields. 
        induction FF as [|x x' fs fs' [H1 H2] F IHF]; intros fl T2 Tf i Fr1; [destruct i; reflexivity|].
        inversion T2; subst. inversion Tf; subst.
        destruct i as [|i]; cbn [nth_error] in *; [|eapply IHF; eauto].
        destruct x' as [| | | | | | | |l1| | |]; auto.
        destruct x as [| | | | | | | |l0| | |];
          try (match goal with A : typed (VList _) ?t, B : typed _ ?t |- _ => inversion A; subst; inversion B; congruence end).
        subst l0. specialize (H2 eq_refl). now injection H2. }
      do 2 eexists. split; [reflexivity|]. constructor.
      * econstructor; eauto.
      * now apply vq_forall.
      * rewrite !strip_node. rewrite ?FO. congruence.
      * rewrite !nodes_node. rewrite ?FO. cbn [map]. congruence.
      * exact EE.
      * rewrite nodes_node. rewrite ?FO.
        change (VNode k fs :: ?l) with ([VNode k fs] ++ l). rewrite untaken_app. rewrite L2. f_equal.
        unfold untaken, collected. cbn [existsb]. rewrite CO1. cbn [orb negb]. clear.
        induction m as [|x m IH]; [reflexivity|]. cbn [filter]. now rewrite <- IH.
      * exact P2.
      * rewrite nodes_node. rewrite ?FO. constructor; [|exact PL2].
        split; rewrite WO; [constructor|]. intros w [].
      * discriminate.
  - (* Variant *)
    assert (p = VUnit \/ exists u, typed p u /\ nofile u = true /\ forall p', typed p' u -> typed (VVar en vn p') t) as [->|(u & Tp & NU & TB)].
    { inversion T; subst; [right|left; reflexivity].
      eexists. split; [eassumption|]. split; [eapply enum_nofile; eauto|]. intros p' Tp'. econstructor; eauto. }
    + exists (VVar en vn VUnit), m. split; [reflexivity|]. apply ap_same; auto.
    + destruct (IH Q u m QO Tp NU V W Fr) as (p' & m' & E & A). destruct A.
      exists (VVar en vn p'), m'. cbn [apportion]. rewrite E. split; [reflexivity|].
      constructor; auto; try (cbn [strip]; congruence); try discriminate.
      cbn [whitespaces]. destruct (String.eqb en "Whitespace") eqn:EN; [|exact ap_perm0].
      assert (t = TN "Whitespace") as -> by (apply String.eqb_eq in EN; subst en; inversion T; reflexivity).
      destruct (ws_value _ T) as [N _]. cbn [nodes] in N.
      assert (apportion p m = BOk (p, m)) as E'.
      { destruct (typed_enum _ _ _ T eq_refl eq_refl) as (n0 & p0 & EQ & [(t0 & A & P)|(A & ->)]); injection EQ as -> -> ->;
          [|reflexivity].
        cbn [assoc] in A. destruct (String.eqb n0 "Comment").
        - injection A as <-. destruct (typed_enum _ _ _ P eq_refl eq_refl) as (n1 & p1 & -> & [(t1 & A & P1)|(A & ->)]); [|reflexivity].
          cbn [assoc] in A. destruct (String.eqb n1 "Line"); [injection A as <-; inversion P1; reflexivity|].
          destruct (String.eqb n1 "Block"); [injection A as <-; inversion P1; reflexivity|discriminate].
        - destruct (String.eqb n0 "Whitespace"); [injection A as <-; inversion P; reflexivity|discriminate]. }
      rewrite E' in E. injection E as <- <-. reflexivity.
Qed.
