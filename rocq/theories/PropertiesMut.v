(** Property C59: visitors that change the tree.  [visit_mut] (VisitMut.v) models
    [Visit::visit_mut]; what it is to do is said in MutSpec.v. *)

From Coq Require Import String List Bool Arith NArith Lia.
From Verif Require Import Base Peresil Token Tokenizer TokenizerSpec Schema Value Grammar Visit VisitSpec VisitMut MutSpec MutOk
  TokenizerIter TokenizerWhole Apportion Lib FileToks Items Whitespace WhitespaceOk Extents LibOk FileSpec.
Import ListNotations.
Local Open Scope string_scope.
Local Open Scope list_scope.
Local Open Scope nat_scope.

(** ** The traversal *)

(** [visit_mut] leaves [v'] and the visitor in state [s'] exactly if there is a
    traversal of [v] that leaves [v'], with a visitor that does what the traversal says. *)
Theorem C59_exactly_the_changes : forall (S : Type) enter leave (v v' : val) (s s' : S),
  (exists fuel, visit_mut S enter leave fuel v s = BOk (v', s')) <->
  (exists log, mutation v log v' /\ obeys enter leave s log s').
Proof.
  intros S en le v v' s s'. split.
  - intros [n E]. exact (visit_mut_sound S en le n v s v' s' E).
  - intros (log & M & O). exact (proj1 (visit_mut_complete S en le) v log v' M s s' O).
Qed.

(** Every node that is entered is left, and they nest. *)
Theorem C59_well_nested : forall v log v', mutation v log v' -> balanced log.
Proof. exact (proj1 mutation_balanced). Qed.

(** ** What is not changed is kept *)

(** Whatever relation all the methods keep between a node and what they leave in its
    place, the whole traversal keeps between the tree and the tree it leaves. *)
Theorem C59_only_these_changes : forall (R : val -> val -> Prop), compatible R ->
  forall (S : Type) enter leave,
  (forall (s : S) k v s1 v' c, enter s k v = BOk (s1, v', c) -> R v v') ->
  (forall (s : S) k v s1 v', leave s k v = BOk (s1, v') -> R v v') ->
  forall fuel v s v' s', visit_mut S enter leave fuel v s = BOk (v', s') -> R v v'.
Proof.
  intros R C S en le H1 H2 n v s v' s' E. destruct (visit_mut_sound S en le n v s v' s' E) as (log & M & O).
  apply (proj1 (mutation_frame R C) v log v' M). eapply (obeys_each en le (fun _ => R)); eauto.
Qed.

(** Methods that leave nodes of the type of the node leave a tree of the type of the
    tree. *)
Theorem C59_types_are_kept : forall (S : Type) enter leave,
  (forall (s : S) k v s1 v' c, enter s k v = BOk (s1, v', c) -> typed v (TN k) -> typed v' (TN k)) ->
  (forall (s : S) k v s1 v', leave s k v = BOk (s1, v') -> typed v (TN k) -> typed v' (TN k)) ->
  forall fuel v s v' s' t, typed v t -> visit_mut S enter leave fuel v s = BOk (v', s') -> typed v' t.
Proof.
  intros S en le H1 H2 n v s v' s' t T E. destruct (visit_mut_sound S en le n v s v' s' E) as (log & M & O).
  apply (proj1 mutation_typed v log v' M); [|exact T]. eapply obeys_each; eauto.
Qed.

(** ** A visitor that changes nothing *)
Definition reading_enter {S} (enter : S -> string -> val -> S * control) (s : S) (k : string) (v : val) : bres (S * val * control) :=
  BOk (fst (enter s k v), v, snd (enter s k v)).
Definition reading_leave {S} (leave : S -> string -> val -> S) (s : S) (k : string) (v : val) : bres (S * val) := BOk (leave s k v, v).

Lemma height_pos v : 1 <= height v.
Proof. destruct v; cbn; lia. Qed.

(** It sees what [Visit::visit] shows, and the tree stays as it is. *)
Theorem C59_reading_visitor : forall (S : Type) enter leave (v : val) t (s : S), typed v t ->
  visit_mut S (reading_enter enter) (reading_leave leave) (height v) v s = BOk (v, visit S enter leave v s).
Proof.
  intros S en le v.
  enough (H : forall t, typed v t -> forall n s, height v <= n ->
    visit_mut S (reading_enter en) (reading_leave le) n v s = BOk (v, visit S en le v s)) by (intros t s T; eapply H; eauto).
  induction v as [e|b|m|q|m| | |v IH|l IH|a b IHa IHb|k fs IH|en' vn x IH] using val_ind'; intros t T n s L;
    (destruct n as [|n]; [cbn in L; lia|]); try reflexivity; cbn [height] in L; cbn [visit_mut]; unfold visit_value.
  - inversion T; subst. rewrite (IH t0) by (auto; lia). reflexivity.
  - inversion T as [| | | | | | | |? u Tl| | | |]; subst.
    enough (E : visit_elements S (visit_mut S (reading_enter en) (reading_leave le) n) l s = BOk (l, visit S en le (VList l) s)) by (rewrite E; reflexivity).
    apply le_S_n in L. clear T. revert s. induction IH as [|x l Ix _ IHl]; intros s; [reflexivity|]. cbn [map list_max fold_right] in L.
    cbn [visit_elements]. rewrite (Ix u); [|apply Tl; now left|lia]. cbn [bbind]. rewrite IHl; [|unfold list_max; lia|intros w Hw; apply Tl; now right]. reflexivity.
  - inversion T as [| | | | | | | | | |k' fs' fields F Tf| |]; subst. unfold reading_enter at 1. cbn [bbind]. rewrite String.eqb_refl.
    apply le_S_n in L. cbn [visit]. destruct (en s k (VNode k fs)) as [s1 c]. cbn [fst snd].
    assert (E : visit_fields S (visit_mut S (reading_enter en) (reading_leave le) n) fs fields s1 =
      BOk (fs, (fix go (fs : list val) (fields : list (string * ty * bool)) (s : S) : S :=
           match fs, fields with
           | x :: fs', (_, _, visited) :: fields' => go fs' fields' (if visited then visit S en le x s else s)
           | _, _ => s
           end) fs fields s1)).
    { clear T F c. revert s1. induction Tf as [|x [[f ft] fb] fs fields Hx Tf IHf]; intros s1; [reflexivity|].
      apply Forall_cons_iff in IH as [I1 I2]. cbn [map list_max fold_right] in L. cbn [visit_fields].
      destruct fb.
      - cbn [fst snd] in Hx. rewrite (I1 _ Hx) by lia. cbn [bbind]. rewrite IHf; [reflexivity|exact I2|unfold list_max; lia].
      - cbn [bbind]. rewrite IHf; [reflexivity|exact I2|unfold list_max; lia]. }
    rewrite F. destruct (is_attributed k); cbn [orb].
    + rewrite E. reflexivity.
    + destruct c; [rewrite E|]; reflexivity.
  - unfold reading_enter at 1. cbn [bbind]. rewrite String.eqb_refl. cbn [visit]. destruct (en s en' (VVar en' vn x)) as [s1 c]. cbn [fst snd].
    destruct c; [|reflexivity].
    assert (exists u, typed x u) as [u Tx] by (inversion T; subst; eauto using T_Unit).
    rewrite (IH u) by (auto; lia). reflexivity.
Qed.

(** ** The end of the traversal *)

(** A traversal whose [visit_*] methods make no node deeper comes to an end. *)
Theorem C59_ends : forall (S : Type) enter leave,
  (forall (s : S) k v, enter s k v <> BAbort OutOfFuel) -> (forall (s : S) k v, leave s k v <> BAbort OutOfFuel) ->
  (forall (s : S) k v s1 v' c, enter s k v = BOk (s1, v', c) -> height v' <= height v) ->
  forall v s, visit_mut S enter leave (height v) v s <> BAbort OutOfFuel.
Proof.
  intros S en le N1 N2 H v s.
  enough (G : forall n v s, height v <= n -> visit_mut S en le n v s <> BAbort OutOfFuel) by now apply G.
  assert (B : forall {A B} (r : bres A) (k : A -> bres B), r <> BAbort OutOfFuel -> (forall a, r = BOk a -> k a <> BAbort OutOfFuel) -> bbind r k <> BAbort OutOfFuel).
  { intros A B r k R K. destruct r as [a|w]; cbn; [now apply K|]. intros E. injection E as ->. now apply R. }
  clear v s. induction n as [|n IH]; intros v s L; [pose proof (height_pos v); lia|].
  cbn [visit_mut]. unfold visit_value. destruct v; try discriminate; cbn [height] in L.
  - apply B; [apply IH; lia|]. intros [] _. discriminate.
  - apply B; [|intros [] _; discriminate]. apply le_S_n in L. revert s. induction l as [|x l IHl]; intros s; [discriminate|].
    cbn [map list_max fold_right] in L. cbn [visit_elements]. apply B; [apply IH; lia|]. intros [x' s1] _.
    apply B; [apply IHl; unfold list_max; lia|]. intros [] _. discriminate.
  - apply B; [apply N1|]. intros [[s1 v1] c] E. apply B.
    + destruct v1; try discriminate. destruct (String.eqb _ _); [|discriminate]. destruct (_ || _); [|discriminate].
      destruct (struct_fields k) as [fields|]; [|discriminate]. apply B; [|intros [] _; discriminate].
      apply H in E. cbn [height] in E. assert (L' : list_max (map height fs0) <= n) by lia. clear E. revert fields s1.
      induction fs0 as [|x fs0 IHf]; intros [|[[f ft] fb] fields] s1; try discriminate. cbn [map list_max fold_right] in L'. cbn [visit_fields].
      apply B; [destruct fb; [apply IH; lia|discriminate]|]. intros [x' s2] _. apply B; [apply IHf; unfold list_max; lia|]. intros [] _. discriminate.
    + intros [v2 s2] _. apply B; [apply N2|]. intros [] _. discriminate.
  - apply B; [apply N1|]. intros [[s1 v1] c] E. apply B.
    + destruct v1; try discriminate. destruct (String.eqb _ _); [|discriminate]. destruct c; [|discriminate].
      apply H in E. cbn [height] in E. apply B; [apply IH; lia|]. intros [] _. discriminate.
    + intros [v2 s2] _. apply B; [apply N2|]. intros [] _. discriminate.
Qed.

(** Without that it need not: a visitor that boxes every pattern it sees finds another
    pattern in the box. *)
Definition boxing (s : unit) (k : string) (v : val) : bres (unit * val * control) :=
  BOk (s, if String.eqb k "PatternKind"
          then VVar "PatternKind" "Box" (VNode "PatternBox" [VExt (0, 0); VNode "Pattern" [VExt (0, 0); VNone; v; VList []]; VList []])
          else v, Continue).
Definition staying (s : unit) (k : string) (v : val) : bres (unit * val) := BOk (s, v).

Theorem C59_need_not_end : exists enter leave v,
  (forall (s : unit) k v s1 v' c, enter s k v = BOk (s1, v', c) -> typed v (TN k) -> typed v' (TN k)) /\
  (forall (s : unit) k v s1 v', leave s k v = BOk (s1, v') -> typed v (TN k) -> typed v' (TN k)) /\
  typed v (TN "PatternKind") /\
  forall fuel s, visit_mut unit enter leave fuel v s = BAbort OutOfFuel.
Proof.
  exists boxing, staying, (VVar "PatternKind" "Character" (VNode "PatternCharacter" [VExt (0, 3); VNode "Character" [VExt (0, 3); VExt (0, 3)]])).
  split; [|split; [|split]].
  - intros s k v s1 v' c E T. unfold boxing in E. injection E as _ <- _. destruct (String.eqb_spec k "PatternKind") as [->|]; [|exact T].
    eapply T_Var; [reflexivity|reflexivity|]. eapply T_Node; [reflexivity|].
    constructor; [constructor|]. constructor; [|constructor; [apply T_List; intros ? []|constructor]].
    eapply T_Node; [reflexivity|]. constructor; [constructor|]. constructor; [constructor|]. constructor; [exact T|].
    constructor; [apply T_List; intros ? []|constructor].
  - intros s k v s1 v' E T. unfold staying in E. injection E as _ <-. exact T.
  - eapply T_Var; [reflexivity|reflexivity|]. eapply T_Node; [reflexivity|]. constructor; [constructor|]. constructor; [|constructor].
    eapply T_Node; [reflexivity|]. repeat constructor.
  - enough (H : forall fuel x p s, visit_mut unit boxing staying fuel (VVar "PatternKind" x p) s = BAbort OutOfFuel) by (intros; apply H).
    assert (A : forall n v s, atomic v = true -> visit_mut unit boxing staying (Datatypes.S n) v s = BOk (v, s)) by (intros n [] s H; try discriminate; reflexivity).
    assert (H1 : forall n w x p s, visit_mut unit boxing staying n (VVar "PatternKind" x p) s = BAbort OutOfFuel ->
      visit_mut unit boxing staying (Datatypes.S n) (VNode "Pattern" [VExt (0, 0); VNone; VVar "PatternKind" x p; w]) s = BAbort OutOfFuel).
    { intros n w x p s E. destruct n as [|n]; [reflexivity|].
      change (bbind (bbind (visit_fields unit (visit_mut unit boxing staying (Datatypes.S n)) [VExt (0, 0); VNone; VVar "PatternKind" x p; w]
        [("extent", TExt, true); ("name", TOpt (TN "PatternName"), true); ("kind", TN "PatternKind", true); ("whitespace", TList (TN "Whitespace"), true)] s)
        (fun '(fs2, s2) => BOk (VNode "Pattern" fs2, s2))) (fun '(v2, s2) => bbind (staying s2 "Pattern" v2) (fun '(s3, v3) => BOk (v3, s3))) = BAbort OutOfFuel).
      cbn [visit_fields]. rewrite !A by reflexivity. cbn [bbind]. rewrite A by reflexivity. cbn [bbind]. rewrite E. reflexivity. }
    assert (H2 : forall n w pat s, visit_mut unit boxing staying n pat s = BAbort OutOfFuel ->
      visit_mut unit boxing staying (Datatypes.S n) (VNode "PatternBox" [VExt (0, 0); pat; w]) s = BAbort OutOfFuel).
    { intros n w pat s E. destruct n as [|n]; [reflexivity|].
      change (bbind (bbind (visit_fields unit (visit_mut unit boxing staying (Datatypes.S n)) [VExt (0, 0); pat; w]
        [("extent", TExt, true); ("pattern", TN "Pattern", true); ("whitespace", TList (TN "Whitespace"), true)] s)
        (fun '(fs2, s2) => BOk (VNode "PatternBox" fs2, s2))) (fun '(v2, s2) => bbind (staying s2 "PatternBox" v2) (fun '(s3, v3) => BOk (v3, s3))) = BAbort OutOfFuel).
      cbn [visit_fields]. rewrite A by reflexivity. cbn [bbind]. rewrite E. reflexivity. }
    induction fuel as [fuel IH] using lt_wf_ind. intros x p s. destruct fuel as [|n]; [reflexivity|].
    change (bbind (bbind (visit_mut unit boxing staying n
        (VNode "PatternBox" [VExt (0, 0); VNode "Pattern" [VExt (0, 0); VNone; VVar "PatternKind" x p; VList []]; VList []]) s)
        (fun '(p2, s2) => BOk (VVar "PatternKind" "Box" p2, s2))) (fun '(v2, s2) => bbind (staying s2 "PatternKind" v2) (fun '(s3, v3) => BOk (v3, s3))) = BAbort OutOfFuel).
    destruct n as [|n]; [reflexivity|]. rewrite H2; [reflexivity|]. destruct n as [|n]; [reflexivity|]. apply H1. apply IH. lia.
Qed.

(** ** The whitespace apportioner is such a visitor *)

(** src/whitespace_apportioner.rs:65-214: no [visit_*] methods; the [exit_*] methods
    are those of Apportion.v. *)
Definition apportion_enter (m : wsmap) (k : string) (v : val) : bres (wsmap * val * control) := BOk (m, v, Continue).
Definition apportion_leave (m : wsmap) (k : string) (v : val) : bres (wsmap * val) :=
  match v, struct_fields k with
  | VNode _ fs, Some fields => bbind (exit_node k fields fs m) (fun '(v', m') => BOk (m', v'))
  | _, _ => BOk (m, v)
  end.

Lemma apportion_visits v t m n : typed v t -> height v <= n -> visit_mut wsmap apportion_enter apportion_leave n v m = apportion v m.
Proof.
  revert t m n. induction v as [e|b|q|q|q| | |v IH|l IH|a b IHa IHb|k fs IH|en vn x IH] using val_ind'; intros t m n T L;
    (destruct n as [|n]; [cbn in L; lia|]); try reflexivity; cbn [height] in L; cbn [visit_mut]; unfold visit_value.
  - inversion T; subst. rewrite (IH t0) by (auto; lia). reflexivity.
  - inversion T as [| | | | | | | |? u Tl| | | |]; subst. rewrite apportion_list. f_equal.
    apply le_S_n in L. clear T. revert m. induction IH as [|x l Ix _ IHl]; intros m; [reflexivity|]. cbn [map list_max fold_right] in L.
    cbn [visit_elements ap_list]. rewrite (Ix u); [|apply Tl; now left|lia]. destruct (apportion x m) as [[x' m1]|w]; [|reflexivity]. cbn [bbind].
    rewrite IHl; [reflexivity|unfold list_max; lia|intros w Hw; apply Tl; now right].
  - inversion T as [| | | | | | | | | |k' fs' fields F Tf| |]; subst. unfold apportion_enter at 1. cbn [bbind]. rewrite String.eqb_refl, orb_true_r, F.
    rewrite (apportion_node k fs m fields F). apply le_S_n in L.
    assert (E : visit_fields wsmap (visit_mut wsmap apportion_enter apportion_leave n) fs fields m = ap_fields fs fields m).
    { clear T F. revert m. induction Tf as [|x [[f ft] fb] fs fields Hx Tf IHf]; intros m; [reflexivity|].
      apply Forall_cons_iff in IH as [I1 I2]. cbn [map list_max fold_right] in L. cbn [visit_fields ap_fields]. cbn [fst snd] in Hx.
      replace (if fb then visit_mut wsmap apportion_enter apportion_leave n x m else BOk (x, m)) with (if fb then apportion x m else BOk (x, m))
        by (destruct fb; [rewrite (I1 _ m n Hx) by lia|]; reflexivity).
      destruct (if fb then apportion x m else BOk (x, m)) as [[x' m1]|w]; [|reflexivity]. cbn [bbind].
      rewrite IHf; [reflexivity|exact I2|unfold list_max; lia]. }
    rewrite E. destruct (ap_fields fs fields m) as [[fs2 m2]|w]; [|reflexivity]. cbn [bbind]. unfold apportion_leave at 1. rewrite F.
    destruct (exit_node k fields fs2 m2) as [[v' m']|w]; reflexivity.
  - unfold apportion_enter at 1. cbn [bbind]. rewrite String.eqb_refl. cbn [apportion].
    assert (exists u, typed x u) as [u Tx] by (inversion T; subst; eauto using T_Unit).
    rewrite (IH u m n) by (auto; lia). destruct (apportion x m) as [[x' m']|w]; reflexivity.
Qed.

(** What the entry point returns is what the apportioner leaves of the parsed items, and
    it has then no whitespace left. *)
Theorem C59_file_is_apportioned : forall X, xid_sane X -> forall code f, parse_rust_file X code = FileOk f ->
  exists ts parsed log, tokenize X code = TokOk ts /\ parse_items (solid ts) = ItemsOk parsed /\
    mutation (VNode "File" [VList parsed; VList []]) log f /\
    obeys apportion_enter apportion_leave (map (fun w => (start_of w, w)) (layout_entries ts)) log [].
Proof.
  intros X XS code f E. destruct (file_accepted X XS code f E) as (ts & parsed & T & P & F). exists ts, parsed.
  unfold parse_rust_file in E. rewrite T in E. destruct (partition_tokens ts []) as [ws toks] eqn:Pt.
  assert (toks = solid ts) as -> by (rewrite <- solid_significant, <- (partition_filter ts []), Pt; reflexivity).
  rewrite P in E. destruct (apportion _ ws) as [[f' [|]]|] eqn:A; try discriminate. injection E as ->.
  assert (ws = map entry (ws_entries ts)) as WS.
  { pose proof T as T'. apply tokenize_iff in T'; [|exact XS]. destruct (lexes_fine _ _ _ _ T') as (_ & SS & _).
    destruct (tokens_tile _ _ _ T) as (init & TI & _ & NEi & _).
    pose proof (partition_map ts [] SS) as PM. rewrite Pt in PM. apply PM; [|constructor].
    rewrite TI. apply Forall_app. split; [eapply Forall_impl; [|exact NEi]; auto|]. constructor; [discriminate|constructor]. }
  assert (Ty : typed (VNode "File" [VList parsed; VList []]) (TN "File")).
  { eapply T_Node; [reflexivity|]. constructor; [|constructor; [|constructor]].
    - apply T_List. destruct F. now apply Forall_forall.
    - apply T_List. intros ? []. }
  rewrite layout_ws in WS. unfold entry in WS. rewrite <- WS.
  rewrite <- (apportion_visits _ _ _ _ Ty (le_n _)) in A.
  destruct (visit_mut_sound _ _ _ _ _ _ _ _ A) as (log & M & O). exists log. auto.
Qed.

(** ** A visitor that takes the whitespace away *)
Definition clear (v : val) : val :=
  match v with
  | VNode k fs => VNode k ((fix go (fs : list val) (fields : list (string * ty * bool)) : list val :=
      match fs, fields with
      | x :: fs', (f, _, _) :: fields' => (if String.eqb f "whitespace" then VList [] else x) :: go fs' fields'
      | _, _ => fs
      end) fs (fields_of k))
  | _ => v
  end.
Definition clear_enter (n : nat) (k : string) (v : val) : bres (nat * val * control) := BOk (S n, clear v, Continue).
Definition clear_leave (n : nat) (k : string) (v : val) : bres (nat * val) := BOk (n, v).

Lemma same_strip : compatible (fun v v' => strip v = strip v').
Proof.
  constructor; auto; try congruence.
  - intros x y E. cbn. now rewrite E.
  - intros l l' H. cbn. f_equal. induction H; cbn; congruence.
  - intros k fs fs' H. rewrite !strip_node. f_equal. generalize (fields_of k). induction H as [|x y fs fs' E _ IH]; intros [|[[f t] b] fields]; cbn [strip_fields]; try reflexivity;
      rewrite IH, E; reflexivity.
  - intros e x p p' E. cbn. now rewrite E.
Qed.

(** It leaves everything else. *)
Example C59_clear_ex :
  (forall fuel v s v' s', visit_mut nat clear_enter clear_leave fuel v s = BOk (v', s') -> strip v = strip v') /\
  exists f, parse_rust_file ascii_xid (str "fn f ( ) { a ( 1 ) }") = FileOk f /\
    visit_mut nat clear_enter clear_leave (height f) f 0 = BOk (strip f, 22) /\ f <> strip f.
Proof.
  split.
  - apply (C59_only_these_changes _ same_strip).
    + intros s k v s1 v' c E. unfold clear_enter in E. injection E as _ <- _. destruct v; try reflexivity. cbn [clear]. rewrite !strip_node. f_equal.
      generalize (fields_of k0). induction fs as [|x fs IH]; intros [|[[f t] b] fields]; try reflexivity. cbn [strip_fields]. rewrite <- IH.
      destruct (String.eqb f "whitespace"); reflexivity.
    + intros s k v s1 v' E. unfold clear_leave in E. now injection E as _ <-.
  - eexists. split; [vm_compute; reflexivity|]. split; [vm_compute; reflexivity|]. vm_compute. discriminate.
Qed.

(** A visitor that only looks: the identifiers of a file. *)
Example C59_reading_ex : exists f, parse_rust_file ascii_xid (str "fn f(x: T) { a(x) }") = FileOk f /\ typed f (TN "File") /\
  visit_mut nat (reading_enter (fun n k _ => ((if String.eqb k "Ident" then S n else n), Continue))) (reading_leave (fun n _ _ => n)) (height f) f 0 = BOk (f, 5).
Proof.
  destruct (parse_rust_file ascii_xid (str "fn f(x: T) { a(x) }")) as [f| | |] eqn:E; try (vm_compute in E; discriminate).
  exists f. split; [reflexivity|]. split.
  - destruct (file_accepted _ ascii_xid_sane _ _ E) as (ts & parsed & _ & _ & F). destruct F. assumption.
  - vm_compute in E. injection E as <-. vm_compute. reflexivity.
Qed.

Print Assumptions C59_exactly_the_changes.
Print Assumptions C59_well_nested.
Print Assumptions C59_only_these_changes.
Print Assumptions C59_types_are_kept.
Print Assumptions C59_reading_visitor.
Print Assumptions C59_ends.
Print Assumptions C59_need_not_end.
Print Assumptions C59_file_is_apportioned.
