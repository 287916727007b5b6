(** The rendering of error locations. *)

From Coq Require Import String List Arith Bool NArith Lia.
From Verif Require Import Base Peresil Token Tokenizer TokenizerSpec.
From Verif Require Import Schema Value Nt Grammar Table Apportion Lib.
Import ListNotations.
Local Open Scope list_scope.
Local Open Scope nat_scope.

(** [line] is a whole line of [before ++ line ++ after]. *)
Definition whole_line (before line after : text) : Prop :=
  (before = [] \/ exists a, before = a ++ [newline]) /\ ~ In newline line /\
  (after = [] \/ exists b, after = newline :: b).

Definition newlines (t : text) : nat := List.length (filter (fun c => N.eqb c newline) t).

Lemma count_newlines t : count_char t newline = newlines t.
Proof.
  unfold newlines. induction t as [|c t IH]; [reflexivity|]. cbn [count_char filter]. rewrite IH.
  destruct (N.eqb c newline); reflexivity.
Qed.

Lemma newlines_app a b : newlines (a ++ b) = newlines a + newlines b.
Proof. unfold newlines. now rewrite filter_app, app_length. Qed.

Lemma newlines_none t : ~ In newline t -> newlines t = 0.
Proof.
  unfold newlines. induction t as [|c t IH]; intros H; [reflexivity|]. cbn [filter].
  destruct (N.eqb_spec c newline) as [->|N]; [exfalso; apply H; now left|]. apply IH. intros I. apply H. now right.
Qed.

Lemma newline_len : len_utf8 newline = 1.
Proof. reflexivity. Qed.

Lemma head_line t : exists a u, t = a ++ u /\ ~ In newline u /\ (a = [] \/ exists a', a = a' ++ [newline]) /\
  match rfind_char t newline with Some n => n | None => 0 end = blen a - 1.
Proof.
  pose proof (rfind_char_spec t newline) as H. destruct (rfind_char t newline) as [n|].
  - destruct H as (a & r & -> & -> & NI). exists (a ++ [newline]), r. rewrite <- app_assoc. split; [reflexivity|].
    split; [auto|]. split; [eauto|]. rewrite blen_app. cbn [blen]. rewrite newline_len. lia.
  - exists [], t. auto.
Qed.

Lemma tail_line t : exists v b, t = v ++ b /\ ~ In newline v /\ (b = [] \/ exists b', b = newline :: b') /\
  match find_char t newline with Some n => n | None => blen t end = blen v.
Proof.
  pose proof (find_char_spec t newline) as H. destruct (find_char t newline) as [n|].
  - destruct H as (a & r & -> & -> & NI). exists a, (newline :: r). split; [reflexivity|]. split; [auto|]. split; [eauto|reflexivity].
  - exists t, []. rewrite app_nil_r. auto.
Qed.

(** What [HumanTextError::new] computes: the line around the location, preceded
    by the line feed before it if there is one. *)
Theorem human_ok t loc : boundary t loc ->
  exists a u v b, t = a ++ u ++ v ++ b /\ loc = blen (a ++ u) /\ whole_line a (u ++ v) b /\
    let nl := match a with [] => [] | _ => [newline] end in
    human_text_error_new t loc = Some (mkHuman (nl ++ u) v (newlines a + 1) (List.length nl + blen u)).
Proof.
  intros (h & tl & -> & ->). unfold human_text_error_new. rewrite split_at_app.
  destruct (head_line h) as (a & u & -> & NU & HA & ->). destruct (tail_line tl) as (v & b & -> & NV & HB & ->).
  exists a, u, v, b. rewrite <- !app_assoc. split; [reflexivity|]. split; [reflexivity|].
  split; [split; [auto|]; split; [|auto]; rewrite in_app_iff; tauto|].
  unfold to_offset, from_offset. rewrite split_at_app. cbn [option_map fst].
  assert (count_char (a ++ u) newline = newlines a) as ->.
  { rewrite count_newlines, newlines_app, (newlines_none u NU). lia. }
  destruct HA as [->|(a' & ->)].
  - cbn [app blen Nat.sub]. assert (split_at u 0 = Some ([], u)) as -> by (destruct u; reflexivity). reflexivity.
  - rewrite blen_app, <- app_assoc. cbn [blen]. rewrite newline_len.
    replace (blen a' + (1 + 0) - 1) with (blen a') by lia. rewrite split_at_app. cbn [option_map snd].
    destruct (a' ++ [newline]) as [|c r] eqn:E; [now destruct a'|]. cbn [app blen List.length]. rewrite newline_len. reflexivity.
Qed.

(** The decomposition is determined by the text and the location. *)
Lemma blen_inj : forall a b u v, a ++ u = b ++ v -> blen a = blen b -> a = b /\ u = v.
Proof.
  induction a as [|c a IH]; intros [|d b] u v H L.
  - auto.
  - cbn [blen] in L. pose proof (len_utf8_pos d). lia.
  - cbn [blen] in L. pose proof (len_utf8_pos c). lia.
  - injection H as -> H. cbn [blen] in L. destruct (IH b u v H) as [-> ->]; [lia|auto].
Qed.

Lemma line_head_unique a u a' u' : a ++ u = a' ++ u' -> ~ In newline u -> ~ In newline u' ->
  (a = [] \/ exists x, a = x ++ [newline]) -> (a' = [] \/ exists x, a' = x ++ [newline]) -> a = a' /\ u = u'.
Proof.
  assert (forall a a' w, a' = a ++ w -> w <> [] -> ~ In newline w ->
            (a' = [] \/ exists x, a' = x ++ [newline]) -> False) as K.
  { intros x x' w E NE NI [H|(z & H)]; subst x'.
    - destruct w; [congruence|]. now destruct x.
    - destruct (exists_last NE) as (w' & c & ->). rewrite app_assoc in H. apply app_inj_tail in H. destruct H as [_ ->].
      apply NI. apply in_app_iff. right. now left. }
  intros E NU NU' HA HA'.
  assert (exists w, (a' = a ++ w /\ u = w ++ u') \/ (a = a' ++ w /\ u' = w ++ u)) as (w & [[E1 E2]|[E1 E2]]).
  { clear -E. revert a' E. induction a as [|c a IH]; intros a' E.
    - exists a'. left. auto.
    - destruct a' as [|d a']; cbn [app] in *; [exists (c :: a); right; auto|]. injection E as -> E.
      destruct (IH a' E) as (w & [[-> ->]|[-> ->]]); exists w; auto. }
  - destruct w as [|c w]; [rewrite app_nil_r in E1; auto|]. exfalso. eapply (K a a' (c :: w)); eauto; [discriminate|].
    subst u. rewrite in_app_iff in NU. tauto.
  - destruct w as [|c w]; [rewrite app_nil_r in E1; auto|]. exfalso. eapply (K a' a (c :: w)); eauto; [discriminate|].
    subst u'. rewrite in_app_iff in NU'. tauto.
Qed.

Lemma line_tail_unique v b v' b' : v ++ b = v' ++ b' -> ~ In newline v -> ~ In newline v' ->
  (b = [] \/ exists x, b = newline :: x) -> (b' = [] \/ exists x, b' = newline :: x) -> v = v' /\ b = b'.
Proof.
  revert v'. induction v as [|c v IH]; intros [|d v'] E NV NV' HB HB'; cbn [app] in E; auto.
  - destruct HB as [->|(x & ->)]; [discriminate|]. injection E as <- _. exfalso. apply NV'. now left.
  - destruct HB' as [->|(x & ->)]; [discriminate|]. injection E as -> _. exfalso. apply NV. now left.
  - injection E as -> E. destruct (IH v' E) as [-> ->]; auto.
    + intros H. apply NV. now right.
    + intros H. apply NV'. now right.
Qed.

(** For the line that holds the location, given by its surroundings. *)
Theorem human_line a u v b : whole_line a (u ++ v) b ->
  let nl := match a with [] => [] | _ => [newline] end in
  human_text_error_new (a ++ u ++ v ++ b) (blen (a ++ u)) =
    Some (mkHuman (nl ++ u) v (newlines a + 1) (List.length nl + blen u)).
Proof.
  intros (HA & NL & HB).
  destruct (human_ok (a ++ u ++ v ++ b) (blen (a ++ u))) as (a' & u' & v' & b' & E & L & (HA' & NL' & HB') & H).
  { exists (a ++ u), (v ++ b). now rewrite <- app_assoc. }
  rewrite !in_app_iff in NL, NL'.
  rewrite (app_assoc a u), (app_assoc a' u') in E. apply blen_inj in E; [|exact L]. destruct E as [E1 E2].
  apply line_head_unique in E1; auto. destruct E1 as [-> ->].
  apply line_tail_unique in E2; auto. destruct E2 as [-> ->]. exact H.
Qed.

Theorem human_none t loc : human_text_error_new t loc = None <-> ~ boundary t loc.
Proof.
  split.
  - intros H B. destruct (human_ok t loc B) as (a & u & v & b & _ & _ & _ & H'). cbn zeta in H'. congruence.
  - intros NB. unfold human_text_error_new. destruct (split_at t loc) as [[h tl]|] eqn:S; [|reflexivity].
    exfalso. apply NB. apply split_at_inv in S. destruct S as [-> ->]. exists h, tl. auto.
Qed.

(** The report: the title with line and column, the line, and the caret. *)
Theorem report_line title errors a u v b : whole_line a (u ++ v) b ->
  exists tail,
  error_report title (a ++ u ++ v ++ b) (blen (a ++ u)) errors =
    Some (str title ++ str " (line " ++ digits (newlines a + 1) ++ str ", column " ++
          digits (match a with [] => 0 | _ => 1 end + blen u) ++ str ")" ++ [newline] ++
          (match a with [] => [] | _ => [newline] end) ++ u ++ v ++ [newline] ++
          repeat 32%N (match a with [] => blen u - 1 | _ => blen u end) ++ [94%N; newline] ++ tail) /\
  tail = str "Expected:" ++ [newline] ++ flat_map (fun e => str "  " ++ e ++ [newline]) errors.
Proof.
  intros W. eexists. split; [|reflexivity]. unfold error_report. rewrite (human_line a u v b W).
  cbn [h_line h_column head_of_line tail_of_line]. unfold pad_left.
  destruct a as [|c a]; cbn [List.length app Nat.add]; rewrite ?Nat.sub_0_r, <- ?app_assoc;
    replace (S (blen u) - 1) with (blen u) by lia; reflexivity.
Qed.
