(** Balanced tokens are skipped as a whole: the arguments of macros and attributes. *)

From Coq Require Import String List NArith Arith Bool Lia.
From Verif Require Import Base Peresil Token Schema Value Nt Grammar Points Table Static Amb Sem First OutlineSpec Reads Syntax RustSpec.
Import ListNotations.
Local Open Scope string_scope.
Local Open Scope list_scope.
Local Open Scope nat_scope.

Definition bracket_kind (k : tkind) : bool :=
  existsb (tkind_eqb k) [KLeftParen; KRightParen; KLeftSquare; KRightSquare; KLeftCurly; KRightCurly].

Lemma token_is_kind k t : token_is k t = is_kind k t.
Proof. destruct t; reflexivity. Qed.

(** Brackets are not part of compound tokens. *)
Lemma bracket_split k t n a b v : bracket_kind k = true -> split t n = Some (a, b) ->
  convert (MK k) a <> Some v /\ convert (MK k) b <> Some v.
Proof.
  intros K S. destruct t as [k' [s e]|x]; [|discriminate].
  assert (B : forall k', In k' all_tkinds -> forallb (fun n =>
    match split (Tk k' (0, 0)) n with
    | Some (Tk ka _, Tk kb _) => negb (bracket_kind ka) && negb (bracket_kind kb)
    | Some _ => false
    | None => true
    end) [0; 1] = true).
  { apply forallb_forall. vm_compute. reflexivity. }
  specialize (B k' (all_tkinds_complete k')). rewrite forallb_forall in B.
  destruct n as [|[|n]]; [| |now destruct k'].
  - specialize (B 0 ltac:(cbn; auto)). pose proof (split_kind k' (s, e) 0) as P. rewrite S in P.
    destruct (split (Tk k' (0, 0)) 0) as [[[ka ?|?] [kb ?|?]]|]; try contradiction; try discriminate.
    destruct P as [(x & E1 & E2) (y & E3 & E4)]. cbn in E2, E4. injection E2 as <-. injection E4 as <-.
    apply andb_true_iff in B as [B1 B2]. apply negb_true_iff in B1, B2.
    destruct a, b; cbn in E1, E3; try discriminate. injection E1 as ->. injection E3 as ->. cbn [convert].
    split; (destruct (tkind_eqb _ _) eqn:E; [|discriminate]); apply tkind_eqb_eq in E; subst; congruence.
  - specialize (B 1 ltac:(cbn; auto)). pose proof (split_kind k' (s, e) 1) as P. rewrite S in P.
    destruct (split (Tk k' (0, 0)) 1) as [[[ka ?|?] [kb ?|?]]|]; try contradiction; try discriminate.
    destruct P as [(x & E1 & E2) (y & E3 & E4)]. cbn in E2, E4. injection E2 as <-. injection E4 as <-.
    apply andb_true_iff in B as [B1 B2]. apply negb_true_iff in B1, B2.
    destruct a, b; cbn in E1, E3; try discriminate. injection E1 as ->. injection E3 as ->. cbn [convert].
    split; (destruct (tkind_eqb _ _) eqn:E; [|discriminate]); apply tkind_eqb_eq in E; subst; congruence.
Qed.

Section Nested.
  Variable toks : list token.

  Lemma bracket_taken k p q : bracket_kind k = true -> takes toks p (Sym k) q ->
    p = at_ (off p) /\ q = at_ (off p + 1) /\ exists t, nth_error toks (off p) = Some t /\ is_kind k t = true.
  Proof.
    intros K [x G]. specialize (G ExpectedIdent (new_master pt_zero Unambiguous)). unfold tok in G.
    destruct p as [i s]. cbn [off sub] in *. destruct (nth_error toks i) as [t|] eqn:N; [|discriminate].
    destruct s as [n|].
    - exfalso. destruct (split t n) as [[a b]|] eqn:S; [|discriminate].
      destruct (convert (MK k) b) as [v|] eqn:C; [now apply (proj2 (bracket_split k t n a b v K S))|].
      destruct (split t (sub_rank (Some n))) as [[a' b']|] eqn:S'; [|discriminate].
      destruct (convert (MK k) a') as [v|] eqn:C'; [|discriminate]. now apply (proj1 (bracket_split _ _ _ _ _ v K S')).
    - destruct (convert (MK k) t) as [v|] eqn:C.
      + injection G as <- _. split; [reflexivity|]. split; [reflexivity|]. exists t. split; [reflexivity|].
        destruct t as [k' y|]; [|discriminate]. cbn in C |- *. destruct (tkind_eqb k k') eqn:E; [|discriminate]. reflexivity.
      + exfalso. destruct (split t (sub_rank None)) as [[a' b']|] eqn:S'; [|discriminate].
        destruct (convert (MK k) a') as [v|] eqn:C'; [|discriminate]. now apply (proj1 (bracket_split _ _ _ _ _ v K S')).
  Qed.

  Lemma raw_reads ts : forall i q, reads toks (at_ i) (map Raw ts) q ->
    q = at_ (i + List.length ts) /\ skipn i toks = ts ++ skipn (i + List.length ts) toks.
  Proof.
    induction ts as [|t ts IH]; intros i q R; cbn [map reads List.length app] in *.
    - subst q. now rewrite Nat.add_0_r.
    - destruct R as (r & T & R). cbn [takes at_ off sub] in T. destruct T as (_ & N & ->).
      destruct (IH _ _ R) as [-> E]. replace (i + S (List.length ts)) with (i + 1 + List.length ts) by lia.
      split; [reflexivity|]. rewrite <- E. clear -N. revert i N. induction toks as [|u us IH]; intros [|i] N; try discriminate.
      + cbn in N. injection N as ->. reflexivity.
      + cbn [nth_error] in N. cbn [skipn Nat.add]. now apply IH.
  Qed.

  Lemma skip_balanced o c ts : o <> c -> o <> KEndOfFile -> c <> KEndOfFile -> balanced o c ts -> forall d rest,
    nested_skip o c d (ts ++ rest) = List.length ts + nested_skip o c d rest.
  Proof.
    intros OC OE CE B. induction B as [|t ts A1 A2 A3 B IH|t u ts us A1 A2 B IH B' IH']; intros d rest.
    - reflexivity.
    - rewrite token_is_kind in A1, A2, A3. cbn [app nested_skip List.length]. rewrite A3, A1, A2, IH. reflexivity.
    - rewrite token_is_kind in A1, A2.
      assert (X : forall k1 k2 t, is_kind k1 t = true -> k1 <> k2 -> is_kind k2 t = false).
      { intros k1 k2 [k y|n] I D; [|discriminate]. cbn in I |- *. apply tkind_eqb_eq in I.
        destruct (tkind_eqb k2 k) eqn:E; [apply tkind_eqb_eq in E; congruence|reflexivity]. }
      cbn [app nested_skip List.length]. rewrite A1, (X o KEndOfFile t A1 OE).
      rewrite <- app_assoc, IH. cbn [app nested_skip]. rewrite (X c KEndOfFile u A2 CE), (X c o u A2 (not_eq_sym OC)), A2, IH'.
      rewrite app_length. cbn [List.length]. lia.
  Qed.

  (** The text between brackets is skipped. *)
  Lemma sem_balanced a o c ts p q r : bracket_kind c = true -> o <> c -> o <> KEndOfFile -> balanced o c ts ->
    p = at_ (off p) -> reads toks p (map Raw ts) q -> takes toks q (Sym c) r ->
    exists x, forall e, sem toks a (GNested o c) e p (SOk q (VExt x)).
  Proof.
    intros K OC OE B P R T. rewrite P in R. destruct (raw_reads ts (off p) q R) as [-> E].
    destruct (bracket_taken c _ _ K T) as (_ & _ & t & N & I). cbn [at_ off] in N.
    assert (CE : c <> KEndOfFile) by (intros ->; discriminate).
    assert (S : nested_skip o c 0 (skipn (off p) toks) = List.length ts).
    { rewrite E, (skip_balanced o c ts OC OE CE B 0).
      assert (X : exists us, skipn (off p + List.length ts) toks = t :: us).
      { clear -N. revert N. generalize (off p + List.length ts). intros i. revert i. induction toks as [|u us IH]; intros [|i] N; try discriminate.
        - cbn in N. injection N as ->. exists us. reflexivity.
        - cbn [nth_error] in N. cbn [skipn]. now apply IH. }
      destruct X as [us ->]. cbn [nested_skip].
      assert (Y : forall k2, c <> k2 -> is_kind k2 t = false).
      { intros k2 D. destruct t as [k y|n]; [|reflexivity]. cbn in I |- *. apply tkind_eqb_eq in I.
        destruct (tkind_eqb k2 k) eqn:E2; [apply tkind_eqb_eq in E2; congruence|reflexivity]. }
      rewrite (Y KEndOfFile CE), (Y o (not_eq_sym OC)), I. lia. }
    eexists. intros e. pose proof (sem_nested toks a o c e p) as H. rewrite S in H. exact H.
  Qed.
End Nested.

(** ** The converse: what was skipped is balanced *)

(** [d] closing delimiters are still to come. *)
Fixpoint closes (o c : tkind) (d : nat) (ts : list token) : Prop :=
  match d with
  | 0 => balanced o c ts
  | S d => exists b u r, ts = b ++ u :: r /\ balanced o c b /\ token_is c u = true /\ closes o c d r
  end.

Lemma balanced_app o c a b : balanced o c a -> balanced o c b -> balanced o c (a ++ b).
Proof.
  intros A B. induction A as [|t ts A1 A2 A3 A IH|t u ts us A1 A2 A IH A' IH']; [exact B|now constructor|].
  cbn [app]. rewrite <- app_assoc. cbn [app]. now apply BL_nest.
Qed.

Lemma closes_app o c d a b : balanced o c a -> closes o c d b -> closes o c d (a ++ b).
Proof.
  intros A. destruct d as [|d]; cbn [closes]; [apply (balanced_app o c a b A)|].
  intros (x & u & r & -> & Bx & U & C). exists (a ++ x), u, r. split; [now rewrite app_assoc|]. split; [now apply balanced_app|]. auto.
Qed.

Lemma skip_closes o c : forall ts d u, nth_error ts (nested_skip o c d ts) = Some u -> is_kind KEndOfFile u = false ->
  is_kind c u = true /\ closes o c d (firstn (nested_skip o c d ts) ts).
Proof.
  induction ts as [|t ts IH]; intros d u N E; cbn [nested_skip] in *; [discriminate|].
  destruct (is_kind KEndOfFile t) eqn:T1; [cbn in N; congruence|].
  destruct (is_kind o t) eqn:T2.
  - cbn [nth_error firstn] in *. destruct (IH _ _ N E) as (U & b & w & r & EQ & B & W & C). split; [exact U|].
    rewrite EQ. change (t :: b ++ w :: r) with ([t] ++ b ++ [w] ++ r). rewrite 2!app_assoc. apply closes_app; [|exact C].
    rewrite <- app_assoc. cbn [app]. apply BL_nest; [now rewrite token_is_kind|exact W|exact B|constructor].
  - destruct (is_kind c t) eqn:T3.
    + destruct d as [|d].
      * cbn [nth_error] in N. injection N as <-. split; [exact T3|]. cbn [firstn closes]. constructor.
      * cbn [nth_error firstn] in *. destruct (IH _ _ N E) as (U & C). split; [exact U|]. cbn [closes].
        exists [], t, (firstn (nested_skip o c d ts) ts). split; [reflexivity|]. split; [constructor|]. split; [now rewrite token_is_kind|exact C].
    + cbn [nth_error firstn] in *. destruct (IH _ _ N E) as (U & C). split; [exact U|].
      change (t :: ?l) with ([t] ++ l). apply closes_app; [|exact C]. apply BL_one; try (now rewrite token_is_kind). constructor.
Qed.

Section Read.
  Variable toks : list token.

  Lemma bracket_tok k err pm p pm' q v : bracket_kind k = true -> tok toks (MK k) err pm p = (pm', Success q v) ->
    p = at_ (off p) /\ q = at_ (off p + 1) /\ exists t, nth_error toks (off p) = Some t /\ is_kind k t = true.
  Proof.
    intros K G. unfold tok in G.
    destruct p as [i s]. cbn [off sub] in *. destruct (nth_error toks i) as [t|] eqn:N; [|discriminate].
    destruct s as [n|].
    - exfalso. destruct (split t n) as [[a b]|] eqn:S; [|discriminate].
      destruct (convert (MK k) b) as [w|] eqn:C; [now apply (proj2 (bracket_split k t n a b w K S))|].
      destruct (split t (sub_rank (Some n))) as [[a' b']|] eqn:S'; [|discriminate].
      destruct (convert (MK k) a') as [w|] eqn:C'; [|discriminate]. now apply (proj1 (bracket_split _ _ _ _ _ w K S')).
    - destruct (convert (MK k) t) as [w|] eqn:C.
      + injection G as _ <- _. split; [reflexivity|]. split; [reflexivity|]. exists t. split; [reflexivity|].
        destruct t as [k' y|]; [|discriminate]. cbn in C |- *. destruct (tkind_eqb k k') eqn:E; [|discriminate]. reflexivity.
      + exfalso. destruct (split t (sub_rank None)) as [[a' b']|] eqn:S'; [|discriminate].
        destruct (convert (MK k) a') as [w|] eqn:C'; [|discriminate]. now apply (proj1 (bracket_split _ _ _ _ _ w K S')).
  Qed.

  Definition reads_arguments (n : nt) (o c : tkind) : Prop :=
    bracket_kind o = true /\ bracket_kind c = true /\
    exists e1 e2 steps, table n =
      GSeq ((PVar "_", GTok (MK o) e1) :: (PVar "args", GNested o c) :: (PVar "_", GTok (MK c) e2) :: steps) (BVar "args") /\
      (steps = [] \/ exists e3, steps = [(PVar "_", GTok (MK KSemicolon) e3)]).

  Lemma arguments_read fuel n o c pm p pm' q v : reads_arguments n o c ->
    run table toks fuel (GNT n) [] pm p = (pm', Success q v) ->
    exists t args u rest x, skipn (off p) toks = t :: args ++ u :: rest /\
      token_is o t = true /\ balanced o c args /\ token_is c u = true /\
      v = VExt x /\ ex toks (at_ (off p + 1)) (at_ (off p + 1 + List.length args)) = BOk x.
  Proof.
    intros (KO & KC & e1 & e2 & steps & TB & ST) H.
    destruct fuel as [|fuel]; [discriminate|]. cbn [run] in H. destruct fuel as [|fuel]; [discriminate|]. rewrite TB in H.
    cbn [run] in H. cbn [run_steps] in H. destruct fuel as [|fuel]; [discriminate|]. cbn [run] in H.
    destruct (tok toks (MK o) e1 pm p) as [pm1 [q1 v1| |]] eqn:T1; try discriminate.
    destruct (bracket_tok _ _ _ _ _ _ _ KO T1) as (P1 & -> & t & N1 & I1).
    cbn [bind_pat] in H. unfold nested in H.
    set (len := nested_skip o c 0 (skipn (off (at_ (off p + 1))) toks)) in *.
    destruct (ex toks (at_ (off p + 1)) (mkPt (off (at_ (off p + 1)) + len) None)) as [x|] eqn:EX; [|discriminate].
    destruct (tok toks (MK c) e2 pm1 (mkPt (off (at_ (off p + 1)) + len) None)) as [pm2 [q2 v2| |]] eqn:T2; try discriminate.
    destruct (bracket_tok _ _ _ _ _ _ _ KC T2) as (_ & -> & u & N2 & I2). cbn [at_ off] in *.
    assert (V : v = VExt x).
    { destruct ST as [->|(e3 & ->)]; cbn [run_steps] in H.
      - injection H as _ _ <-. reflexivity.
      - destruct (tok toks (MK KSemicolon) e3 pm2 _) as [pm3 [q3 v3| |]] eqn:T3; try discriminate.
        injection H as _ _ <-. reflexivity. }
    assert (SK : forall i (l : list token) w, nth_error l i = Some w -> skipn i l = w :: skipn (i + 1) l).
    { induction i as [|i IH]; intros [|w' l] w N; try discriminate; cbn [nth_error] in N; [injection N as ->; reflexivity|].
      cbn [skipn Nat.add]. now apply IH. }
    assert (NS : nth_error (skipn (off p + 1) toks) len = Some u).
    { rewrite <- N2. clear. generalize (off p + 1) len. clear len. intros i len. revert len. induction toks as [|w l IH] in i |- *; intros len.
      - destruct i; cbn; destruct len; reflexivity.
      - destruct i; [reflexivity|]. cbn [skipn Nat.add nth_error]. apply IH. }
    assert (EU : is_kind KEndOfFile u = false).
    { destruct u as [k y|]; [|reflexivity]. cbn in I2 |- *. apply tkind_eqb_eq in I2. subst k. clear -KC. now destruct c. }
    destruct (skip_closes o c _ 0 u NS EU) as [_ CL]. fold len in CL. cbn [closes] in CL.
    exists t, (firstn len (skipn (off p + 1) toks)), u, (skipn (len + 1) (skipn (off p + 1) toks)), x.
    split; [|split; [|split; [exact CL|split; [|split; [exact V|]]]]].
    - rewrite (SK _ _ _ N1). f_equal. rewrite <- (SK _ _ _ NS). symmetry. apply firstn_skipn.
    - now rewrite token_is_kind.
    - now rewrite token_is_kind.
    - rewrite firstn_length_le; [exact EX|]. apply Nat.lt_le_incl, nth_error_Some. congruence.
  Qed.
End Read.
