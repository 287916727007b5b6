(** Two runs of a parser on token lists that agree up to the token with index
    [J]: either the first run gets past that token, or both proceed in the same
    way.  The first run may also abort. *)

From Coq Require Import String List Arith Bool Lia.
From Verif Require Import Base Peresil Token Schema Value Nt Grammar Table Rel Reach.
Import ListNotations.
Local Open Scope string_scope.
Local Open Scope list_scope.
Local Open Scope nat_scope.

(** * Relations between results: the first one may have aborted *)

Inductive blax {A B} (R : A -> B -> Prop) : bres A -> bres B -> Prop :=
| bl_ok a b : R a b -> blax R (BOk a) (BOk b)
| bl_abort w r : blax R (BAbort w) r.

Inductive alax {A B} (R : A -> B -> Prop) : ares A -> ares B -> Prop :=
| al_ok a b : R a b -> alax R (AOk a) (AOk b)
| al_err p e : alax R (AErr p e) (AErr p e)
| al_abort w r : alax R (AAbort w) r.

Lemma blax_bind {A B A' B'} (R : A -> A' -> Prop) (R' : B -> B' -> Prop) r r' k k' :
  blax R r r' -> (forall a a', R a a' -> blax R' (k a) (k' a')) -> blax R' (bbind r k) (bbind r' k').
Proof. intros [a b H|w r0] K; cbn [bbind]; [auto|constructor]. Qed.

Lemma alax_bind {A B A' B'} (R : A -> A' -> Prop) (R' : B -> B' -> Prop) r r' k k' :
  alax R r r' -> (forall a a', R a a' -> alax R' (k a) (k' a')) -> alax R' (abind r k) (abind r' k').
Proof. intros [a b H|p e|w r0] K; cbn [abind]; [auto|constructor|constructor]. Qed.

Lemma alax_of_b {A B} (R : A -> B -> Prop) r r' : blax R r r' -> alax R (a_of_b r) (a_of_b r').
Proof. intros [a b H|w r0]; constructor; auto. Qed.

(** Grammars that do not look at a token without taking it: the only exception
    is the empty statement, whose semicolon the block then takes.  No token
    parser takes the end of the file. *)
Fixpoint plain (x : g) : bool :=
  match x with
  | GTok m _ => match m with MK KEndOfFile => false | _ => true end
  | GNT n => match n with N_statement | N_statement_empty => false | _ => true end
  | GPoint | GNested _ _ | GShunt _ => true
  | GSeq steps _ => forallb (fun s => plain (snd s)) steps
  | GAlt gs => forallb plain gs
  | GOpt y | GMany y | GExt y | GMapErr y _ | GAmb _ y | GIfMax _ y => plain y
  | GTailed _ a b | GTailed1 a b | GIfAmb a b => plain a && plain b
  | GImplicit a b =>
      match a, b with
      | GTok (MK KSemicolon) ExpectedSemicolon, GNT N_statement => true
      | _, _ => plain a && plain b
      end
  | GResume a b => rc b && plain a && plain b
  | GPeek _ => false
  | GSimple y err => match y, err with GTok MNumber ExpectedNumber, ExpectedNumber => true | _, _ => false end
  end.

Lemma plain_checked :
  forallb (fun n => match n with N_statement | N_statement_empty => true | _ => plain (table n) end) all_nts = true.
Proof. vm_compute. reflexivity. Qed.

Lemma table_plain n : plain (GNT n) = true -> plain (table n) = true.
Proof.
  intros P. pose proof plain_checked as H. rewrite forallb_forall in H. specialize (H n (all_nts_complete n)).
  destruct n; try exact H; discriminate P.
Qed.

Section Ahead.
  Variable er : extent -> extent.
  Variable eu : nat -> nat.
  Variables toks1 toks2 : list token.
  Variable J : nat.

  Hypothesis HU : forall a b, eu a = eu b -> (a = 0 <-> b = 0).
  Hypothesis HS : forall s e s' e', er (s, e) = er (s', e') ->
    er (s, s + 1) = er (s', s' + 1) /\ er (s + 1, e) = er (s' + 1, e') /\
    er (s + 1, s + 2) = er (s' + 1, s' + 2) /\ er (s + 2, e) = er (s' + 2, e').
  Hypothesis HJ : forall a b a' b', er a = er a' -> er b = er b' -> er (fst a, snd b) = er (fst a', snd b').
  Definition agree_at (i : nat) : Prop :=
    option_map (tmap er eu) (nth_error toks1 i) = option_map (tmap er eu) (nth_error toks2 i).
  (** The second list may end at [J]. *)
  Definition cut : Prop := exists t x, nth_error toks1 J = Some t /\ (forall n, split t n = None) /\
    nth_error toks2 J = Some (Tk KEndOfFile x).
  Hypothesis HT : forall i, i < J -> agree_at i.
  Hypothesis HX : agree_at J \/ cut.
  Hypothesis HE : forall s e, blax (fun a b => er a = er b) (ex toks1 s e) (ex toks2 s e).

  Notation vm := (vmap er eu).
  Definition vs (a b : val) : Prop := vm a = vm b.
  Definition es (a b : env) : Prop := emap er eu a = emap er eu b.

  Inductive ps {A B} (R : A -> B -> Prop) : progress point A perror -> progress point B perror -> Prop :=
  | ps_ok p a b : R a b -> ps R (Success p a) (Success p b)
  | ps_fail p e : ps R (Failure p e) (Failure p e).

  (** The first run looked behind the token [J], or aborted. *)
  Definition gone {A} (pm : pm_t) (r : progress point A perror) : Prop :=
    J < fo pm \/ match r with Success q _ => J < off q | Failure q _ => J < off q | Abort _ => True end.
  Definition past {A} (x : pm_t * progress point A perror) : Prop := gone (fst x) (snd x).

  Definition rs {A B} (R : A -> B -> Prop) (a : pm_t * progress point A perror)
             (b : pm_t * progress point B perror) : Prop :=
    past a \/ fst a = fst b /\ ps R (snd a) (snd b).

  Definition prs {A B} (R : A -> B -> Prop) (f : gparser A) (f' : gparser B) : Prop :=
    forall pm p, rs R (f pm p) (f' pm p).

  Lemma rs_ok {A B} (R : A -> B -> Prop) pm p a b : R a b -> rs R (pm, Success p a) (pm, Success p b).
  Proof. intros. right. split; [reflexivity|constructor; assumption]. Qed.
  Lemma rs_fail {A B} (R : A -> B -> Prop) pm p e : rs (A:=A) (B:=B) R (pm, Failure p e) (pm, Failure p e).
  Proof. intros. right. split; [reflexivity|constructor]. Qed.
  Lemma rs_abort {A B} (R : A -> B -> Prop) pm w x : rs (A:=A) (B:=B) R (pm, Abort w) x.
  Proof. left. right. exact I. Qed.

  Lemma past_after {A} pm q (x : pm_t * progress point A perror) :
    ahead pm q x -> J < fo pm \/ J < off q -> past x.
  Proof.
    intros [K K'] [H|H]; [left; lia|]. destruct x as [pm1 [r v|r e|w]]; cbn [fst snd] in *; right; cbn [snd];
      try exact I; apply ple_off in K'; lia.
  Qed.

  (** Run both sides; first the three cases in which the first run is past the
      token, then the two in which they agree. *)
  Ltac both H :=
    match type of H with
    | prs _ ?f ?f' =>
        match goal with
        | |- context [f ?pm ?p] =>
            let X := fresh "X" in
            pose proof (H pm p) as X;
            let pm1 := fresh "pm" in let pm2 := fresh "pm" in
            let r1 := fresh "r" in let r2 := fresh "r" in
            let E1 := fresh "E" in
            destruct (f pm p) as [pm1 r1] eqn:E1; destruct (f' pm p) as [pm2 r2];
            destruct X as [X|[? X]];
            [unfold past, gone in X; destruct r1 as [? ?|? ?|?]; cbn [fst snd] in X
            |cbn [fst snd] in *; subst pm2; destruct X as [? ? ? X|? ?]]
        end
    end.
  Ltac lost := left; unfold past, gone; cbn [fst snd]; first [right; exact I|lia].

  Lemma split_rel t1 t2 n : tmap er eu t1 = tmap er eu t2 ->
    match split t1 n, split t2 n with
    | Some (a, b), Some (c, d) => tmap er eu a = tmap er eu c /\ tmap er eu b = tmap er eu d
    | None, None => True
    | _, _ => False
    end.
  Proof.
    destruct t1 as [k [s e]|n1], t2 as [k' [s' e']|n2]; try discriminate.
    - intros [= -> E]. destruct (HS _ _ _ _ E) as (A & B & C & D).
      destruct k'; cbn [split]; try exact I; destruct n as [|[|n]]; cbn [split tmap]; try exact I;
        rewrite ?A, ?B, ?C, ?D; auto.
    - intros _. exact I.
  Qed.

  Lemma convert_rel m t1 t2 : tmap er eu t1 = tmap er eu t2 ->
    option_map vm (convert m t1) = option_map vm (convert m t2).
  Proof.
    destruct m as [k|], t1 as [k1 e1|n1], t2 as [k2 e2|n2]; try discriminate; cbn [tmap convert]; try reflexivity.
    - intros [= -> E]. destruct (tkind_eqb k k2); cbn [option_map vmap]; congruence.
    - intros [= ]. cbn [option_map vmap]. unfold nmap. congruence.
  Qed.

  (** A token parser at a point where the lists agree. *)
  Lemma tok_agree m err pm p : agree_at (off p) ->
    (exists w, snd (tok toks1 m err pm p) = Abort w) \/
    fst (tok toks1 m err pm p) = fst (tok toks2 m err pm p) /\
    ps vs (snd (tok toks1 m err pm p)) (snd (tok toks2 m err pm p)).
  Proof.
    intros AG.
    unfold tok. rename AG into N. unfold agree_at in N.
    destruct (nth_error toks1 (off p)) as [t1|], (nth_error toks2 (off p)) as [t2|]; try discriminate;
      [|right; split; [reflexivity|constructor]]. cbn [option_map] in N. assert (N' : tmap er eu t1 = tmap er eu t2) by congruence. clear N. rename N' into N.
    assert (C : match match sub p with Some n => match split t1 n with Some (_, b) => Some b | None => None end | None => Some t1 end,
                      match sub p with Some n => match split t2 n with Some (_, b) => Some b | None => None end | None => Some t2 end with
                | Some a, Some b => tmap er eu a = tmap er eu b
                | None, None => True
                | _, _ => False end).
    { destruct (sub p) as [n|]; [|exact N]. pose proof (split_rel _ _ n N) as S.
      destruct (split t1 n) as [[a b]|], (split t2 n) as [[c d]|]; try contradiction; tauto. }
    destruct (match sub p with Some n => match split t1 n with Some (_, b) => Some b | None => None end | None => Some t1 end) as [c1|],
             (match sub p with Some n => match split t2 n with Some (_, b) => Some b | None => None end | None => Some t2 end) as [c2|];
      try contradiction; [|left; eexists; reflexivity].
    pose proof (convert_rel m _ _ C) as V.
    destruct (convert m c1) as [v1|], (convert m c2) as [v2|]; try discriminate.
    - injection V as V. right. split; [reflexivity|]. now constructor.
    - pose proof (split_rel _ _ (sub_rank (sub p)) N) as S.
      destruct (split t1 (sub_rank (sub p))) as [[a b]|], (split t2 (sub_rank (sub p))) as [[c d]|]; try contradiction;
        [|right; split; [reflexivity|constructor]].
      destruct S as [S _]. pose proof (convert_rel m _ _ S) as W.
      destruct (convert m a) as [v1|], (convert m c) as [v2|]; try discriminate; [|right; split; [reflexivity|constructor]].
      injection W as W. right. split; [reflexivity|]. now constructor.
  Qed.

  (** A token parser at a point that is not past the token. *)
  Lemma tok_here m err pm p : m <> MK KEndOfFile -> off p <= J ->
    (exists w, snd (tok toks1 m err pm p) = Abort w) \/
    (exists q v, (forall err pm, tok toks1 m err pm p = (pm, Success q v)) /\ J < off q /\ off p = J) \/
    fst (tok toks1 m err pm p) = fst (tok toks2 m err pm p) /\
    ps vs (snd (tok toks1 m err pm p)) (snd (tok toks2 m err pm p)).
  Proof.
    intros NE LE. assert (D : off p < J \/ off p = J) by lia. destruct D as [D|D].
    { destruct (tok_agree m err pm p (HT _ D)); auto. }
    destruct HX as [A|(t & x & T1 & S & T2)].
    { rewrite <- D in A. destruct (tok_agree m err pm p A); auto. }
    unfold tok. rewrite D, T1, T2. destruct (sub p) as [n|].
    { left. rewrite S. eexists. reflexivity. }
    cbn [sub_rank]. destruct (convert m t) as [v|] eqn:C.
    { right. left. exists (mkPt (J + 1) None), v. split; [|cbn [off]; split; lia].
      intros e0 pm0. reflexivity. }
    right. right. rewrite S. replace (convert m (Tk KEndOfFile x)) with (@None val).
    - cbn [split]. split; [reflexivity|constructor].
    - destruct m as [k|]; [|reflexivity]. cbn [convert]. destruct k; try reflexivity. now destruct NE.
  Qed.

  Lemma tok_rel m err : m <> MK KEndOfFile -> prs vs (tok toks1 m err) (tok toks2 m err).
  Proof.
    intros NE pm p. destruct (le_lt_dec (off p) J) as [LE|GT].
    - destruct (tok_here m err pm p NE LE) as [[w E]|[(q & v & E & L & _)|E]]; [| |right; exact E].
      + destruct (tok toks1 m err pm p) as [pm1 r]. cbn [snd] in E. subst r. apply rs_abort.
      + rewrite E. left. right. exact L.
    - left. eapply past_after; [apply tok_keeps|]. now right.
  Qed.

  (** ** Building results *)

  Lemma as_point_rel o1 o2 : option_map vm o1 = option_map vm o2 -> blax eq (as_point o1) (as_point o2).
  Proof.
    destruct o1 as [v1|], o2 as [v2|]; try discriminate; cbn [option_map as_point]; [|constructor].
    intros [= H]. destruct v1, v2; try discriminate; cbn [vmap] in H; try constructor. congruence.
  Qed.

  Lemma assoc_rel x e1 e2 : es e1 e2 -> option_map vm (assoc x e1) = option_map vm (assoc x e2).
  Proof. unfold es. intros H. rewrite <- !assoc_map, H. reflexivity. Qed.

  Lemma ext_rel p q : blax vs (bbind (ex toks1 p q) (fun x => BOk (VExt x))) (bbind (ex toks2 p q) (fun x => BOk (VExt x))).
  Proof.
    destruct (HE p q) as [a b H|w]; constructor. unfold vs. cbn [vmap]. congruence.
  Qed.

  Ltac inv H := unfold vs in H; cbn [vmap] in H;
    match type of H with
    | _ = _ => first [discriminate H | injection H as H | idtac]
    end.

  Lemma vs_list l1 l2 : vs (VList l1) (VList l2) <-> map vm l1 = map vm l2.
  Proof. unfold vs. cbn [vmap]. split; [intros [= H]; exact H|intros ->; reflexivity]. Qed.

  Lemma beval_rel pt e1 e2 : es e1 e2 -> forall b, blax vs (beval toks1 pt e1 b) (beval toks2 pt e2 b).
  Proof.
    intros He. fix go 1. intros b.
    destruct b as [x|x|x y| | | |b|b|b|b|b d|k fs|en v b|a b|b|b|f b|b|b|b|b|s t|s t|x t|b]; cbn [beval].
    - pose proof (assoc_rel x _ _ He) as A.
      destruct (assoc x e1), (assoc x e2); try discriminate; constructor. injection A as A. exact A.
    - eapply blax_bind; [apply as_point_rel, assoc_rel, He|]. intros ? ? <-. apply ext_rel.
    - eapply blax_bind; [apply as_point_rel, assoc_rel, He|]. intros ? ? <-.
      eapply blax_bind; [apply as_point_rel, assoc_rel, He|]. intros ? ? <-. apply ext_rel.
    - constructor. reflexivity.
    - constructor. reflexivity.
    - constructor. reflexivity.
    - eapply blax_bind; [apply go|]. intros a a' H. constructor. unfold vs in *. cbn [vmap]. congruence.
    - eapply blax_bind; [apply go|]. intros a a' H. constructor. unfold vs in *. cbn [vmap map]. congruence.
    - eapply blax_bind; [apply go|]. intros a a' H.
      destruct a, a'; inv H; constructor; unfold vs; cbn [vmap map]; congruence.
    - eapply blax_bind; [apply go|]. intros a a' H.
      destruct a, a'; inv H; constructor; unfold vs; cbn [vmap map]; congruence.
    - eapply blax_bind; [apply go|]. intros a a' H.
      destruct a, a'; inv H; try (constructor; unfold vs; cbn [vmap map]; congruence). apply go.
    - eapply blax_bind with (R := fun l l' => map vm l = map vm l').
      + induction fs as [|[nm b] fs IH]; [constructor; reflexivity|].
        eapply blax_bind; [apply go|]. intros a a' H.
        eapply blax_bind; [apply IH|]. intros l l' H'. constructor. cbn [map]. unfold vs in H. congruence.
      + intros l l' H. constructor. unfold vs. cbn [vmap]. congruence.
    - eapply blax_bind; [apply go|]. intros x x' H. constructor. unfold vs in *. cbn [vmap]. congruence.
    - eapply blax_bind; [apply go|]. intros x x' H. eapply blax_bind; [apply go|]. intros y y' H'.
      constructor. unfold vs in *. cbn [vmap]. congruence.
    - eapply blax_bind; [apply go|]. intros a a' H.
      destruct a, a'; inv H; constructor; unfold vs; congruence.
    - eapply blax_bind; [apply go|]. intros a a' H.
      destruct a, a'; inv H; constructor; unfold vs; congruence.
    - eapply blax_bind; [apply go|]. intros a a' H. unfold vs in H.
      pose proof (f_equal (get_field f) H) as G. rewrite !get_field_map in G.
      destruct (get_field f a), (get_field f a'); try discriminate; constructor. injection G as G. exact G.
    - eapply blax_bind; [apply go|]. intros a a' H. unfold vs in H.
      pose proof (f_equal extent_of H) as G. rewrite !extent_of_map in G.
      destruct (extent_of a), (extent_of a'); try discriminate; constructor. injection G as G.
      unfold vs. cbn [vmap]. congruence.
    - eapply blax_bind; [apply go|]. intros a a' H.
      destruct a, a'; inv H; constructor; unfold vs; reflexivity.
    - eapply blax_bind; [apply go|]. intros a a' H.
      destruct a as [| | | | | | |a| | | |], a' as [| | | | | | |a'| | | |]; inv H; try (constructor; unfold vs; reflexivity).
      destruct a, a'; inv H; constructor; unfold vs; cbn [vmap]; congruence.
    - eapply blax_bind; [apply go|]. intros a a' H.
      destruct a as [| | | | | | |a| | | |], a' as [| | | | | | |a'| | | |]; inv H; try (constructor; unfold vs; reflexivity).
      destruct a, a'; inv H; constructor; unfold vs; cbn [vmap]; congruence.
    - eapply blax_bind; [apply go|]. intros x x' H. eapply blax_bind; [apply go|]. intros y y' H'.
      destruct x, x'; inv H; try constructor. destruct y, y'; inv H'; try constructor. subst.
      apply vs_list. pose proof (f_equal (fun l => fst (block_split l b0)) H) as G. cbn beta in G.
      rewrite !block_split_map in G. exact G.
    - eapply blax_bind; [apply go|]. intros x x' H. eapply blax_bind; [apply go|]. intros y y' H'.
      destruct x, x'; inv H; try constructor. destruct y, y'; inv H'; try constructor. subst.
      unfold vs. pose proof (f_equal (fun l => snd (block_split l b0)) H) as G. cbn beta in G.
      rewrite !block_split_map in G. exact G.
    - eapply blax_bind; [apply go|]. intros z z' H. eapply blax_bind; [apply go|]. intros y y' H'.
      destruct z, z'; inv H; try constructor. destruct y, y'; inv H'; try constructor.
      destruct y1, y'1; cbn [vmap] in *; try discriminate; try constructor.
      destruct y2, y'2; cbn [vmap] in *; try discriminate; try constructor.
      destruct y2_1, y'2_1; cbn [vmap] in *; try discriminate; try constructor.
      unfold vs. rewrite !paren_map. congruence.
    - eapply blax_bind; [apply go|]. intros z z' H.
      destruct z, z'; try discriminate H; constructor.
      unfold vs in *. cbn [vmap] in H. rewrite !convert_number_map.
      exact (f_equal (fun v => match v with VNum n => convert_number n | _ => VUnit end) H).
  Qed.

  Lemma bind_pat_rel p v1 v2 e1 e2 : vs v1 v2 -> es e1 e2 ->
    match bind_pat p v1 e1, bind_pat p v2 e2 with
    | Some a, Some b => es a b
    | None, None => True
    | _, _ => False
    end.
  Proof.
    unfold vs, es. intros Hv He.
    pose proof (bind_pat_map er eu p v1 e1) as A. pose proof (bind_pat_map er eu p v2 e2) as B.
    rewrite Hv, He, B in A. destruct (bind_pat p v1 e1), (bind_pat p v2 e2); try discriminate; [|exact I].
    injection A as A. symmetry. exact A.
  Qed.

  Lemma steps_rel rn1 rn2 steps b :
    (forall x e, keeps (rn1 x e)) ->
    Forall (fun s => forall e1 e2, es e1 e2 -> prs vs (rn1 (snd s) e1) (rn2 (snd s) e2)) steps ->
    forall e1 e2, es e1 e2 -> prs vs (run_steps toks1 rn1 steps b e1) (run_steps toks2 rn2 steps b e2).
  Proof.
    intros Hk Hr. induction Hr as [|[pt x] steps Hx _ IH]; intros e1 e2 He pm p; cbn [run_steps].
    - destruct (beval_rel p e1 e2 He b) as [v1 v2 H|w r0]; [now apply rs_ok|now apply rs_abort].
    - cbn [snd] in Hx. pose proof (Hx e1 e2 He) as H. both H.
      + destruct (bind_pat pt v e1) as [e'|]; [|lost]. left.
        eapply past_after; [apply steps_keeps, Hk|exact X].
      + lost.
      + lost.
      + pose proof (bind_pat_rel pt a b0 e1 e2 X He) as G.
        destruct (bind_pat pt a e1), (bind_pat pt b0 e2); try contradiction; [|now apply rs_abort].
        now apply IH.
      + now apply rs_fail.
  Qed.

  (** ** Combinators *)

  Lemma alternate_from_past (fs : list (gparser val)) : Forall keeps fs -> forall r pm p,
    gone pm r -> past (alternate_from pt_lt recov r fs pm p).
  Proof.
    intros H r pm p G. destruct H as [|f fs H Hs]; cbn [alternate_from]; [exact G|].
    destruct r as [q v|q e|w]; try exact G. cbn [recov]. pose proof (H pm p) as K.
    destruct (f pm p) as [pm1 r1]. destruct K as [K K']. cbn [fst snd] in *.
    pose proof (record_fo pm1 q e) as [A B].
    destruct (alternate_from_keeps fs Hs r1 (record_failure pt_lt pm1 q e) p K') as [C _].
    left. destruct G as [G|G]; lia.
  Qed.

  Lemma alternate_rel (fs1 fs2 : list (gparser val)) : Forall keeps fs1 ->
    Forall2 (prs vs) fs1 fs2 -> prs vs (alternate pt_lt recov fs1) (alternate pt_lt recov fs2).
  Proof.
    assert (A : forall fs1 fs2 : list (gparser val), Forall2 (prs vs) fs1 fs2 -> Forall keeps fs1 ->
      forall r1 r2, ps vs r1 r2 -> forall pm pt,
      rs vs (alternate_from pt_lt recov r1 fs1 pm pt) (alternate_from pt_lt recov r2 fs2 pm pt)).
    { clear fs1 fs2. induction 1 as [|f1 f2 fs1 fs2 Hf _ IH]; intros Hk r1 r2 Hr pm pt; cbn [alternate_from].
      - right. split; [reflexivity|exact Hr].
      - inversion_clear Hk as [|? ? K Ks].
        destruct Hr as [p a b H|p e]; [now apply rs_ok|]. cbn [recov].
        pose proof (Hf pm pt) as X. destruct (f1 pm pt) as [pm1 r1], (f2 pm pt) as [pm2 r2].
        destruct X as [X|[M' X]]; cbn [fst snd] in *.
        + left. apply alternate_from_past; [exact Ks|]. pose proof (record_fo pm1 p e) as [C _].
          destruct X as [X|X]; [left; cbn [fst] in X; lia|right; exact X].
        + subst pm2. now apply IH. }
    intros Hk H pm pt. destruct H as [|f1 f2 fs1 fs2 Hf H]; cbn [alternate]; [now apply rs_abort|].
    inversion_clear Hk as [|? ? K Ks].
    pose proof (Hf pm pt) as X. destruct (f1 pm pt) as [pm1 r1], (f2 pm pt) as [pm2 r2].
    destruct X as [X|[M' X]]; cbn [fst snd] in *.
    - left. now apply alternate_from_past.
    - subst pm2. now apply A.
  Qed.

  Lemma map_rel {A B} (R : A -> A -> Prop) (R' : B -> B -> Prop) f1 f2 h :
    prs R f1 f2 -> (forall a b, R a b -> R' (h a) (h b)) -> prs R' (map_p f1 h) (map_p f2 h).
  Proof.
    intros H Hh pm p. unfold map_p. both H; try lost; [apply rs_ok|apply rs_fail]; auto.
  Qed.

  Definition os (a b : option val) : Prop := option_map vm a = option_map vm b.

  Lemma optional_rel f1 f2 : prs vs f1 f2 -> prs os (optional pt_lt recov f1) (optional pt_lt recov f2).
  Proof.
    intros H pm p. unfold optional. both H; cbn [recov]; try lost.
    - pose proof (record_fo pm0 pt e). lost.
    - apply rs_ok. unfold os, vs in *. cbn. congruence.
    - apply rs_ok. reflexivity.
  Qed.

  Definition ls (a b : list val) : Prop := map vm a = map vm b.

  Lemma many_rel f1 f2 : keeps f1 -> prs vs f1 f2 -> forall n,
    prs ls (zero_or_more pt_lt recov n f1) (zero_or_more pt_lt recov n f2).
  Proof.
    intros K H n. induction n as [|n IH]; intros pm p; cbn [zero_or_more]; [apply rs_abort|].
    both H.
    - left. pose proof (past_after pm0 pt _ (many_keeps f1 K n pm0 pt) X) as P.
      destruct (zero_or_more pt_lt recov n f1 pm0 pt) as [pm2 [q2 l2|q2 e2|w2]]; exact P.
    - cbn [recov]. pose proof (record_fo pm0 pt e). lost.
    - lost.
    - both IH; try lost; [|apply rs_fail].
      apply rs_ok. unfold ls, vs in *. cbn [map]. congruence.
    - cbn [recov]. apply rs_ok. reflexivity.
  Qed.

  Lemma vtailed_rel v1 v2 c l : ls v1 v2 -> vs (vtailed v1 c l) (vtailed v2 c l).
  Proof. unfold ls, vs. cbn [vtailed vmap]. congruence. Qed.

  Lemma ls_snoc l1 l2 v1 v2 : ls l1 l2 -> vs v1 v2 -> ls (l1 ++ [v1]) (l2 ++ [v2]).
  Proof. unfold ls, vs. intros A B. rewrite !map_app. cbn [map]. congruence. Qed.

  Lemma tailed_rel s1 s2 f1 f2 : keeps s1 -> keeps f1 -> prs vs s1 s2 -> prs vs f1 f2 -> forall n,
    forall l1 l2, ls l1 l2 -> forall c b, prs vs (tailed_loop n s1 f1 l1 c b) (tailed_loop n s2 f2 l2 c b).
  Proof.
    intros Ks Kf Hs Hf n. induction n as [|n IH]; intros l1 l2 Hl c b pm p; cbn [tailed_loop]; [apply rs_abort|].
    both Hf.
    - left. pose proof (Ks pm0 pt) as K. destruct (s1 pm0 pt) as [pm9 [q9 v9|q9 e9|w9]]; destruct K as [K K'];
        cbn [fst snd] in *; try (unfold past, gone; cbn [fst snd]; first [right; exact I|apply ple_off in K'; lia]).
      eapply past_after; [now apply tailed_keeps|]. apply ple_off in K'. lia.
    - lost.
    - lost.
    - both Hs.
      + left. eapply past_after; [now apply tailed_keeps|exact X0].
      + lost.
      + lost.
      + apply IH. now apply ls_snoc.
      + apply rs_ok. now apply vtailed_rel, ls_snoc.
    - apply rs_ok. now apply vtailed_rel.
  Qed.

  Lemma tailed1_rel s1 s2 f1 f2 : keeps s1 -> keeps f1 -> prs vs s1 s2 -> prs vs f1 f2 -> forall n,
    prs vs (tailed1 n s1 f1) (tailed1 n s2 f2).
  Proof.
    intros Ks Kf Hs Hf n pm p. unfold tailed1. both Hf.
    - left. pose proof (Ks pm0 pt) as K. destruct (s1 pm0 pt) as [pm9 [q9 v9|q9 e9|w9]]; destruct K as [K K'];
        cbn [fst snd] in *; try (unfold past, gone; cbn [fst snd]; first [right; exact I|apply ple_off in K'; lia]).
      eapply past_after; [now apply tailed_keeps|]. apply ple_off in K'. lia.
    - lost.
    - lost.
    - assert (Hl : ls [a] [b]) by (unfold ls, vs in *; cbn [map]; congruence). both Hs.
      + left. eapply past_after; [now apply tailed_keeps|exact X0].
      + lost.
      + lost.
      + now apply tailed_rel.
      + apply rs_ok. now apply vtailed_rel.
    - apply rs_fail.
  Qed.

  (** A failure of the second element is dropped; it was recorded. *)
  Lemma resume_rel s1 s2 f1 f2 : keeps s1 -> keeps f1 -> records f1 -> prs vs s1 s2 -> prs vs f1 f2 -> forall n,
    prs vs (resume n s1 f1) (resume n s2 f2).
  Proof.
    intros Ks Kf Rf Hs Hf n pm p. unfold resume.
    assert (T : forall pm q pm' r e, tailed1 n s1 f1 pm q = (pm', Failure r e) -> off r <= fo pm').
    { intros pm0 q pm' r e E. apply tailed1_fails in E. now apply Rf in E. }
    both Hs.
    - left. pose proof (tailed1_keeps s1 f1 Ks Kf n pm0 pt) as K. pose proof (T pm0 pt) as T'.
      destruct (tailed1 n s1 f1 pm0 pt) as [pm9 [q9 v9|q9 e9|w9]]; destruct K as [K K']; cbn [fst snd] in *.
      + apply ple_off in K'. destruct v9; unfold past, gone; cbn [fst snd]; first [right; exact I|lia].
      + apply ple_off in K'. specialize (T' _ _ _ eq_refl). unfold past, gone; cbn [fst snd]. lia.
      + right. exact I.
    - lost.
    - lost.
    - pose proof (tailed1_rel s1 s2 f1 f2 Ks Kf Hs Hf n) as Ht. both Ht.
      + destruct v; lost.
      + pose proof (T _ _ _ _ _ E0). lost.
      + lost.
      + destruct a0, b0; try discriminate; try now apply rs_abort.
        injection X0 as A B. apply rs_ok. exact A.
      + apply rs_ok. reflexivity.
    - apply rs_ok. reflexivity.
  Qed.

  Lemma implicit_rel v1 v2 : vs v1 v2 -> is_implicit_separator v1 = is_implicit_separator v2.
  Proof. unfold vs. intros H. rewrite <- (implicit_map er eu v1), <- (implicit_map er eu v2), H. reflexivity. Qed.

  (** The first run looked at a semicolon at [J] without taking it. *)
  Definition promise (q : point) : Prop := off q = J /\
    exists q' v, J < off q' /\ forall err pm, tok toks1 (MK KSemicolon) err pm q = (pm, Success q' v).
  Definition prom {A} (a : pm_t * progress point A perror) : Prop :=
    match snd a with Success q _ => promise q | _ => False end.
  Definition prs' (f f' : gparser val) : Prop := forall pm p, rs vs (f pm p) (f' pm p) \/ prom (f pm p).

  Lemma implicit_loop_rel s1 s2 f1 f2 : keeps s1 -> keeps f1 -> prs vs s1 s2 -> prs' f1 f2 ->
    (forall pm q, promise q -> past (s1 pm q)) \/ prs vs f1 f2 -> forall n,
    forall l1 l2, ls l1 l2 -> forall c b, prs vs (implicit_loop n s1 f1 l1 c b) (implicit_loop n s2 f2 l2 c b).
  Proof.
    intros Ks Kf Hs Hf HP n. induction n as [|n IH]; intros l1 l2 Hl c b pm p; cbn [implicit_loop]; [apply rs_abort|].
    assert (F : rs vs (f1 pm p) (f2 pm p) \/
      exists pm1 q v, f1 pm p = (pm1, Success q v) /\ past (s1 pm1 q)).
    { destruct HP as [HP|HP]; [|left; apply HP]. destruct (Hf pm p) as [F|F]; [now left|right].
      destruct (f1 pm p) as [pm1 [q v|q e|w]]; try contradiction. exists pm1, q, v. split; [reflexivity|]. now apply HP. }
    destruct F as [F|(pm1 & q & v & E & P)].
    2:{ rewrite E. left. unfold past, gone in P. destruct (s1 pm1 q) as [pm9 [q9 v9|q9 e9|w9]]; cbn [fst snd] in P.
        - eapply past_after; [now apply implicit_keeps|]. exact P.
        - destruct (is_implicit_separator v); [eapply past_after; [now apply implicit_keeps|]; exact P|exact P].
        - right. exact I. }
    destruct (f1 pm p) as [pm1 r1] eqn:E1; destruct (f2 pm p) as [pm2 r2].
    destruct F as [X|[? X]];
      [unfold past, gone in X; destruct r1 as [pt v|? ?|?]; cbn [fst snd] in X
      |cbn [fst snd] in *; subst pm2; destruct X as [pt a b0 X|? ?]].
    - left. pose proof (Ks pm1 pt) as K. destruct (s1 pm1 pt) as [pm9 [q9 v9|q9 e9|w9]]; destruct K as [K K'];
        cbn [fst snd] in *; try (right; exact I); apply ple_off in K'.
      + eapply past_after; [now apply implicit_keeps|]. lia.
      + destruct (is_implicit_separator v).
        * eapply past_after; [now apply implicit_keeps|]. lia.
        * unfold past, gone; cbn [fst snd]. lia.
    - lost.
    - lost.
    - rewrite (implicit_rel _ _ X). both Hs.
      + left. eapply past_after; [now apply implicit_keeps|exact X0].
      + destruct (is_implicit_separator b0); [|lost].
        left. eapply past_after; [now apply implicit_keeps|exact X0].
      + lost.
      + apply IH. now apply ls_snoc.
      + destruct (is_implicit_separator b0).
        * apply IH. now apply ls_snoc.
        * apply rs_ok. now apply vtailed_rel, ls_snoc.
    - apply rs_ok. now apply vtailed_rel.
  Qed.

  (** Alternatives of which the last one may look at a semicolon. *)
  Lemma three_rel f1 f2 f3 g1 g2 g3 : keeps f2 -> keeps f3 -> prs vs f1 g1 -> prs vs f2 g2 -> prs' f3 g3 ->
    prs' (alternate pt_lt recov [f1; f2; f3]) (alternate pt_lt recov [g1; g2; g3]).
  Proof.
    intros K2 K3 H1 H2 H3 pm p. cbn [alternate].
    pose proof (H1 pm p) as X. destruct (f1 pm p) as [pm1 r1], (g1 pm p) as [pm1' r1'].
    destruct X as [X|[M X]]; cbn [fst snd] in *; [left; left; apply alternate_from_past; auto|]. subst pm1'.
    destruct X as [q a b X|q e]; [left; now apply rs_ok|]. cbn [alternate_from recov].
    pose proof (H2 pm1 p) as Y. destruct (f2 pm1 p) as [pm2 r2], (g2 pm1 p) as [pm2' r2'].
    destruct Y as [Y|[M Y]]; cbn [fst snd] in *.
    { left; left. apply (alternate_from_past [f3]); auto. pose proof (record_fo pm2 q e) as [C _].
      destruct Y as [Y|Y]; [left; cbn [fst] in Y; lia|right; exact Y]. }
    subst pm2'. destruct Y as [q2 a b Y|q2 e2]; [left; now apply rs_ok|]. cbn [alternate_from recov].
    set (pm3 := record_failure pt_lt pm2 q e).
    destruct (H3 pm3 p) as [Z|Z]; destruct (f3 pm3 p) as [pm4 r4], (g3 pm3 p) as [pm4' r4'].
    - left. destruct Z as [Z|[M Z]]; cbn [fst snd] in *.
      + left. pose proof (record_fo pm4 q2 e2) as [C _]. destruct Z as [Z|Z]; [left; cbn [fst] in *; lia|right; exact Z].
      + subst pm4'. right. split; [reflexivity|exact Z].
    - right. exact Z.
  Qed.

  Lemma with_amb_rel l f1 f2 : prs vs f1 f2 -> prs vs (with_amb l f1) (with_amb l f2).
  Proof.
    intros H pm p. unfold with_amb. pose proof (H (set_amb pm l) p) as X.
    destruct (f1 (set_amb pm l) p) as [pm1 r1], (f2 (set_amb pm l) p) as [pm2 r2].
    destruct X as [X|[M' X]]; cbn [fst snd] in *; [left; exact X|].
    right. subst. split; [reflexivity|exact X].
  Qed.

  Lemma is_kind_rel k t1 t2 : tmap er eu t1 = tmap er eu t2 -> is_kind k t1 = is_kind k t2.
  Proof. destruct t1, t2; try discriminate; cbn [tmap is_kind]; [intros [= -> _]|]; reflexivity. Qed.

  (** Token lists that agree on their first [n] tokens, and then agree or the
      second one ends: the closing token is the same if it is one of them. *)
  Lemma skip_rel o c : forall n l1 l2 d,
    (forall i, i < n -> option_map (tmap er eu) (nth_error l1 i) = option_map (tmap er eu) (nth_error l2 i)) ->
    (option_map (tmap er eu) (nth_error l1 n) = option_map (tmap er eu) (nth_error l2 n) \/
     exists t x, nth_error l1 n = Some t /\ nth_error l2 n = Some (Tk KEndOfFile x)) ->
    n < nested_skip o c d l1 \/ nested_skip o c d l1 = nested_skip o c d l2.
  Proof.
    induction n as [|n IH]; intros l1 l2 d H HN.
    - destruct HN as [H0|(t & x & H1 & H2)].
      + destruct l1 as [|t1 l1], l2 as [|t2 l2]; try discriminate; [right; reflexivity|].
        cbn [nth_error option_map] in H0. assert (Ht : tmap er eu t1 = tmap er eu t2) by congruence.
        cbn [nested_skip]. rewrite !(is_kind_rel _ t1 t2 Ht).
        destruct (is_kind KEndOfFile t2); [right; reflexivity|]. destruct (is_kind o t2); [left; lia|].
        destruct (is_kind c t2); [destruct d; [right; reflexivity|]|]; left; lia.
      + destruct l1 as [|t1 l1], l2 as [|t2 l2]; try discriminate. injection H1 as ->. injection H2 as ->.
        cbn [nested_skip]. change (is_kind KEndOfFile (Tk KEndOfFile x)) with true. cbv iota.
        destruct (is_kind KEndOfFile t); [right; reflexivity|]. destruct (is_kind o t); [left; lia|].
        destruct (is_kind c t); [destruct d; [right; reflexivity|]|]; left; lia.
    - pose proof (H 0 ltac:(lia)) as H0.
      destruct l1 as [|t1 l1], l2 as [|t2 l2]; try discriminate; [right; reflexivity|].
      cbn [nth_error option_map] in H0. assert (Ht : tmap er eu t1 = tmap er eu t2) by congruence. clear H0.
      assert (H' : forall i, i < n -> option_map (tmap er eu) (nth_error l1 i) = option_map (tmap er eu) (nth_error l2 i)).
      { intros i L. exact (H (S i) ltac:(lia)). }
      cbn [nth_error] in HN.
      cbn [nested_skip]. rewrite !(is_kind_rel _ t1 t2 Ht). destruct (is_kind KEndOfFile t2); [right; reflexivity|].
      destruct (is_kind o t2).
      { destruct (IH l1 l2 (S d) H' HN); [left; lia|right; lia]. }
      destruct (is_kind c t2); [destruct d; [right; reflexivity|]|]; destruct (IH l1 l2 d H' HN); (left; lia) || (right; lia).
  Qed.

  Lemma nth_skipn {A} (l : list A) n i : nth_error (skipn n l) i = nth_error l (n + i).
  Proof. revert l. induction n as [|n IH]; intros [|x l]; cbn; auto. now destruct i. Qed.

  Lemma nested_rel o c : prs vs (nested toks1 o c) (nested toks2 o c).
  Proof.
    intros pm p. destruct (le_lt_dec (off p) J) as [LE|GT].
    2:{ left. eapply past_after; [apply nested_keeps|]. now right. }
    unfold nested.
    destruct (skip_rel o c (J - off p) (skipn (off p) toks1) (skipn (off p) toks2) 0) as [L|E].
    { intros i L. rewrite !nth_skipn. apply HT. lia. }
    { rewrite !nth_skipn. replace (off p + (J - off p)) with J by lia.
      destruct HX as [A|(t & x & T1 & S & T2)]; [left; exact A|right; eauto]. }
    - destruct (ex toks1 p (mkPt (off p + nested_skip o c 0 (skipn (off p) toks1)) None)); [|apply rs_abort].
      left. unfold past, gone. cbn [fst snd off]. lia.
    - rewrite E.
      destruct (HE p (mkPt (off p + nested_skip o c 0 (skipn (off p) toks2)) None)) as [a b H|w r0];
        [apply rs_ok|apply rs_abort]. unfold vs. cbn [vmap]. congruence.
  Qed.

  (** ** The shunting yard *)
  Definition opmap (o : opk) : opk :=
    match o with OpPrefix v => OpPrefix (vm v) | OpInfix v => OpInfix (vm v) | OpPostfix v => OpPostfix (vm v) end.
  Definition cmap {A} (h : A -> A) (c : car A) : car A := mkCar (h (c_val c)) (c_spt c) (c_ept c).
  Definition rsim (a b : list (car val)) : Prop := map (cmap vm) a = map (cmap vm) b.
  Definition osim (a b : list (car opk)) : Prop := map (cmap opmap) a = map (cmap opmap) b.
  Definition ysim (a b : yard) : Prop := osim (y_ops a) (y_ops b) /\ rsim (y_res a) (y_res b).

  Lemma car_inv {A} (h : A -> A) (a b : car A) : cmap h a = cmap h b ->
    h (c_val a) = h (c_val b) /\ c_spt a = c_spt b /\ c_ept a = c_ept b.
  Proof. unfold cmap. intros [= A1 A2 A3]. auto. Qed.

  Lemma rsim_cons a b l1 l2 : cmap vm a = cmap vm b -> rsim l1 l2 -> rsim (a :: l1) (b :: l2).
  Proof. unfold rsim. cbn [map]. congruence. Qed.

  Lemma pop_rel r1 r2 loc : rsim r1 r2 ->
    alax (fun a b => cmap vm (fst a) = cmap vm (fst b) /\ rsim (snd a) (snd b)) (pop_expression r1 loc) (pop_expression r2 loc).
  Proof.
    unfold rsim. destruct r1 as [|a r1], r2 as [|b r2]; try discriminate; cbn [pop_expression map]; intros H.
    - constructor.
    - injection H as A B C D. constructor. cbn [fst snd]. split; [unfold cmap; congruence|exact D].
  Qed.

  Lemma exa_rel p q : alax (fun a b => er a = er b) (a_of_b (ex toks1 p q)) (a_of_b (ex toks2 p q)).
  Proof. apply alax_of_b, HE. Qed.

  Definition frel (f g : extent -> val -> val) : Prop :=
    forall x y a b, er x = er y -> vs a b -> vs (f x a) (g y b).
  Definition frel2 (f g : extent -> val -> val -> val) : Prop :=
    forall x y a b c d, er x = er y -> vs a b -> vs c d -> vs (f x a c) (g y b d).

  Lemma prefix_rel r1 r2 s e x1 x2 at1 at2 f1 f2 : rsim r1 r2 -> er x1 = er x2 -> vs at1 at2 -> frel f1 f2 ->
    alax rsim (apply_prefix toks1 r1 s e x1 at1 f1) (apply_prefix toks2 r2 s e x2 at2 f2).
  Proof.
    intros Hr Hx Ha Hf. unfold apply_prefix. eapply alax_bind; [apply pop_rel, Hr|].
    intros [c1 q1] [c2 q2] [A B]. cbn [fst snd] in *. destruct (car_inv _ _ _ A) as (A1 & A2 & A3). rewrite A3.
    destruct (pt_lt (c_ept c2) s); [constructor|]. eapply alax_bind; [apply exa_rel|]. intros i1 i2 Hi.
    constructor. apply rsim_cons; [|exact B]. unfold cmap. cbn [c_val c_spt c_ept vmap map].
    specialize (Hf i1 i2 _ _ Hi A1). unfold vs in *. rewrite Hf, Ha, (HJ _ _ _ _ Hx Hi). reflexivity.
  Qed.

  Lemma maybe_prefix_rel r1 r2 s e x1 x2 at1 at2 f1 f2 : rsim r1 r2 -> er x1 = er x2 -> vs at1 at2 -> frel f1 f2 ->
    alax rsim (apply_maybe_prefix toks1 r1 s e x1 at1 f1) (apply_maybe_prefix toks2 r2 s e x2 at2 f2).
  Proof.
    intros Hr Hx Ha Hf. unfold apply_maybe_prefix.
    destruct r1 as [|c1 r1], r2 as [|c2 r2]; try discriminate Hr.
    - eapply alax_bind; [apply exa_rel|]. intros i1 i2 Hi. constructor. apply rsim_cons; [|reflexivity].
      unfold cmap. cbn [c_val c_spt c_ept vmap map].
      specialize (Hf i1 i2 VNone VNone Hi eq_refl). unfold vs in *. rewrite Hf, Ha, (HJ _ _ _ _ Hx Hi). reflexivity.
    - apply prefix_rel; auto. intros x y a b Hxy Hab. apply Hf; [exact Hxy|]. unfold vs in *. cbn [vmap]. congruence.
  Qed.

  Lemma into_attributed_rel x y a b : er x = er y -> vs a b -> vs (into_attributed x a) (into_attributed y b).
  Proof. unfold vs, into_attributed. intros H H'. cbn [vmap map]. congruence. Qed.

  Lemma infix_rel r1 r2 s e f1 f2 : rsim r1 r2 -> frel2 f1 f2 ->
    alax rsim (apply_infix toks1 r1 s e f1) (apply_infix toks2 r2 s e f2).
  Proof.
    intros Hr Hf. unfold apply_infix. eapply alax_bind; [apply pop_rel, Hr|].
    intros [c1 q1] [c2 q2] [A B]. cbn [fst snd] in *. eapply alax_bind; [apply pop_rel, B|].
    intros [d1 u1] [d2 u2] [A' B']. cbn [fst snd] in *.
    destruct (car_inv _ _ _ A) as (A1 & A2 & A3), (car_inv _ _ _ A') as (A1' & A2' & A3').
    rewrite A2', A3. eapply alax_bind; [apply exa_rel|]. intros i1 i2 Hi. constructor. apply rsim_cons; [|exact B'].
    unfold cmap. cbn [c_val c_spt c_ept]. f_equal. apply into_attributed_rel; [exact Hi|]. apply Hf; assumption.
  Qed.

  Lemma maybe_infix_rel r1 r2 s e f1 f2 : rsim r1 r2 -> frel2 f1 f2 ->
    alax rsim (apply_maybe_infix toks1 r1 s e f1) (apply_maybe_infix toks2 r2 s e f2).
  Proof.
    intros Hr Hf. unfold apply_maybe_infix.
    assert (L : List.length r1 = List.length r2).
    { apply (f_equal (@List.length _)) in Hr. now rewrite !map_length in Hr. }
    rewrite L. destruct (List.length r2 <=? 1).
    - eapply alax_bind; [apply pop_rel, Hr|]. intros [c1 q1] [c2 q2] [A B]. cbn [fst snd] in *.
      destruct (car_inv _ _ _ A) as (A1 & A2 & A3). rewrite A2.
      eapply alax_bind; [apply exa_rel|]. intros i1 i2 Hi. constructor. apply rsim_cons; [|exact B].
      unfold cmap. cbn [c_val c_spt c_ept]. f_equal. apply into_attributed_rel; [exact Hi|].
      apply Hf; [exact Hi|exact A1|reflexivity].
    - apply infix_rel; [exact Hr|]. intros x y a b c d Hxy Hab Hcd. apply Hf; auto.
      unfold vs in *. cbn [vmap]. congruence.
  Qed.

  Lemma postfix_rel r1 r2 s e f1 f2 : rsim r1 r2 -> frel f1 f2 ->
    alax rsim (apply_postfix toks1 r1 s e f1) (apply_postfix toks2 r2 s e f2).
  Proof.
    intros Hr Hf. unfold apply_postfix. eapply alax_bind; [apply pop_rel, Hr|].
    intros [c1 q1] [c2 q2] [A B]. cbn [fst snd] in *.
    destruct (car_inv _ _ _ A) as (A1 & A2 & A3). rewrite A2.
    eapply alax_bind; [apply exa_rel|]. intros i1 i2 Hi. constructor. apply rsim_cons; [|exact B].
    unfold cmap. cbn [c_val c_spt c_ept]. f_equal. apply into_attributed_rel; [exact Hi|].
    apply Hf; [exact Hi|exact A1].
  Qed.

  Ltac node := unfold vs in *; intros; unfold expr_node; cbn [vmap map]; congruence.

  Lemma apply_one_rel r1 r2 o1 o2 s e : rsim r1 r2 -> opmap o1 = opmap o2 ->
    alax rsim (apply_one toks1 r1 o1 s e) (apply_one toks2 r2 o2 s e).
  Proof.
    intros Hr Ho.
    destruct o1 as [v1|v1|v1], o2 as [v2|v2|v2]; try discriminate Ho; injection Ho as Ho;
      destruct v1 as [| | | | | | | | | |n1 fs1|e1 k1 p1], v2 as [| | | | | | | | | |n2 fs2|e2 k2 p2];
      try discriminate Ho; try constructor.
    - cbn [vmap] in Ho. injection Ho as -> Hfs.
      destruct fs1 as [|a1 fs1], fs2 as [|a2 fs2]; try discriminate Hfs; [constructor|].
      cbn [map] in Hfs. injection Hfs as Ha Hfs.
      destruct a1 as [x1| | | | | | | | | | |], a2 as [x2| | | | | | | | | | |]; try discriminate Ha; try constructor.
      cbn [vmap] in Ha. injection Ha as Ha.
      destruct fs1 as [|b1 fs1], fs2 as [|b2 fs2]; try discriminate Hfs; [constructor|].
      cbn [map] in Hfs. injection Hfs as Hb Hfs.
      destruct fs1 as [|c1 fs1], fs2 as [|c2 fs2]; try discriminate Hfs; [constructor|].
      cbn [map] in Hfs. injection Hfs as Hc Hfs.
      destruct c1 as [| | | | | | | | | | |e1 k1 p1], c2 as [| | | | | | | | | | |e2 k2 p2]; try discriminate Hc; try constructor.
      cbn [vmap] in Hc. injection Hc as -> -> Hp.
      destruct fs1 as [|d1 fs1], fs2 as [|d2 fs2]; try discriminate Hfs; [constructor|].
      cbn [map] in Hfs. injection Hfs as Hd Hfs.
      destruct fs1 as [|g1 fs1], fs2 as [|g2 fs2]; try discriminate Hfs; [|constructor].
      cbn [apply_one].
      repeat match goal with |- context [String.eqb k2 ?s] => destruct (String.eqb k2 s) end;
        first [apply prefix_rel|apply maybe_prefix_rel]; auto; intros ? ? ? ? ? ?; node.
    - cbn [vmap] in Ho. injection Ho as -> -> Hp. cbn [apply_one].
      repeat match goal with |- context [String.eqb k2 ?s] => destruct (String.eqb k2 s) end;
        first [apply infix_rel|apply maybe_infix_rel]; auto; intros ? ? ? ? ? ? ? ? ?; node.
    - cbn [vmap] in Ho. injection Ho as -> -> Hp. cbn [apply_one].
      repeat match goal with |- context [String.eqb k2 ?s] => destruct (String.eqb k2 s) end;
        apply postfix_rel; auto; intros ? ? ? ? ? ?; node.
  Qed.

  Lemma should_pop_rel o1 o2 t1 t2 : opmap o1 = opmap o2 -> opmap t1 = opmap t2 -> should_pop o1 t1 = should_pop o2 t2.
  Proof. destruct o1, o2; try discriminate; destruct t1, t2; try discriminate; reflexivity. Qed.

  Lemma precedence_rel o1 o2 : opmap o1 = opmap o2 -> forall ops1 ops2 r1 r2, osim ops1 ops2 -> rsim r1 r2 ->
    alax ysim (apply_precedence toks1 ops1 r1 o1) (apply_precedence toks2 ops2 r2 o2).
  Proof.
    intros Ho. induction ops1 as [|t1 ops1 IH]; intros [|t2 ops2] r1 r2 H Hr; try discriminate H; cbn [apply_precedence].
    - constructor. split; [reflexivity|exact Hr].
    - unfold osim in H. cbn [map] in H. injection H as A1 A2 A3 H. rewrite (should_pop_rel _ _ _ _ Ho A1), A2, A3.
      destruct (should_pop o2 (c_val t2)).
      + eapply alax_bind; [apply apply_one_rel; eassumption|]. intros q1 q2 Hq. now apply IH.
      + constructor. split; [|exact Hr]. unfold osim. cbn [y_ops map]. unfold cmap at 1 3. rewrite A1, A2, A3, H. reflexivity.
  Qed.

  Lemma all_rel : forall ops1 ops2 r1 r2, osim ops1 ops2 -> rsim r1 r2 ->
    alax rsim (apply_all toks1 ops1 r1) (apply_all toks2 ops2 r2).
  Proof.
    induction ops1 as [|t1 ops1 IH]; intros [|t2 ops2] r1 r2 H Hr; try discriminate H; cbn [apply_all].
    - constructor. exact Hr.
    - unfold osim in H. cbn [map] in H. injection H as A1 A2 A3 H. rewrite A2, A3.
      eapply alax_bind; [apply apply_one_rel; eassumption|]. intros q1 q2 Hq. now apply IH.
  Qed.

  Lemma add_op_rel y1 y2 o1 o2 s e : ysim y1 y2 -> opmap o1 = opmap o2 ->
    alax ysim (add_op toks1 y1 o1 s e) (add_op toks2 y2 o2 s e).
  Proof.
    intros [A B] Ho. unfold add_op. eapply alax_bind; [apply precedence_rel; eassumption|].
    intros z1 z2 [C D]. constructor. split; [|exact D]. unfold osim in *. cbn [y_ops map].
    unfold cmap at 1 3. cbn [c_val c_spt c_ept]. congruence.
  Qed.

  Lemma add_expression_rel y1 y2 v1 v2 s e : ysim y1 y2 -> vs v1 v2 ->
    ysim (add_expression y1 v1 s e) (add_expression y2 v2 s e).
  Proof.
    intros [A B] H. split; [exact A|]. apply rsim_cons; [|exact B]. unfold cmap. cbn [c_val c_spt c_ept]. congruence.
  Qed.

  Lemma adapt_rel stmt y1 y2 s : ysim y1 y2 -> adapt_state stmt y1 s = adapt_state stmt y2 s.
  Proof.
    intros [A B]. destruct s; try reflexivity. cbn [adapt_state]. destruct stmt; [|reflexivity].
    destruct (y_ops y1), (y_ops y2); try discriminate A; try reflexivity.
    unfold rsim in B. apply (f_equal (@rev _)) in B. rewrite <- !map_rev in B.
    destruct (rev (y_res y1)) as [|c1 l1], (rev (y_res y2)) as [|c2 l2]; try discriminate B; [reflexivity|].
    cbn [map] in B. injection B as B _.
    rewrite <- (may_terminate_map er eu (c_val c1)), <- (may_terminate_map er eu (c_val c2)), B. reflexivity.
  Qed.

  Lemma finish_rel pm y1 y2 p : ysim y1 y2 ->
    rs vs (finish_progress pm (finish_yard toks1 y1 p)) (finish_progress pm (finish_yard toks2 y2 p)).
  Proof.
    intros [A B]. unfold finish_yard. destruct (all_rel _ _ _ _ A B) as [r1 r2 H|q e|w r0]; cbn [abind finish_progress];
      [|apply rs_fail|apply rs_abort].
    unfold rsim in H. destruct r1 as [|c1 [|d1 r1]], r2 as [|c2 [|d2 r2]]; try discriminate H; cbn [finish_progress].
    - apply rs_fail.
    - cbn [map] in H. injection H as H1 H2 H3. rewrite H3. now apply rs_ok.
    - apply rs_abort.
  Qed.

  Lemma finish_past pm r : J < fo pm -> past (finish_progress pm r).
  Proof. intros L. destruct r; left; exact L. Qed.

  Lemma ple_zero p : ple pt_zero p.
  Proof. unfold ple, pt_zero. cbn [off sub sub_rank]. lia. Qed.

  Lemma yin_zero y : yin pt_zero y.
  Proof. split; rewrite Forall_forall; intros c _; split; apply ple_zero. Qed.

  Lemma with_amb_records l f : records f -> records (with_amb l f).
  Proof.
    intros H pm p pm' q e E. unfold with_amb in E. destruct (f (set_amb pm l) p) as [pm1 r] eqn:F.
    injection E as <- ->. now apply H in F.
  Qed.

  (** Once the yard is past the token, so is its outcome. *)
  Lemma shunt_past f1 f2 f3 stmt : keeps f1 -> keeps f2 -> keeps f3 -> records f1 -> records f2 -> records f3 ->
    forall n y s pm q, yshape y s q -> J < fo pm \/ J < off q -> past (shunt_loop toks1 n f1 f2 f3 stmt y s pm q).
  Proof.
    intros K1 K2 K3 R1 R2 R3 n. induction n as [|n IH]; intros y s pm q Y G; [right; exact I|].
    destruct G as [G|G].
    { destruct (shunt_keeps toks1 f1 f2 f3 stmt K1 K2 K3 (S n) pt_zero y s pm q (yin_zero y) (ple_zero q)) as [A _].
      left. eapply Nat.lt_le_trans; [exact G|exact A]. }
    rewrite shunt_loop_S. cbv zeta.
    assert (F : forall f : gparser val, keeps f -> records f -> forall pm1 p e, f pm q = (pm1, Failure p e) ->
      past (finish_progress pm1 (finish_yard toks1 y p))).
    { intros f K R pm1 p e E. apply finish_past. pose proof (K pm q) as [_ K']. rewrite E in K'. cbn [snd] in K'.
      apply ple_off in K'. apply R in E. lia. }
    assert (S1 : forall f : gparser val, keeps f -> forall pm1 p v, f pm q = (pm1, Success p v) -> ple q p).
    { intros f K pm1 p v E. pose proof (K pm q) as [_ K']. rewrite E in K'. exact K'. }
    assert (PA : (s = SPrefix \/ exists b, s = SInfix b) -> forall f : gparser val, keeps f -> records f ->
      past (match f pm q with
        | (pm1, Success p v) =>
            on_prefix_or_atom v
              (fun op => match add_op toks1 y (OpPrefix op) q p with
                 | AOk y' => shunt_loop toks1 n f1 f2 f3 stmt y' (adapt_state stmt y' SPrefix) pm1 p
                 | AErr q e => (pm1, Failure q e)
                 | AAbort w => (pm1, Abort w)
                 end)
              (fun v => shunt_loop toks1 n f1 f2 f3 stmt (add_expression y v q p)
                 (adapt_state stmt (add_expression y v q p) SAtom) pm1 p) (pm1, Abort IllTyped)
        | (pm1, Failure p _) => finish_progress pm1 (finish_yard toks1 y p)
        | (pm1, Abort w) => (pm1, Abort w)
        end)).
    { intros HS' f K R. destruct (f pm q) as [pm1 [p v|p e|w]] eqn:E; [|now apply (F f K R _ _ _ E)|right; exact I].
      pose proof (S1 f K _ _ _ E) as L. pose proof (ple_off _ _ L) as L'.
      destruct v as [| | | | | | | | | | |en k v]; cbn [on_prefix_or_atom]; try (right; exact I).
      destruct (String.eqb k "Prefix").
      { destruct (shape_prefix toks1 y s q v p HS' Y L) as (y' & -> & Y'). apply IH; [now apply adapt_shape|right; lia]. }
      destruct (String.eqb k "Atom"); [|right; exact I].
      apply IH; [|right; lia]. apply adapt_shape. now apply shape_atom with (s := s). }
    assert (AO : (s = SAtom \/ s = SAtomLimited \/ s = SPostfix) -> forall pm1 v p nx o, ple q p ->
      o = OpInfix v /\ (exists b, nx = SInfix b) \/ o = OpPostfix v /\ nx = SPostfix ->
      past (match add_op toks1 y o q p with
            | AOk y' => shunt_loop toks1 n f1 f2 f3 stmt y' (adapt_state stmt y' nx) pm1 p
            | AErr q e => (pm1, Failure q e)
            | AAbort w => (pm1, Abort w)
            end)).
    { intros HS' pm1 v p nx o L Ho. pose proof (ple_off _ _ L) as L'.
      assert (X : exists v, o = OpInfix v \/ o = OpPostfix v) by (exists v; tauto).
      destruct (shape_after toks1 y s q o p HS' Y X) as [(y' & -> & Y')|[w ->]]; [|right; exact I].
      apply IH; [|right; lia]. apply adapt_shape. destruct Ho as [[-> [b ->]]|[-> ->]]; auto. }
    assert (IP : (s = SAtom \/ s = SPostfix) ->
      past (match f2 pm q with
        | (pm1, Success p v) =>
            on_infix_or_postfix v
              (fun op => match add_op toks1 y (OpInfix op) q p with
                 | AOk y' => shunt_loop toks1 n f1 f2 f3 stmt y' (adapt_state stmt y' (SInfix (is_range op))) pm1 p
                 | AErr q e => (pm1, Failure q e)
                 | AAbort w => (pm1, Abort w)
                 end)
              (fun op => match add_op toks1 y (OpPostfix op) q p with
                 | AOk y' => shunt_loop toks1 n f1 f2 f3 stmt y' (adapt_state stmt y' SPostfix) pm1 p
                 | AErr q e => (pm1, Failure q e)
                 | AAbort w => (pm1, Abort w)
                 end) (pm1, Abort IllTyped)
        | (pm1, Failure p _) => finish_progress pm1 (finish_yard toks1 y p)
        | (pm1, Abort w) => (pm1, Abort w)
        end)).
    { intros HS'. assert (HS2 : s = SAtom \/ s = SAtomLimited \/ s = SPostfix) by tauto.
      destruct (f2 pm q) as [pm1 [p v|p e|w]] eqn:E; [|now apply (F f2 K2 R2 _ _ _ E)|right; exact I].
      pose proof (S1 f2 K2 _ _ _ E) as L.
      destruct v as [| | | | | | | | | | |en k v]; cbn [on_infix_or_postfix]; try (right; exact I).
      destruct (String.eqb k "Infix"); [apply (AO HS2 pm1 v); eauto|].
      destruct (String.eqb k "Postfix"); [apply (AO HS2 pm1 v); eauto|right; exact I]. }
    destruct s as [|wr| | |].
    - apply PA; auto.
    - destruct (is_ambiguous (m_state pm) && wr); apply PA; eauto using with_amb_keeps, with_amb_records.
    - apply IP. auto.
    - apply IP. auto.
    - destruct (f3 pm q) as [pm1 [p v|p e|w]] eqn:E; [|now apply (F f3 K3 R3 _ _ _ E)|right; exact I].
      apply (AO ltac:(auto) pm1 v); eauto.
  Qed.

  Lemma shunt_rel f1 g1 f2 g2 f3 g3 stmt :
    keeps f1 -> keeps f2 -> keeps f3 -> records f1 -> records f2 -> records f3 ->
    prs vs f1 g1 -> prs vs f2 g2 -> prs vs f3 g3 -> forall n y1 y2, ysim y1 y2 -> forall s pm p, yshape y1 s p ->
    rs vs (shunt_loop toks1 n f1 f2 f3 stmt y1 s pm p) (shunt_loop toks2 n g1 g2 g3 stmt y2 s pm p).
  Proof.
    intros K1 K2 K3 R1 R2 R3 H1 H2 H3 n. induction n as [|n IH]; intros y1 y2 Hy s pm p Y; [apply rs_abort|].
    rewrite !shunt_loop_S. cbv zeta.
    assert (F : forall f : gparser val, keeps f -> records f -> forall pm1 q e, f pm p = (pm1, Failure q e) ->
      J < fo pm1 \/ J < off q -> past (finish_progress pm1 (finish_yard toks1 y1 q))).
    { intros f K R pm1 q e E G. apply finish_past. apply R in E. lia. }
    assert (LE : forall f : gparser val, keeps f -> forall pm1 q v, f pm p = (pm1, Success q v) -> ple p q).
    { intros f K pm1 q v E. pose proof (K pm p) as [_ K']. rewrite E in K'. exact K'. }
    assert (PAST : forall y s pm1 q, yshape y s q -> J < fo pm1 \/ J < off q ->
      past (shunt_loop toks1 n f1 f2 f3 stmt y (adapt_state stmt y s) pm1 q)).
    { intros y s0 pm1 q Y' G. apply shunt_past; auto. now apply adapt_shape. }
    assert (PRE : (s = SPrefix \/ exists b, s = SInfix b) -> forall f g : gparser val, keeps f -> records f -> prs vs f g ->
      rs vs
       (match f pm p with
        | (pm1, Success q v) =>
            on_prefix_or_atom v
              (fun op => match add_op toks1 y1 (OpPrefix op) p q with
                 | AOk y' => shunt_loop toks1 n f1 f2 f3 stmt y' (adapt_state stmt y' SPrefix) pm1 q
                 | AErr q e => (pm1, Failure q e)
                 | AAbort w => (pm1, Abort w)
                 end)
              (fun v => shunt_loop toks1 n f1 f2 f3 stmt (add_expression y1 v p q)
                 (adapt_state stmt (add_expression y1 v p q) SAtom) pm1 q) (pm1, Abort IllTyped)
        | (pm1, Failure q _) => finish_progress pm1 (finish_yard toks1 y1 q)
        | (pm1, Abort w) => (pm1, Abort w)
        end)
       (match g pm p with
        | (pm1, Success q v) =>
            on_prefix_or_atom v
              (fun op => match add_op toks2 y2 (OpPrefix op) p q with
                 | AOk y' => shunt_loop toks2 n g1 g2 g3 stmt y' (adapt_state stmt y' SPrefix) pm1 q
                 | AErr q e => (pm1, Failure q e)
                 | AAbort w => (pm1, Abort w)
                 end)
              (fun v => shunt_loop toks2 n g1 g2 g3 stmt (add_expression y2 v p q)
                 (adapt_state stmt (add_expression y2 v p q) SAtom) pm1 q) (pm1, Abort IllTyped)
        | (pm1, Failure q _) => finish_progress pm1 (finish_yard toks2 y2 q)
        | (pm1, Abort w) => (pm1, Abort w)
        end)).
    { intros HS' f g K R H. both H.
      - left. pose proof (LE f K _ _ _ E) as L.
        destruct v as [| | | | | | | | | | |en k v]; cbn [on_prefix_or_atom]; try (right; exact I).
        destruct (String.eqb k "Prefix").
        { destruct (shape_prefix toks1 y1 s p v pt HS' Y L) as (y' & -> & Y'). now apply PAST. }
        destruct (String.eqb k "Atom"); [|right; exact I]. apply PAST; [|exact X].
        now apply shape_atom with (s := s).
      - left. now apply (F f K R _ _ _ E).
      - lost.
      - pose proof (LE f K _ _ _ E) as L. unfold vs in X.
        destruct a as [| | | | | | | | | | |e1 k1 x1], b as [| | | | | | | | | | |e2 k2 x2]; try discriminate X;
          cbn [on_prefix_or_atom]; try now apply rs_abort.
        cbn [vmap] in X. injection X as -> -> X.
        destruct (String.eqb k2 "Prefix").
        { destruct (shape_prefix toks1 y1 s p x1 p0 HS' Y L) as (y' & A & Y').
          assert (Ho : opmap (OpPrefix x1) = opmap (OpPrefix x2)) by (cbn [opmap]; congruence).
          pose proof (add_op_rel y1 y2 _ _ p p0 Hy Ho) as Z. rewrite A in Z |- *.
          inversion Z as [z1 z2 Hz|? ?|? ?]; subst. rewrite (adapt_rel stmt y' z2 _ Hz). apply IH; [exact Hz|].
          rewrite <- (adapt_rel stmt y' z2 _ Hz). now apply adapt_shape. }
        destruct (String.eqb k2 "Atom"); [|apply rs_abort].
        pose proof (add_expression_rel y1 y2 x1 x2 p p0 Hy X) as Hz.
        rewrite <- (adapt_rel stmt _ _ SAtom Hz). apply IH; [exact Hz|]. apply adapt_shape.
        now apply shape_atom with (s := s).
      - now apply finish_rel. }
    assert (ADD : (s = SAtom \/ s = SAtomLimited \/ s = SPostfix) -> forall pm1 v1 v2 q nx o1 o2, ple p q -> vs v1 v2 ->
      o1 = OpInfix v1 /\ o2 = OpInfix v2 /\ (exists b, nx = SInfix b) \/ o1 = OpPostfix v1 /\ o2 = OpPostfix v2 /\ nx = SPostfix ->
      rs vs (match add_op toks1 y1 o1 p q with
             | AOk y' => shunt_loop toks1 n f1 f2 f3 stmt y' (adapt_state stmt y' nx) pm1 q
             | AErr q e => (pm1, Failure q e)
             | AAbort w => (pm1, Abort w)
             end)
            (match add_op toks2 y2 o2 p q with
             | AOk y' => shunt_loop toks2 n g1 g2 g3 stmt y' (adapt_state stmt y' nx) pm1 q
             | AErr q e => (pm1, Failure q e)
             | AAbort w => (pm1, Abort w)
             end)).
    { intros HS' pm1 v1 v2 q nx o1 o2 L V Ho.
      assert (X1 : exists v, o1 = OpInfix v \/ o1 = OpPostfix v) by (exists v1; tauto).
      assert (EO : opmap o1 = opmap o2).
      { unfold vs in V. destruct Ho as [(-> & -> & _)|(-> & -> & _)]; cbn [opmap]; congruence. }
      pose proof (add_op_rel y1 y2 _ _ p q Hy EO) as Z.
      destruct (shape_after toks1 y1 s p o1 q HS' Y X1) as [(y' & A & Y')|[w ->]]; [|apply rs_abort].
      rewrite A in Z |- *. inversion Z as [z1 z2 Hz|? ?|? ?]; subst.
      rewrite <- (adapt_rel stmt y' z2 _ Hz). apply IH; [exact Hz|]. apply adapt_shape.
      destruct Ho as [(-> & _ & [b ->])|(-> & _ & ->)]; auto. }
    assert (ADDP : (s = SAtom \/ s = SAtomLimited \/ s = SPostfix) -> forall pm1 v q nx o, ple p q ->
      J < fo pm1 \/ J < off q ->
      o = OpInfix v /\ (exists b, nx = SInfix b) \/ o = OpPostfix v /\ nx = SPostfix ->
      past (match add_op toks1 y1 o p q with
             | AOk y' => shunt_loop toks1 n f1 f2 f3 stmt y' (adapt_state stmt y' nx) pm1 q
             | AErr q e => (pm1, Failure q e)
             | AAbort w => (pm1, Abort w)
             end)).
    { intros HS' pm1 v q nx o L G Ho.
      assert (X1 : exists v, o = OpInfix v \/ o = OpPostfix v) by (exists v; tauto).
      destruct (shape_after toks1 y1 s p o q HS' Y X1) as [(y' & -> & Y')|[w ->]]; [|right; exact I].
      apply PAST; [|exact G]. destruct Ho as [[-> [b ->]]|[-> ->]]; auto. }
    assert (IP : (s = SAtom \/ s = SPostfix) ->
      rs vs
       (match f2 pm p with
        | (pm1, Success q v) =>
            on_infix_or_postfix v
              (fun op => match add_op toks1 y1 (OpInfix op) p q with
                 | AOk y' => shunt_loop toks1 n f1 f2 f3 stmt y' (adapt_state stmt y' (SInfix (is_range op))) pm1 q
                 | AErr q e => (pm1, Failure q e)
                 | AAbort w => (pm1, Abort w)
                 end)
              (fun op => match add_op toks1 y1 (OpPostfix op) p q with
                 | AOk y' => shunt_loop toks1 n f1 f2 f3 stmt y' (adapt_state stmt y' SPostfix) pm1 q
                 | AErr q e => (pm1, Failure q e)
                 | AAbort w => (pm1, Abort w)
                 end) (pm1, Abort IllTyped)
        | (pm1, Failure q _) => finish_progress pm1 (finish_yard toks1 y1 q)
        | (pm1, Abort w) => (pm1, Abort w)
        end)
       (match g2 pm p with
        | (pm1, Success q v) =>
            on_infix_or_postfix v
              (fun op => match add_op toks2 y2 (OpInfix op) p q with
                 | AOk y' => shunt_loop toks2 n g1 g2 g3 stmt y' (adapt_state stmt y' (SInfix (is_range op))) pm1 q
                 | AErr q e => (pm1, Failure q e)
                 | AAbort w => (pm1, Abort w)
                 end)
              (fun op => match add_op toks2 y2 (OpPostfix op) p q with
                 | AOk y' => shunt_loop toks2 n g1 g2 g3 stmt y' (adapt_state stmt y' SPostfix) pm1 q
                 | AErr q e => (pm1, Failure q e)
                 | AAbort w => (pm1, Abort w)
                 end) (pm1, Abort IllTyped)
        | (pm1, Failure q _) => finish_progress pm1 (finish_yard toks2 y2 q)
        | (pm1, Abort w) => (pm1, Abort w)
        end)).
    { intros HS'. assert (HS2 : s = SAtom \/ s = SAtomLimited \/ s = SPostfix) by tauto.
      both H2.
      - left. pose proof (LE f2 K2 _ _ _ E) as L.
        destruct v as [| | | | | | | | | | |en k v]; cbn [on_infix_or_postfix]; try (right; exact I).
        destruct (String.eqb k "Infix"); [apply (ADDP HS2 pm0 v); eauto|].
        destruct (String.eqb k "Postfix"); [apply (ADDP HS2 pm0 v); eauto|right; exact I].
      - left. now apply (F f2 K2 R2 _ _ _ E).
      - lost.
      - pose proof (LE f2 K2 _ _ _ E) as L. unfold vs in X.
        destruct a as [| | | | | | | | | | |e1 k1 x1], b as [| | | | | | | | | | |e2 k2 x2]; try discriminate X;
          cbn [on_infix_or_postfix]; try now apply rs_abort.
        cbn [vmap] in X. injection X as -> -> X.
        destruct (String.eqb k2 "Infix").
        { rewrite <- (is_range_map er eu x1), X, is_range_map. apply (ADD HS2 pm0 x1 x2); eauto 6. }
        destruct (String.eqb k2 "Postfix"); [|apply rs_abort]. apply (ADD HS2 pm0 x1 x2); eauto 6.
      - now apply finish_rel. }
    destruct s as [|wr| | |].
    - apply PRE; auto.
    - destruct (is_ambiguous (m_state pm) && wr); apply PRE; eauto using with_amb_keeps, with_amb_records, with_amb_rel.
    - apply IP. auto.
    - apply IP. auto.
    - assert (HS2 : SAtomLimited = SAtom \/ SAtomLimited = SAtomLimited \/ SAtomLimited = SPostfix) by auto. both H3.
      + left. apply (ADDP HS2 pm0 v); eauto.
      + left. now apply (F f3 K3 R3 _ _ _ E).
      + lost.
      + apply (ADD HS2 pm0 a b); eauto 6.
      + now apply finish_rel.
  Qed.

  (** Statements: the empty one looks at a semicolon. *)
  Lemma empty_rel n e1 e2 : prs' 
    (run table toks1 n (GSeq [(PVar "x", GNT N_statement_empty)] (BVariant "Statement" "Empty" (BVar "x"))) e1)
    (run table toks2 n (GSeq [(PVar "x", GNT N_statement_empty)] (BVariant "Statement" "Empty" (BVar "x"))) e2).
  Proof.
    intros pm p. destruct (le_lt_dec (off p) J) as [LE|GT].
    2:{ left. left. eapply past_after; [apply run_keeps|]. now right. }
    destruct n as [|[|[|[|n]]]]; try (left; apply rs_abort).
    assert (U : forall toks e, run table toks (S (S (S (S n))))
        (GSeq [(PVar "x", GNT N_statement_empty)] (BVariant "Statement" "Empty" (BVar "x"))) e pm p =
      match run table toks n t_semicolon [("spt", VPoint p)] pm p with
      | (pm1, Success q v) =>
          match ex toks p p with
          | BOk r => (pm1, Success p (VVar "Statement" "Empty" (VExt r)))
          | BAbort w => (pm1, Abort w)
          end
      | (pm1, Failure _ e) => (pm1, Failure p e)
      | (pm1, Abort w) => (pm1, Abort w)
      end).
    { intros toks e. cbn [run table run_steps bind_pat]. unfold map_p, peek.
      destruct (run table toks n t_semicolon [("spt", VPoint p)] pm p) as [pm1 [q v|q er0|w]]; try reflexivity.
      cbn [bind_pat beval assoc String.eqb Ascii.eqb Bool.eqb as_point bbind].
      destruct (ex toks p p); reflexivity. }
    rewrite !U. clear U. destruct n as [|n]; [left; apply rs_abort|]. unfold t_semicolon. cbn [run].
    destruct (tok_here (MK KSemicolon) ExpectedSemicolon pm p ltac:(discriminate) LE) as [[w E]|[(q & v & E & L & Q)|[E X]]].
    - left. destruct (tok toks1 (MK KSemicolon) ExpectedSemicolon pm p) as [pm1 r]. cbn [snd] in E. subst r. apply rs_abort.
    - rewrite E. destruct (ex toks1 p p); [|left; apply rs_abort]. right. split; [exact Q|]. exists q, v. auto.
    - left. destruct (tok toks1 (MK KSemicolon) ExpectedSemicolon pm p) as [pm1 r1],
        (tok toks2 (MK KSemicolon) ExpectedSemicolon pm p) as [pm2 r2]. cbn [fst snd] in *. subst pm2.
      destruct X as [q a b X|q e]; [|apply rs_fail].
      destruct (HE p p) as [a' b' H|w r0]; [|apply rs_abort]. apply rs_ok. unfold vs. cbn [vmap]. congruence.
  Qed.

  Lemma statement_rel n : (forall m x, m < n -> plain x = true -> forall e1 e2, es e1 e2 ->
      prs vs (run table toks1 m x e1) (run table toks2 m x e2)) ->
    forall e1 e2, prs' (run table toks1 n (GNT N_statement) e1) (run table toks2 n (GNT N_statement) e2).
  Proof.
    intros IH e1 e2. destruct n as [|[|n]]; try (intros pm p; left; apply rs_abort).
    intros pm p. cbn [run table map].
    apply three_rel; try apply run_keeps; try (apply IH; [lia|reflexivity|reflexivity]).
    apply empty_rel.
  Qed.

  Theorem run_rel n : forall x e1 e2, plain x = true -> es e1 e2 ->
    prs vs (run table toks1 n x e1) (run table toks2 n x e2).
  Proof.
    induction n as [n IHn] using lt_wf_ind. intros x e1 e2 D He pm p. destruct n as [|n]; [destruct x; apply rs_abort|].
    pose proof (IHn n (Nat.lt_succ_diag_r n)) as IH.
    assert (KP : forall x e, keeps (run table toks1 n x e)) by (intros; apply run_keeps).
    destruct x as [mt err|nn| |steps b|gs|y|y|app sep f|sep f|sep f|sep f|o c|y|y|y err|y err|l y|err y|a b|stmt];
      cbn [run]; cbn [plain] in D.
    - apply tok_rel. now intros ->.
    - apply IH; [apply (table_plain nn D)|reflexivity].
    - apply rs_ok. reflexivity.
    - apply steps_rel; auto. rewrite Forall_forall. rewrite forallb_forall in D. intros st S e1' e2' He'. apply IH; auto.
    - apply alternate_rel.
      + rewrite Forall_map, Forall_forall. intros y _. apply KP.
      + rewrite forallb_forall in D. induction gs as [|y gs IHg]; cbn [map]; constructor.
        * apply IH; [apply D; now left|exact He].
        * apply IHg. intros z Z. apply D. now right.
    - apply map_rel with (R := os); [apply optional_rel; auto|].
      unfold os, vs. intros [a|] [b|] H; try discriminate; [|reflexivity]. cbn in *. congruence.
    - apply map_rel with (R := ls); [apply many_rel; auto|].
      unfold ls, vs. intros a b H. cbn [vmap]. congruence.
    - apply andb_prop in D as [D1 D2].
      destruct (beval_rel p e1 e2 He app) as [v1 v2 H|w r0]; [|now apply rs_abort].
      destruct v1, v2; try discriminate H; try now apply rs_abort.
      apply vs_list in H. apply tailed_rel; auto.
    - apply andb_prop in D as [D1 D2]. apply tailed1_rel; auto.
    - apply andb_prop in D as [D D2]. apply andb_prop in D as [D0 D1]. apply resume_rel; auto.
      now apply run_verdicts.
    - assert (G : plain sep && plain f = true -> rs vs
        (implicit_loop n (run table toks1 n sep e1) (run table toks1 n f e1) [] 0 false pm p)
        (implicit_loop n (run table toks2 n sep e2) (run table toks2 n f e2) [] 0 false pm p)).
      { intros G. apply andb_prop in G as [D1 D2]. apply implicit_loop_rel; auto; try reflexivity.
        intros pm0 p0. left. now apply IH. }
      destruct sep as [m err| | | | | | | | | | | | | | | | | | |]; try (now apply G).
      destruct m as [k|]; [|now apply G].
      destruct k; try (now apply G). destruct err; try (now apply G).
      destruct f as [|nn| | | | | | | | | | | | | | | | | |]; try (now apply G). destruct nn; try (now apply G). clear G D.
      apply implicit_loop_rel; [apply KP|apply KP| | | |reflexivity].
      + apply IH; [reflexivity|exact He].
      + apply statement_rel. intros m x L Px f1 f2 Hf. apply IHn; auto.
      + left. intros pm0 q (_ & q' & v & L & T). destruct n; [right; exact I|]. cbn [run]. rewrite T. right. exact L.
    - apply nested_rel.
    - pose proof (IH y e1 e2 D He) as H. both H; try lost; [destruct (ex toks1 p pt); lost| |apply rs_fail].
      destruct (HE p p0) as [x1 x2 Hx|w r0]; [|now apply rs_abort]. apply rs_ok.
      unfold vs. cbn [vmap]. congruence.
    - discriminate.
    - pose proof (IH y e1 e2 D He) as H. both H; try lost; [now apply rs_ok|apply rs_fail].
    - destruct y as [mt er0| | | | | | | | | | | | | | | | | | |]; try discriminate D. destruct mt; [discriminate D|].
      destruct er0; try discriminate D. destruct err; try discriminate D. clear D.
      destruct n; [apply rs_abort|]. cbn [run]. destruct (le_lt_dec (off p) J) as [LE|GT].
      2:{ left. pose proof (tok_keeps toks1 MNumber ExpectedNumber pm p) as [_ K].
          destruct (tok toks1 MNumber ExpectedNumber pm p) as [pm1 [q v|q e|w]]; cbn [snd] in K; try apply ple_off in K;
            [|right; cbn [snd]; lia|right; exact I].
          destruct v; try (right; exact I). destruct (into_simple n0); right; cbn [snd]; lia. }
      assert (D : off p < J \/ agree_at J \/ off p = J /\ cut) by (destruct HX; [auto|destruct (Nat.eq_dec (off p) J); [auto|left; lia]]).
      assert (AG : agree_at (off p) \/ off p = J /\ cut).
      { destruct D as [D|[D|D]]; [left; now apply HT| |now right].
        destruct (Nat.eq_dec (off p) J) as [->|NE]; [now left|left; apply HT; lia]. }
      destruct AG as [AG|[D' (t & x & T1 & S & T2)]].
      2:{ unfold tok. rewrite D', T1, T2. destruct (sub p) as [k|]; [rewrite S; apply rs_abort|]. cbn [sub_rank].
          rewrite S. cbn [split]. destruct t as [k0 e0|n0]; cbn [convert].
          - apply rs_fail.
          - destruct (into_simple n0); [left; right; cbn [snd off]; lia|apply rs_fail]. }
      destruct (tok_agree MNumber ExpectedNumber pm p AG) as [[w E]|[E X]].
      + destruct (tok toks1 MNumber ExpectedNumber pm p) as [pm1 r]. cbn [snd] in E. subst r. apply rs_abort.
      + destruct (tok toks1 MNumber ExpectedNumber pm p) as [pm1 r1], (tok toks2 MNumber ExpectedNumber pm p) as [pm2 r2]. cbn [fst snd] in *. subst pm2.
        destruct X as [q a b X|q e]; [|apply rs_fail].
        destruct a, b; try discriminate X; try now apply rs_abort.
        unfold vs in X. cbn [vmap] in X. unfold nmap in X. injection X as Q1 Q2 Q3 Q4 Q5 Q6 Q7.
        apply HU in Q7. unfold into_simple. rewrite Q1.
        destruct (n_radix n1); try now apply rs_fail.
        destruct (n_fractional n0), (n_fractional n1); try discriminate Q4; try now apply rs_fail.
        destruct (n_exponent n0), (n_exponent n1); try discriminate Q5; try now apply rs_fail.
        destruct (n_type_suffix n0), (n_type_suffix n1); try discriminate Q6; try now apply rs_fail.
        destruct (n_underscores n0), (n_underscores n1); try now apply rs_fail.
        * apply rs_ok. unfold vs. cbn [vmap]. congruence.
        * discriminate (proj1 Q7 eq_refl).
        * discriminate (proj2 Q7 eq_refl).
    - apply with_amb_rel; auto.
    - destruct (is_maximum (m_state pm)); [apply rs_fail|now apply IH].
    - apply andb_prop in D as [D1 D2]. destruct (is_ambiguous (m_state pm)); now apply IH.
    - destruct yard_records as (Y1 & Y2 & Y3).
      apply shunt_rel; auto; try (apply IH; reflexivity); try (now apply run_verdicts).
      + split; reflexivity.
      + constructor.
  Qed.
End Ahead.
