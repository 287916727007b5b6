(** Property C11: where block comments end.  [rust_block] (CommentSpec.v) is how Rust
    reads them; the tokenizer does not nest (PropertiesTokenizer.v).  Here: it agrees
    with Rust on every comment that has no comment inside and is closed. *)

From Coq Require Import String List NArith Arith Bool Lia.
From Verif Require Import Base Peresil Token Tokenizer TokenizerSpec TokenizerLex TokenizerNumber TokenizerWhole CommentSpec.
Import ListNotations.

Definition block_comment_kinds : list tkind := [KDocCommentOuterBlock; KDocCommentInnerBlock; KCommentBlock].

Lemma free_cons p c t : free_of p (c :: t) -> free_of p t.
Proof. intros F a b E. apply (F (c :: a) b). now rewrite E. Qed.

Lemma first_cons p c b rest : first_at p (c :: b) rest -> first_at p b rest.
Proof. intros F a b' E. specialize (F (c :: a) b'). cbn in F. rewrite E in F. specialize (F eq_refl). lia. Qed.

Lemma rust_step d c c' r : rust_block d (c :: c' :: r) =
  if ((c =? 47) && (c' =? 42))%N then rust_block (S d) r
  else if ((c =? 42) && (c' =? 47))%N then match d with 0 => Some r | S d' => rust_block d' r end
  else rust_block d (c' :: r).
Proof. reflexivity. Qed.

Lemma rust_first b rest : first_at (str "*/") b rest -> free_of (str "/*") (b ++ str "*/") ->
  rust_block 0 (b ++ str "*/" ++ rest) = Some rest.
Proof.
  induction b as [|c b IH]; intros F O; [reflexivity|].
  specialize (IH (first_cons _ _ _ _ F)). cbn [app] in O. specialize (IH (free_cons _ _ _ O)).
  destruct b as [|c' b].
  - cbn [app] in *. change (str "*/" ++ rest) with (42%N :: 47%N :: rest) in *. rewrite rust_step.
    destruct (c =? 47)%N eqn:E1; cbn [andb N.eqb]; [|].
    + exfalso. apply N.eqb_eq in E1. subst c. apply (O [] [47%N]). reflexivity.
    + replace ((42 =? 47)%N) with false by reflexivity. rewrite andb_false_r. exact IH.
  - cbn [app] in *. rewrite rust_step.
    destruct ((c =? 47) && (c' =? 42))%N eqn:E1.
    { exfalso. apply andb_true_iff in E1 as [E1 E2]. apply N.eqb_eq in E1, E2. subst.
      apply (O [] (b ++ str "*/")). reflexivity. }
    destruct ((c =? 42) && (c' =? 47))%N eqn:E2.
    { exfalso. apply andb_true_iff in E2 as [E3 E4]. apply N.eqb_eq in E3, E4. subst.
      specialize (F [] (b ++ str "*/" ++ rest) eq_refl). cbn in F. lia. }
    exact IH.
Qed.

Lemma rust_none d s : free_of (str "*/") s -> rust_block d s = None.
Proof.
  remember (List.length s) as n eqn:En. revert d s En.
  induction n as [n IH] using lt_wf_ind. intros d s -> F. destruct s as [|c [|c' r]]; [reflexivity..|]. rewrite rust_step.
  destruct ((c =? 47) && (c' =? 42))%N.
  { apply (IH (List.length r)); [cbn; lia|reflexivity|]. now apply free_cons in F; apply free_cons in F. }
  destruct ((c =? 42) && (c' =? 47))%N eqn:E.
  { exfalso. apply andb_true_iff in E as [E1 E2]. apply N.eqb_eq in E1, E2. subst. apply (F [] r). reflexivity. }
  apply (IH (List.length (c' :: r))); [cbn; lia|reflexivity|]. now apply free_cons in F.
Qed.

Lemma prefix_dec (p t : text) : has_prefix p t \/ ~ has_prefix p t.
Proof.
  revert t. induction p as [|c p IH]; intros t; [left; exists t; reflexivity|].
  destruct t as [|c' t]; [right; intros [r E]; discriminate|].
  destruct (N.eq_dec c c') as [->|N]; [|right; intros [r E]; injection E; congruence].
  destruct (IH t) as [[r ->]|N]; [left; exists r; reflexivity|right; intros [r E]; apply N; exists r; injection E; auto].
Qed.

Lemma free_dec p t : p <> [] -> free_of p t \/ exists a b, t = a ++ p ++ b.
Proof.
  intros NE. induction t as [|c t IH].
  - left. intros a b E. symmetry in E. apply app_eq_nil in E as [_ E]. apply app_eq_nil in E as [E _]. auto.
  - destruct (prefix_dec p (c :: t)) as [[r E]|N]; [right; exists [], r; exact E|].
    destruct IH as [F|(a & b & ->)]; [|right; exists (c :: a), b; reflexivity].
    left. intros [|c' a] b E; [apply N; exists b; exact E|]. cbn in E. injection E as -> E. exact (F a b E).
Qed.

(** Where Rust ends a comment without others inside is the first closer. *)
Lemma rust_some s rest : rust_block 0 s = Some rest ->
  (exists b, s = b ++ str "*/" ++ rest /\ first_at (str "*/") b rest) \/
  (exists a c, s = a ++ str "/*" ++ c /\ List.length rest <= List.length c).
Proof.
  assert (L : forall n d s, List.length s <= n -> rust_block d s = Some rest -> List.length rest <= List.length s).
  { induction n as [|n IH]; intros d t Ln E; [destruct t; [discriminate|cbn in Ln; lia]|].
    destruct t as [|c [|c' r]]; [discriminate..|]. rewrite rust_step in E. cbn [List.length] in *.
    destruct ((c =? 47) && (c' =? 42))%N; [apply IH in E; lia|].
    destruct ((c =? 42) && (c' =? 47))%N.
    - destruct d; [injection E as ->; lia|apply IH in E; lia].
    - apply IH in E; cbn [List.length] in *; lia. }
  induction s as [|c s IH]; intros E; [discriminate|]. destruct s as [|c' r]; [discriminate|]. rewrite rust_step in E.
  destruct ((c =? 47) && (c' =? 42))%N eqn:E1.
  { right. apply andb_true_iff in E1 as [A B]. apply N.eqb_eq in A, B. subst. exists [], r. split; [reflexivity|]. eapply L; eauto. }
  destruct ((c =? 42) && (c' =? 47))%N eqn:E2.
  { left. apply andb_true_iff in E2 as [A B]. apply N.eqb_eq in A, B. subst. injection E as ->. exists []. split; [reflexivity|]. intros a b _. cbn. lia. }
  destruct (IH E) as [(b & Eb & F)|(a & d & Ea & Ln)].
  - left. exists (c :: b). rewrite Eb. split; [reflexivity|]. intros [|x a] b' H.
    + exfalso. cbn [app] in H. rewrite <- Eb in H. injection H as -> -> _. discriminate.
    + cbn [app] in H. injection H as -> H. cbn. apply F in H. lia.
  - right. exists (c :: a), d. rewrite Ea. auto.
Qed.

(** A comment that the tokenizer reads ends where Rust ends it, or it has an opening
    [/*] inside, or it is not closed: then Rust does not accept it and the tokenizer
    takes all the rest of the text. *)
Theorem C11_every_block_comment_partial : forall X, xid_sane X -> forall k s off e rest,
  In k block_comment_kinds -> yields X s off (Tk k e) rest ->
  exists b, s = str "/*" ++ b ++ rest /\ e = (off, off + blen (str "/*" ++ b)) /\
    (rust_block 0 (b ++ rest) = Some rest \/ (exists x y, b = x ++ str "/*" ++ y) \/
     (rest = [] /\ rust_block 0 b = None)).
Proof.
  intros X S k s off e rest K Y. apply yields_token in Y as (w & -> & -> & Lx); [|assumption].
  assert (B : exists b, w = str "/*" ++ b /\
    ((exists b', b = b' ++ str "*/" /\ first_at (str "*/") b' rest) \/ (rest = [] /\ free_of (str "*/") b))).
  { assert (D : forall c, (c = 42 \/ c = 33)%N -> ~ has_prefix (str "/**/") (w ++ rest) -> block_comment (str "/*" ++ [c]) w rest ->
      exists b, w = str "/*" ++ b /\
      ((exists b', b = b' ++ str "*/" /\ first_at (str "*/") b' rest) \/ (rest = [] /\ free_of (str "*/") b))).
    { intros c Hc NP [(b & -> & F)|(b & -> & -> & F)].
      - exists (c :: b ++ str "*/"). split; [reflexivity|]. left. exists (c :: b). split; [reflexivity|].
        intros [|x a] b' H; [|cbn [app] in H; injection H as -> H; apply F in H; cbn; lia].
        exfalso. cbn [app] in H. injection H as -> H. destruct b as [|y b].
        + cbn in H. discriminate.
        + cbn [app] in H. injection H as -> H. apply NP. exists (b ++ str "*/" ++ rest). cbn. now rewrite <- !app_assoc.
      - exists (c :: b). split; [reflexivity|]. right. split; [reflexivity|]. intros [|x a] b' H.
        + cbn [app] in H. injection H as -> H. apply NP. exists b'. rewrite H. cbn. now rewrite app_nil_r.
        + cbn [app] in H. injection H as -> H. exact (F a b' H). }
    cbn in K. destruct K as [<-|[<-|[<-|[]]]]; cbn in Lx.
    - destruct Lx as (Bc & _ & NP). apply (D 42%N); auto.
    - apply (D 33%N); auto. intros [r E]. destruct Lx as [(b & -> & _)|(b & -> & _ & _)]; discriminate.
    - destruct Lx as ([(b & -> & F)|(b & -> & -> & F)] & _).
      + exists (b ++ str "*/"). split; [reflexivity|]. left. eauto.
      + exists b. split; [reflexivity|]. right. auto. }
  destruct B as (b & -> & H). exists b. split; [now rewrite app_assoc|]. split; [reflexivity|].
  destruct H as [(b' & -> & F)|[-> F]].
  - destruct (free_dec (str "/*") (b' ++ str "*/")) as [O|O]; [discriminate| |right; left; exact O].
    left. rewrite <- app_assoc. now apply rust_first.
  - right. right. split; [reflexivity|]. now apply rust_none.
Qed.

(** Every comment without others inside, closed as in Rust, is one token. *)
Theorem C11_simple_block_comment_partial : forall X, xid_sane X -> forall b rest off,
  rust_block 0 (b ++ rest) = Some rest -> free_of (str "/*") b ->
  exists k, In k block_comment_kinds /\ yields X (str "/*" ++ b ++ rest) off (Tk k (off, off + blen (str "/*" ++ b))) rest.
Proof.
  intros X S b0 rest off R O.
  destruct (rust_some _ _ R) as [(b & Eb & F)|(a & c & Ea & Ln)].
  2:{ exfalso. assert (P : exists c', b0 = a ++ str "/*" ++ c').
      { rewrite app_assoc in Ea. apply app_eq_app in Ea as [l [[E1 E2]|[E1 E2]]].
        - exists l. rewrite E1. now rewrite <- app_assoc.
        - subst rest. rewrite app_length in Ln. destruct l as [|z l]; [|cbn in Ln; lia].
          exists []. rewrite app_nil_r in E1. rewrite app_nil_r. now rewrite E1. }
      destruct P as [c' P]. exact (O _ _ P). }
  rewrite app_assoc in Eb. apply app_inv_tail in Eb. subst b0.
  enough (exists k, In k block_comment_kinds /\ lexical X k (str "/*" ++ b ++ str "*/") rest) as (k & K & Lx).
  { exists k. split; [exact K|]. apply yields_token; [assumption|]. exists (str "/*" ++ b ++ str "*/"). split; [now rewrite <- !app_assoc|]. auto. }
  assert (C : block_comment (str "/*") (str "/*" ++ b ++ str "*/") rest) by (left; exists b; auto).
  destruct b as [|c b].
  { exists KCommentBlock. split; [cbn; auto|]. cbn. split; [exact C|]. split; [intros [r E]; discriminate|]. intros _. right. exists []. reflexivity. }
  destruct (N.eq_dec c 33) as [->|N1].
  { exists KDocCommentInnerBlock. split; [cbn; auto|]. cbn. left. exists b. split; [reflexivity|]. now apply first_cons in F. }
  destruct (N.eq_dec c 42) as [->|N2].
  2:{ exists KCommentBlock. split; [cbn; auto|]. cbn. split; [exact C|]. split; [|]; intros [r E]; injection E; congruence. }
  destruct b as [|c b].
  { exists KCommentBlock. split; [cbn; auto|]. cbn. split; [exact C|]. split; [intros [r E]; discriminate|]. intros _. left. eexists. reflexivity. }
  destruct (N.eq_dec c 42) as [->|N3].
  { exists KCommentBlock. split; [cbn; auto|]. cbn. split; [exact C|]. split; [intros [r E]; discriminate|]. intros _. left. eexists. reflexivity. }
  exists KDocCommentOuterBlock. split; [cbn; auto|]. cbn. split; [|split].
  - left. exists (c :: b). split; [reflexivity|]. now apply first_cons in F.
  - intros [r E]. injection E. congruence.
  - intros [r E]. injection E as E _. subst c. specialize (F [] (b ++ str "*/" ++ rest) eq_refl). cbn in F. lia.
Qed.

Example C11_comments_ex :
  rust_block 0 (str " a * b / c **/ x") = Some (str " x") /\
  tokenize ascii_xid (str "/* a * b / c **/ x") =
    TokOk [Tk KCommentBlock (0, 16); Tk KWhitespace (16, 17); Tk KIdent (17, 18); Tk KEndOfFile (18, 18)] /\
  rust_block 0 (str " a /*/ b */ c */x") = Some (str "x") /\ rust_block 0 (str "/*/") = None /\ rust_block 0 (str " a") = None.
Proof. vm_compute. repeat split. Qed.

Print Assumptions C11_every_block_comment_partial.
Print Assumptions C11_simple_block_comment_partial.
