(** Property C58, how [if let] and [while let] are represented.  The vocabulary is in
    LetSpec.v. *)

From Coq Require Import String List NArith Arith Bool Lia.
From Verif Require Import Base Peresil Token Tokenizer TokenizerSpec.
From Verif Require Import Schema Value Nt Grammar Points Table Apportion Lib LibOk FileToks Whitespace SpanSpec RustSpec DelimSpec LetSpec Kinds KindsFile
  PropertiesFile PropertiesSpans.
Import ListNotations.
Local Open Scope string_scope.
Local Open Scope list_scope.
Local Open Scope nat_scope.

(** ** C58: the property would be that [if let] makes an [IfLet] node and [while let]
    a [WhileLet] node.  It is the other way round: there are no such nodes, as far as
    lengths of array types have no delimiters. *)
Theorem C58_no_if_let_nodes : forall X, xid_sane X -> forall code f ts, parse_rust_file X code = FileOk f ->
  tokenize X code = TokOk ts -> plain_lengths (filter significant ts) ->
  forall k fs, part_of (VNode k fs) (strip f) -> k <> "IfLet" /\ k <> "WhileLet".
Proof.
  intros X XS code f ts E T PL k fs P. pose proof (file_plain X code f ts XS E T PL k fs P) as K.
  split; intros ->; discriminate K.
Qed.

(** A list that is paired does not start with tokens that are no delimiters and a closing one. *)
Lemma no_closer_first l : paired l -> forall l1 c l2, l = l1 ++ c :: l2 -> Forall (fun t => bracket t = false) l1 ->
  existsb (fun '(_, k) => token_is k c) brackets = true -> False.
Proof.
  assert (OC : forall o k t, In (o, k) brackets -> token_is o t = true -> bracket t = true /\ existsb (fun '(_, k) => token_is k t) brackets = false).
  { intros o k [k0 x|] I T; [|discriminate]. cbn [token_is] in T. apply tkind_eqb_eq in T. subst k0.
    cbn in I. repeat destruct I as [I|I]; try contradiction; injection I as <- <-; split; reflexivity. }
  assert (CB : forall t, existsb (fun '(_, k) => token_is k t) brackets = true -> bracket t = true).
  { intros t H. unfold bracket. apply existsb_exists in H as [[o k] [I T]]. apply existsb_exists. exists (o, k). split; [exact I|].
    rewrite T. apply orb_true_r. }
  assert (OPEN : forall o k t rest l1 c l2, In (o, k) brackets -> token_is o t = true -> t :: rest = l1 ++ c :: l2 ->
    Forall (fun t => bracket t = false) l1 -> existsb (fun '(_, k) => token_is k c) brackets = true -> False).
  { intros o k t rest l1 c l2 I T E N C. destruct (OC _ _ _ I T) as [B NC]. destruct l1 as [|u l1].
    - injection E as <- _. congruence.
    - injection E as <- _. inversion N; congruence. }
  induction 1 as [|t ts T P IH|o k t u a b I T U A IHa B IHb|o k bang name t u a b I BN NM T U A B IHb|hash bang t u a b HS BN T U A B IHb];
    intros l1 c l2 E N C.
  - destruct l1; discriminate.
  - destruct l1 as [|u l1]; injection E as <- E; [apply CB in C; congruence|]. inversion N; subst. eauto.
  - eapply OPEN; eauto.
  - destruct l1 as [|w l1]; injection E as <- E.
    + destruct bang as [k0 x|]; [|discriminate]. cbn [token_is] in BN. apply tkind_eqb_eq in BN. subst k0. discriminate C.
    + inversion N as [|? ? _ N']; subst. destruct NM as [->|(w & -> & W)]; [eapply OPEN; eauto|].
      destruct l1 as [|w' l1]; injection E as <- E; [apply CB in C; congruence|]. inversion N' as [|? ? _ N'']; subst. eapply OPEN; eauto.
  - assert (IS : In (KLeftSquare, KRightSquare) brackets) by (cbn; auto).
    destruct l1 as [|w l1]; injection E as <- E.
    + destruct hash as [k0 x|]; [|discriminate]. cbn [token_is] in HS. apply tkind_eqb_eq in HS. subst k0. discriminate C.
    + inversion N as [|? ? _ N']; subst. destruct BN as [->|(w & -> & W)]; [eapply OPEN; eauto|].
      destruct l1 as [|w' l1]; injection E as <- E.
      * destruct w as [k0 x|]; [|discriminate]. cbn [token_is] in W. apply tkind_eqb_eq in W. subst k0. discriminate C.
      * inversion N' as [|? ? _ N'']; subst. eapply OPEN; eauto.
Qed.

(** Brackets with nothing but other tokens inside will do. *)
Fixpoint closes (l : list token) : bool :=
  match l with [] => false | t :: l => if bracket t then token_is KRightSquare t else closes l end.
Fixpoint shallow (l : list token) : bool :=
  match l with [] => true | t :: l => (if token_is KLeftSquare t then closes l else true) && shallow l end.

Lemma closes_split l : closes l = true -> exists count close rest, l = count ++ close :: rest /\
  Forall (fun t => bracket t = false) count /\ token_is KRightSquare close = true.
Proof.
  induction l as [|t l IH]; [discriminate|]. cbn [closes]. intros H. destruct (bracket t) eqn:B.
  - exists [], t, l. auto.
  - destruct (IH H) as (count & close & rest & -> & F & C). exists (t :: count), close, rest. auto.
Qed.

Lemma shallow_plain l : shallow l = true -> plain_lengths l.
Proof.
  intros H before open typ semi after -> O P S.
  assert (C : closes (typ ++ semi :: after) = true).
  { clear -H O. induction before as [|t before IH]; cbn [app shallow] in H; apply andb_true_iff in H as [H1 H2]; [now rewrite O in H1|auto]. }
  apply closes_split in C as (count & close & rest & E & F & C).
  assert (Z : existsb (fun '(_, k) => token_is k close) brackets = true) by (apply existsb_exists; exists (KLeftSquare, KRightSquare); cbn; auto).
  clear H. revert typ P E. induction count as [|t count IH]; intros typ P E.
  - destruct typ as [|u typ]; injection E as -> E.
    + destruct close as [k x|]; [|discriminate]. cbn [token_is] in S, C. apply tkind_eqb_eq in S, C. congruence.
    + exfalso. eapply (no_closer_first _ P [] close typ); auto.
  - destruct (Nat.lt_ge_cases (List.length (t :: count)) (List.length typ)) as [L|L].
    + (* the bracket closes in the type *)
      exfalso. assert (T : exists t2, typ = (t :: count) ++ close :: t2).
      { assert (FE : firstn (List.length (t :: count) + 1) (typ ++ semi :: after) = (t :: count) ++ [close]).
        { rewrite E. rewrite firstn_app_2. reflexivity. }
        rewrite firstn_app in FE. replace (List.length (t :: count) + 1 - List.length typ) with 0 in FE by lia. cbn [firstn] in FE. rewrite app_nil_r in FE.
        exists (skipn (List.length (t :: count) + 1) typ). rewrite <- (firstn_skipn (List.length (t :: count) + 1) typ) at 1. rewrite FE, <- app_assoc. reflexivity. }
      destruct T as [t2 ->]. eapply (no_closer_first _ P (t :: count) close t2); auto.
    + clear IH. assert (K : skipn (List.length typ) (typ ++ semi :: after) = semi :: after) by (rewrite skipn_app, skipn_all, Nat.sub_diag; reflexivity).
      rewrite E, skipn_app in K.
      replace (List.length typ - List.length (t :: count)) with 0 in K by lia. cbn [skipn] in K.
      destruct (skipn (List.length typ) (t :: count)) as [|u d] eqn:D; cbn [app] in K; injection K as -> K.
      * destruct semi as [k x|]; [|discriminate]. cbn [token_is] in S, C. apply tkind_eqb_eq in S, C. congruence.
      * exists d, close, rest. split; [now symmetry|]. split; [|exact C]. rewrite Forall_forall in *. intros z Iz. apply F.
        rewrite <- (firstn_skipn (List.length typ) (t :: count)), D. apply in_or_app. right. now right.
Qed.

Definition let_sample : Base.text :=
  str "fn f(a: [u8; N + 1]) { if let Some(x) = a { } else { while let A::<[u8; 2]>::B(y) = g() { if let P { z } = y { } } } }".

Definition kinds_of (f : val) : list string :=
  flat_map (fun n => match n with
    | VNode k _ => if existsb (String.eqb k) ["If"; "While"; "IfLet"; "WhileLet"; "Let"] then [k] else []
    | _ => [] end) (parts (strip f)).

Example C58_no_if_let_nodes_ex : exists f ts, parse_rust_file ascii_xid let_sample = FileOk f /\
  tokenize ascii_xid let_sample = TokOk ts /\ plain_lengths (filter significant ts) /\
  kinds_of f = ["If"; "Let"; "While"; "Let"; "If"; "Let"].
Proof.
  eexists. eexists. split; [vm_compute; reflexivity|]. split; [vm_compute; reflexivity|]. split; [apply shallow_plain; vm_compute; reflexivity|].
  vm_compute. reflexivity.
Qed.

(** So the property fails. *)
Theorem C58_if_let_refuted : ~ (forall X, xid_sane X -> forall code f ts, parse_rust_file X code = FileOk f -> tokenize X code = TokOk ts ->
  forall before i l after, filter significant ts = before ++ i :: l :: after -> token_is KIf i = true -> token_is KLet l = true ->
  exists fs, part_of (VNode "IfLet" fs) (strip f)).
Proof.
  intros H. set (code := str "fn f() { if let a = b { } }").
  destruct (parse_rust_file ascii_xid code) as [f| | |] eqn:E; try (vm_compute in E; discriminate E).
  destruct (tokenize ascii_xid code) as [ts| |] eqn:T; try (vm_compute in T; discriminate T).
  assert (PL : plain_lengths (filter significant ts)) by (apply shallow_plain; vm_compute in T; injection T as <-; vm_compute; reflexivity).
  assert (exists before i l after, filter significant ts = before ++ i :: l :: after /\ token_is KIf i = true /\ token_is KLet l = true) as (b & i & l & a & S & I & L).
  { set (s := filter significant ts). exists (firstn 5 s), (nth 5 s (Tk KIf (0, 0))), (nth 6 s (Tk KIf (0, 0))), (skipn 7 s). subst s.
    vm_compute in T. injection T as <-. vm_compute. auto. }
  destruct (H ascii_xid ascii_xid_sane code f ts E T b i l a S I L) as [fs P].
  destruct (C58_no_if_let_nodes ascii_xid ascii_xid_sane code f ts E T PL _ _ P) as [K _]. now apply K.
Qed.

(** Without the condition on lengths there may be one of these nodes. *)
Example C58_length_ex : exists f, parse_rust_file ascii_xid (str "fn f() { if let A::<[u8; S { }]>::B = x { } }") = FileOk f /\
  kinds_of f = ["IfLet"].
Proof. eexists. split; [vm_compute; reflexivity|]. vm_compute. reflexivity. Qed.

Print Assumptions C58_no_if_let_nodes.
Print Assumptions C58_if_let_refuted.
