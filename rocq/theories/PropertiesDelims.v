(** Property C57, the delimiters of accepted files pair up.  The vocabulary is in
    DelimSpec.v. *)

From Coq Require Import String List NArith Arith Bool Lia.
From Verif Require Import Base Peresil Token Tokenizer TokenizerSpec.
From Verif Require Import Schema Value Nt Grammar Table Apportion Lib LibOk FileToks RustSpec DelimSpec Delims DelimsFile PropertiesFile.
Import ListNotations.
Local Open Scope string_scope.
Local Open Scope list_scope.
Local Open Scope nat_scope.

(** ** C57: in an accepted file every parenthesis, bracket and brace has its
    partner, properly nested; the texts of macro invocations and attributes are
    balanced in their own delimiters. *)
Theorem C57_delimiters_pair : forall X, xid_sane X -> forall code f, parse_rust_file X code = FileOk f ->
  exists ts, tokenize X code = TokOk ts /\ paired (filter significant ts).
Proof. intros X XS code f E. exact (file_paired X code f XS E). Qed.

(** A file with neither [!] nor [#] is properly nested throughout. *)
Theorem C57_without_macros : forall X, xid_sane X -> forall code f, parse_rust_file X code = FileOk f ->
  forall ts, tokenize X code = TokOk ts -> Forall (fun t => token_is KBang t = false /\ token_is KHash t = false) ts ->
  matched (filter significant ts) /\
  forall o c, In (o, c) brackets -> number_of o ts = number_of c ts.
Proof.
  intros X XS code f E ts T N. destruct (file_paired X code f XS E) as (ts' & T' & P).
  assert (ts' = ts) as -> by congruence. clear T'.
  assert (M : forall l, paired l -> Forall (fun t => token_is KBang t = false /\ token_is KHash t = false) l -> matched l).
  { clear. intros l P. induction P as [|t ts T P IH|o c t u a b I T U A IHa B IHb|o c bang name t u a b I BN NM T U A B IHb|hash bang t u a b HS BN T U A B IHb]; intros N.
    - constructor.
    - inversion N; subst. constructor; auto.
    - inversion N as [|? ? _ N']; subst. apply Forall_app in N' as [Na Nb]. inversion Nb; subst. eapply MT_group; eauto.
    - inversion N as [|? ? [K _] _]; subst. congruence.
    - inversion N as [|? ? [_ K] _]; subst. congruence. }
  assert (MM : matched (filter significant ts)).
  { apply M; [exact P|]. rewrite Forall_forall in *. intros t It. apply filter_In in It as [It _]. auto. }
  split; [exact MM|]. intros o c IN.
  assert (Z : forall k, In k [KLeftParen; KRightParen; KLeftSquare; KRightSquare; KLeftCurly; KRightCurly] ->
    number_of k ts = number_of k (filter significant ts)).
  { intros k K. unfold number_of. clear -K. induction ts as [|t ts IH]; [reflexivity|]. cbn [filter].
    destruct (significant t) eqn:S; cbn [filter]; destruct (token_is k t) eqn:TK; cbn [List.length]; rewrite ?IH; try reflexivity.
    exfalso. destruct t as [k' x|]; [|discriminate]. cbn [token_is] in TK. apply tkind_eqb_eq in TK. subst k'.
    cbn in K. repeat destruct K as [<-|K]; try discriminate S. contradiction. }
  assert (NO : number_of o ts = number_of o (filter significant ts) /\ number_of c ts = number_of c (filter significant ts)).
  { split; apply Z; cbn in IN; repeat destruct IN as [IN|IN]; try contradiction; injection IN as <- <-; cbn; auto 8. }
  destruct NO as [-> ->]. clear -MM IN. revert MM. generalize (filter significant ts). intros l M.
  assert (Q : forall k t, bracket t = false -> In k [o; c] -> token_is k t = false).
  { intros k t B I. unfold bracket in B. destruct (token_is k t) eqn:TK; [|reflexivity]. rewrite <- B. symmetry. apply existsb_exists.
    exists (o, c). split; [exact IN|]. destruct I as [->|[->|[]]]; rewrite TK; [reflexivity|apply orb_true_r]. }
  assert (D : forall k k' t, token_is k t = true -> token_is k' t = tkind_eqb k' k).
  { intros k k' [k0 x|] H; [|discriminate]. cbn [token_is] in *. apply tkind_eqb_eq in H. now subst. }
  unfold number_of. clear ts. induction M as [|t ts B M IH|o' c' t u a b I T U A IHa B IHb].
  - reflexivity.
  - cbn [filter]. rewrite (Q o t B), (Q c t B) by (cbn; auto). exact IH.
  - cbn [filter]. rewrite !filter_app. cbn [filter]. rewrite !(D _ _ _ T), !(D _ _ _ U).
    assert (K : (tkind_eqb o o' = true /\ tkind_eqb c c' = true \/ tkind_eqb o o' = false /\ tkind_eqb c c' = false) /\
      tkind_eqb c o' = false /\ tkind_eqb o c' = false).
    { clear -IN I. cbn in IN, I. repeat destruct IN as [IN|IN]; try contradiction; injection IN as <- <-;
        repeat destruct I as [I|I]; try contradiction; injection I as <- <-; cbn; auto. }
    destruct K as ([[-> ->]|[-> ->]] & -> & ->); cbn [List.length]; rewrite !app_length; cbn [List.length]; lia.
Qed.

Definition kinds_of (code : Base.text) : list token :=
  match tokenize ascii_xid code with TokOk ts => filter significant ts | _ => [] end.

Definition delims_sample : Base.text := str "#[b(] mod m { fn f() { m!([); h!{ ( } n! x [)]; } }".
Definition strict_sample : Base.text := str "fn f(x: [u8; 2]) -> (u8, ()) { if g(x)[0] { h(1) } S { a: (1) }.b } use a::{b, c::{d}};".

Example C57_delimiters_pair_ex :
  (exists f, parse_rust_file ascii_xid delims_sample = FileOk f) /\
  (exists f, parse_rust_file ascii_xid strict_sample = FileOk f) /\
  Forall (fun t => token_is KBang t = false /\ token_is KHash t = false) (kinds_of strict_sample) /\
  map (fun k => number_of k (kinds_of strict_sample)) [KLeftParen; KRightParen; KLeftSquare; KRightSquare; KLeftCurly; KRightCurly] = [6; 6; 2; 2; 5; 5].
Proof.
  split; [eexists; vm_compute; reflexivity|]. split; [eexists; vm_compute; reflexivity|]. split; [|vm_compute; reflexivity].
  apply Forall_forall. intros t. vm_compute. intuition (subst; split; reflexivity).
Qed.

(** Files whose delimiters do not pair up are rejected. *)
Example C57_rejected_ex : forallb (fun s => match parse_rust_file ascii_xid (str s) with FileErr _ _ => true | _ => false end)
  ["fn f() { (a] }"; "fn f() { [1, 2) }"; "fn f() { g(a }"; "fn f() { } }"; "fn f() { a[0)] }"; "use a::{b, c::{d};"; "fn f() { m!(] }"] = true.
Proof. vm_compute. reflexivity. Qed.

Print Assumptions C57_delimiters_pair.
Print Assumptions C57_without_macros.
