(** Properties C25 and C26: where the parts of a syntax tree lie in the source.

    The vocabulary is in SpanSpec.v ([before], [part_of], [declared_before], and
    the exceptions [unordered], [prefix_operation], [hollow]) and Whitespace.v
    ([strip]: the tree with all whitespace vectors emptied). *)

From Coq Require Import String List NArith Arith Bool Lia.
From Verif Require Import Base Peresil Token Tokenizer TokenizerSpec.
From Verif Require Import Schema Value Nt Grammar Table Apportion Lib Whitespace SpanSpec SpansOk SpansFile PropertiesFile.
Import ListNotations.
Local Open Scope string_scope.
Local Open Scope list_scope.
Local Open Scope nat_scope.

(** ** C25: the elements of every vector and the fields of every node follow one
    another in the source; so do the parts of a number. *)
Theorem C25_source_order : forall X, xid_sane X -> forall code f, parse_rust_file X code = FileOk f ->
  (forall l, part_of (VList l) (strip f) -> ForallOrdPairs before l) /\
  (forall k fs a b x y, part_of (VNode k fs) (strip f) -> declared_before k a b ->
     get_field a (VNode k fs) = Some x -> get_field b (VNode k fs) = Some y ->
     a <> "extent" -> ~ In (k, a, b) unordered ->
     before x y \/ (k = "Attributed<Expression>" /\ a = "attributes" /\ prefix_operation y = true)) /\
  (forall n, part_of (VNum n) (strip f) ->
     ForallOrdPairs before [VExt (n_integral n); vopt (n_fractional n); vopt (n_exponent n); vopt (n_type_suffix n)]).
Proof.
  intros X XS code f E. pose proof (file_laid_out X code f XS E) as L. split; [|split].
  - intros l P. apply (laid_part _ _ P) in L. now apply laid_list in L.
  - intros k fs a b x y P D. apply (laid_part _ _ P) in L. apply laid_node in L as (_ & L & _). now apply ordered_fields.
  - intros n P. apply (laid_part _ _ P) in L. exact (proj2 L).
Qed.

(** Deciding these things, for the examples. *)
Definition beforeb (a b : val) : bool := forallb (fun x => forallb (fun y => snd x <=? fst y) (extents b)) (extents a).

Fixpoint parts (v : val) : list val :=
  v :: match v with
       | VSome v | VVar _ _ v => parts v
       | VPair a b => parts a ++ parts b
       | VList l | VNode _ l => flat_map parts l
       | _ => []
       end.

Lemma beforeb_before a b : beforeb a b = false -> ~ before a b.
Proof.
  intros H B. enough (beforeb a b = true) by congruence. unfold beforeb. apply forallb_forall. intros x Hx. apply forallb_forall. intros y Hy.
  apply Nat.leb_le. auto.
Qed.

Lemma parts_part v : forall w, In w (parts v) -> part_of w v.
Proof.
  induction v as [e|b|n|p|n| | |v IH|l IH|a b IHa IHb|k fs IH|en vn p IH] using val_ind'; intros w [<-|H]; try apply part_self; try destruct H.
  - apply part_some. auto.
  - apply in_flat_map in H as (x & I & H). rewrite Forall_forall in IH. eapply part_elem; eauto.
  - apply in_app_iff in H as [H|H]; [apply part_left|apply part_right]; auto.
  - apply in_flat_map in H as (x & I & H). rewrite Forall_forall in IH. eapply part_field; eauto.
  - apply part_var. auto.
Qed.

(** Many pairs of fields of the sample have extents on both sides. *)
Fixpoint two_sided (fs : list val) : nat :=
  match fs with
  | x :: fs' => (if Nat.eqb (List.length (extents x)) 0 then 0
                 else List.length (filter (fun y => negb (Nat.eqb (List.length (extents y)) 0)) fs')) + two_sided fs'
  | [] => 0
  end.

Example C25_ex : exists f, parse_rust_file ascii_xid sample = FileOk f /\
  fold_right plus 0 (map (fun v => match v with VNode _ fs => two_sided (tl fs) | _ => 0 end) (parts (strip f))) = 17 /\
  declared_before "Function" "header" "body" /\ ~ In ("Function", "header", "body") unordered.
Proof.
  eexists. split; [vm_compute; reflexivity|]. split; [vm_compute; reflexivity|]. split.
  - eexists. exists 1, 2. split; [reflexivity|]. split; [|split; reflexivity]. lia.
  - intros [H|[H|[H|[]]]]; discriminate.
Qed.

(** Each exception is needed. *)
Definition backwards (k a b : string) (code : text) : Prop :=
  exists f fs x y, parse_rust_file ascii_xid code = FileOk f /\ part_of (VNode k fs) (strip f) /\ declared_before k a b /\
    get_field a (VNode k fs) = Some x /\ get_field b (VNode k fs) = Some y /\ ~ before x y.

Definition backwardsb (k a b : string) (f : val) : bool :=
  existsb (fun n => match n with
                    | VNode k' _ =>
                        String.eqb k k' && match get_field a n, get_field b n with Some x, Some y => negb (beforeb x y) | _, _ => false end
                    | _ => false
                    end) (parts (strip f)).

Lemma backwards_by k a b code f : parse_rust_file ascii_xid code = FileOk f -> declared_before k a b -> backwardsb k a b f = true -> backwards k a b code.
Proof.
  intros P D B. apply existsb_exists in B as (n & I & B). destruct n as [| | | | | | | | | |k' fs|]; try discriminate.
  apply andb_true_iff in B as [E B]. apply String.eqb_eq in E. subst k'.
  destruct (get_field a (VNode k fs)) as [x|] eqn:Ga; [|discriminate]. destruct (get_field b (VNode k fs)) as [y|] eqn:Gb; [|discriminate].
  apply negb_true_iff in B. exists f, fs, x, y. split; [auto|]. split; [now apply parts_part|]. split; [auto|]. split; [auto|]. split; [auto|].
  now apply beforeb_before.
Qed.

Theorem C25_every_field_refuted :
  backwards "Struct" "wheres" "body" (str "struct S(u8) where u8: T;") /\
  backwards "AsyncBlock" "body" "is_move" (str "fn f() { async move {} }") /\
  backwards "StructLiteralField" "name" "value" (str "fn f() { S { a }; }") /\
  backwards "Attributed<Expression>" "attributes" "value" (str "fn f() { #[a] -b; }").
Proof.
  assert (forall k a b fields, struct_fields k = Some fields ->
            existsb (fun i => existsb (fun j => (i <? j) &&
               match nth_error (map field_name fields) i, nth_error (map field_name fields) j with
               | Some a', Some b' => String.eqb a a' && String.eqb b b' | _, _ => false end) (seq 0 20)) (seq 0 20) = true -> declared_before k a b) as D.
  { intros k a b fields S H. apply existsb_exists in H as (i & _ & H). apply existsb_exists in H as (j & _ & H). apply andb_true_iff in H as [L H].
    apply Nat.ltb_lt in L. destruct (nth_error (map field_name fields) i) as [a'|] eqn:A; [|discriminate].
    destruct (nth_error (map field_name fields) j) as [b'|] eqn:B; [|discriminate]. apply andb_true_iff in H as [H1 H2].
    apply String.eqb_eq in H1, H2. subst. exists fields, i, j. auto. }
  split; [|split; [|split]]; (eapply backwards_by; [vm_compute; reflexivity|eapply D; [reflexivity|vm_compute; reflexivity]|vm_compute; reflexivity]).
Qed.

(** ** C26: what is proved of it.  Missing: empty extents, which C26 is false of,
    and two kinds of nodes whose own extent is always empty. *)
Theorem C26_nonempty_within_parent_partial : forall X, xid_sane X -> forall code f, parse_rust_file X code = FileOk f ->
  forall k fs x e, part_of (VNode k fs) (strip f) -> get_field "extent" (VNode k fs) = Some (VExt x) -> ~ In k hollow ->
    In e (extents (VNode k fs)) -> fst e < snd e -> fst x <= fst e /\ snd e <= snd x.
Proof.
  intros X XS code f E k fs x e P G H I N. pose proof (file_laid_out X code f XS E) as L. apply (laid_part _ _ P) in L.
  apply laid_node in L as (_ & _ & L). specialize (L (proj2 (hollow_spec k) H) x G). unfold within in L. rewrite Forall_forall in L. now apply L.
Qed.

Example C26_ex : exists f, parse_rust_file ascii_xid sample = FileOk f /\
  List.length (filter (fun n => match n, get_field "extent" n with VNode k _, Some (VExt _) => negb (is_hollow k) | _, _ => false end) (parts (strip f))) = 68.
Proof. eexists. split; vm_compute; reflexivity. Qed.

(** The two kinds are exceptions. *)
Theorem C26_hollow_refuted : forall k, In k hollow -> exists code f fs x e,
  parse_rust_file ascii_xid code = FileOk f /\ part_of (VNode k fs) (strip f) /\ get_field "extent" (VNode k fs) = Some (VExt x) /\
  In e (extents (VNode k fs)) /\ fst e < snd e /\ ~ (fst x <= fst e /\ snd e <= snd x).
Proof.
  assert (forall k code f, parse_rust_file ascii_xid code = FileOk f ->
            existsb (fun n => match n with
                              | VNode k' fs => String.eqb k k' && match get_field "extent" n with
                                  | Some (VExt x) => existsb (fun e => (fst e <? snd e) && negb ((fst x <=? fst e) && (snd e <=? snd x))) (extents n)
                                  | _ => false end
                              | _ => false end) (parts (strip f)) = true ->
            exists code f fs x e,
              parse_rust_file ascii_xid code = FileOk f /\ part_of (VNode k fs) (strip f) /\ get_field "extent" (VNode k fs) = Some (VExt x) /\
              In e (extents (VNode k fs)) /\ fst e < snd e /\ ~ (fst x <= fst e /\ snd e <= snd x)) as K.
  { intros k code f P B. apply existsb_exists in B as (n & I & B). destruct n as [| | | | | | | | | |k' fs|]; try discriminate.
    apply andb_true_iff in B as [E B]. apply String.eqb_eq in E. subst k'.
    destruct (get_field "extent" (VNode k fs)) as [[x| | | | | | | | | | |]|] eqn:G; try discriminate.
    apply existsb_exists in B as (e & J & B). apply andb_true_iff in B as [B1 B2]. apply Nat.ltb_lt in B1. apply negb_true_iff in B2.
    exists code, f, fs, x, e. split; [auto|]. split; [now apply parts_part|]. split; [auto|]. split; [auto|]. split; [auto|].
    intros [A C]. apply Nat.leb_le in A, C. rewrite A, C in B2. discriminate. }
  intros k [<-|[<-|[]]].
  - eapply (K _ (str "fn f() { S { a: 1 }; }")); [vm_compute; reflexivity|vm_compute; reflexivity].
  - eapply (K _ (str "fn f() { let b @ c = d; }")); [vm_compute; reflexivity|vm_compute; reflexivity].
Qed.

Print Assumptions C25_source_order.
Print Assumptions C25_every_field_refuted.
Print Assumptions C26_nonempty_within_parent_partial.
Print Assumptions C26_hollow_refuted.
