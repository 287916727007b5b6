(** Text and byte offsets.

    A Rust [&str] is valid UTF-8, that is, a sequence of Unicode scalar values.
    The model keeps the scalar values ([list N]) and computes byte offsets with
    [char::len_utf8].  All positions below are byte positions, as in the code. *)

From Coq Require Import String Ascii List NArith Arith Bool Lia.
Import ListNotations.

Definition char := N.
Definition text := list char.

(** ASCII literals, for writing down the string constants of the code. *)
Definition str (s : string) : text := map N_of_ascii (list_ascii_of_string s).

(** [char::len_utf8] (Rust core). *)
Definition len_utf8 (c : char) : nat :=
  if (c <? 128)%N then 1
  else if (c <? 2048)%N then 2
  else if (c <? 65536)%N then 3
  else 4.

(** [str::len]: length in bytes. *)
Fixpoint blen (t : text) : nat :=
  match t with
  | [] => 0
  | c :: r => len_utf8 c + blen r
  end.

(** [str::split_at]: [None] is the panic raised when the offset is past the end
    or not on a character boundary. *)
Fixpoint split_at (t : text) (n : nat) : option (text * text) :=
  match n with
  | O => Some ([], t)
  | _ =>
      match t with
      | [] => None
      | c :: r =>
          if n <? len_utf8 c then None
          else match split_at r (n - len_utf8 c) with
               | Some (a, b) => Some (c :: a, b)
               | None => None
               end
      end
  end.

(** [str::starts_with] for a string pattern. *)
Fixpoint starts_with (t p : text) {struct p} : bool :=
  match p, t with
  | [], _ => true
  | a :: p', b :: t' => N.eqb a b && starts_with t' p'
  | _ :: _, [] => false
  end.

(** [str::find] for a string pattern: byte offset of the first occurrence. *)
Fixpoint find_str (t p : text) : option nat :=
  if starts_with t p then Some 0
  else match t with
       | [] => None
       | c :: r => option_map (fun n => len_utf8 c + n) (find_str r p)
       end.

(** [str::find] for a [char] pattern. *)
Fixpoint find_char (t : text) (x : char) : option nat :=
  match t with
  | [] => None
  | c :: r => if N.eqb c x then Some 0 else option_map (fun n => len_utf8 c + n) (find_char r x)
  end.

(** [str::rfind] for a [char] pattern: byte offset of the last occurrence. *)
Fixpoint rfind_char (t : text) (x : char) : option nat :=
  match t with
  | [] => None
  | c :: r =>
      match rfind_char r x with
      | Some n => Some (len_utf8 c + n)
      | None => if N.eqb c x then Some 0 else None
      end
  end.

(** [s.matches(c).count()]. *)
Fixpoint count_char (t : text) (x : char) : nat :=
  match t with
  | [] => 0
  | c :: r => (if N.eqb c x then 1 else 0) + count_char r x
  end.

(** [chars().take_while(p).map(len_utf8).sum()]. *)
Fixpoint take_while_len (p : char -> bool) (t : text) : nat :=
  match t with
  | [] => 0
  | c :: r => if p c then len_utf8 c + take_while_len p r else 0
  end.

(** Text equality, used where the code matches on string literals. *)
Fixpoint text_eqb (a b : text) : bool :=
  match a, b with
  | [], [] => true
  | x :: a', y :: b' => N.eqb x y && text_eqb a' b'
  | _, _ => false
  end.

(** src/lib.rs:151-154 [Extent]. *)
Definition extent : Type := (nat * nat)%type.

(** src/lib.rs:180-194 [Index<Extent> for str]: [None] is a panic. *)
Definition slice (t : text) (e : extent) : option text :=
  match split_at t (snd e) with
  | None => None
  | Some (h, _) =>
      match split_at h (fst e) with
      | None => None
      | Some (_, m) => Some m
      end
  end.

(** ** Facts about text (no part of the model) *)

Lemma len_utf8_pos c : 0 < len_utf8 c.
Proof. unfold len_utf8; repeat destruct (_ <? _)%N; lia. Qed.

Lemma blen_app a b : blen (a ++ b) = blen a + blen b.
Proof. induction a; simpl; lia. Qed.

Lemma blen_nil t : blen t = 0 -> t = [].
Proof. destruct t as [|c t]; auto. simpl. pose proof (len_utf8_pos c); lia. Qed.

Lemma blen_length t : List.length t <= blen t.
Proof. induction t as [|c t]; simpl; auto. pose proof (len_utf8_pos c); lia. Qed.

Lemma split_at_app a b : split_at (a ++ b) (blen a) = Some (a, b).
Proof.
  induction a as [|c a IH]; simpl.
  - destruct b; reflexivity.
  - pose proof (len_utf8_pos c).
    destruct (len_utf8 c + blen a) eqn:E; [lia|].
    rewrite <- E.
    destruct (_ <? _) eqn:L; [apply Nat.ltb_lt in L; lia|].
    replace (len_utf8 c + blen a - len_utf8 c) with (blen a) by lia.
    now rewrite IH.
Qed.

Lemma split_at_inv t : forall n a b, split_at t n = Some (a, b) -> t = a ++ b /\ n = blen a.
Proof.
  induction t as [|c t IH]; intros [|n] a b H; cbn [split_at] in H.
  - inversion H; subst; auto.
  - discriminate.
  - inversion H; subst; auto.
  - pose proof (len_utf8_pos c).
    destruct (S n <? len_utf8 c) eqn:L; [discriminate|].
    apply Nat.ltb_ge in L.
    destruct (split_at t (S n - len_utf8 c)) as [[a' b']|] eqn:E; [|discriminate].
    inversion H; subst. apply IH in E as [-> E]. split; auto. cbn [blen].
    rewrite <- E. lia.
Qed.

Lemma starts_with_spec t p : starts_with t p = true <-> exists r, t = p ++ r.
Proof.
  revert t; induction p as [|x p IH]; intros t; simpl.
  - split; auto. intros _. exists t; reflexivity.
  - destruct t as [|y t].
    + split; [discriminate|]. intros [r H]; discriminate.
    + rewrite andb_true_iff, N.eqb_eq, IH. split.
      * intros [-> [r ->]]. eauto.
      * intros [r H]. inversion H; subst. eauto.
Qed.

Lemma starts_with_app p r : starts_with (p ++ r) p = true.
Proof. apply starts_with_spec; eauto. Qed.

Lemma text_eqb_eq a b : text_eqb a b = true <-> a = b.
Proof.
  revert b; induction a as [|x a IH]; intros [|y b]; simpl; split; intros H; try discriminate; auto.
  - apply andb_true_iff in H as [H1 H2]. apply N.eqb_eq in H1. apply IH in H2. congruence.
  - inversion H; subst. rewrite N.eqb_refl. simpl. now apply IH.
Qed.

Lemma take_while_len_spec p t :
  exists a b, t = a ++ b /\ take_while_len p t = blen a /\ forallb p a = true /\
              (b = [] \/ exists c r, b = c :: r /\ p c = false).
Proof.
  induction t as [|c t IH]; simpl.
  - exists [], []; auto.
  - destruct (p c) eqn:Pc.
    + destruct IH as (a & b & -> & E & F & B).
      exists (c :: a), b. simpl. rewrite Pc, E. auto.
    + exists [], (c :: t). simpl. repeat split; auto. right; eauto.
Qed.

Lemma take_while_len_app p a c r :
  forallb p a = true -> p c = false -> take_while_len p (a ++ c :: r) = blen a.
Proof.
  intros F Pc; induction a as [|x a IH]; simpl in *.
  - now rewrite Pc.
  - apply andb_true_iff in F as [-> F]. now rewrite IH.
Qed.

Lemma take_while_len_all p a : forallb p a = true -> take_while_len p a = blen a.
Proof.
  intros F; induction a as [|x a IH]; simpl in *; auto.
  apply andb_true_iff in F as [-> F]. now rewrite IH.
Qed.

Lemma find_char_spec t x :
  match find_char t x with
  | Some n => exists a r, t = a ++ x :: r /\ n = blen a /\ ~ In x a
  | None => ~ In x t
  end.
Proof.
  induction t as [|c t IH]; simpl; auto.
  destruct (N.eqb c x) eqn:E.
  - apply N.eqb_eq in E; subst. exists [], t; simpl; auto.
  - apply N.eqb_neq in E. destruct (find_char t x) as [n|]; simpl.
    + destruct IH as (a & r & -> & -> & NI). exists (c :: a), r. simpl.
      repeat split; auto. intros [H|H]; auto.
    + intros [H|H]; auto.
Qed.

Lemma rfind_char_spec t x :
  match rfind_char t x with
  | Some n => exists a r, t = a ++ x :: r /\ n = blen a /\ ~ In x r
  | None => ~ In x t
  end.
Proof.
  induction t as [|c t IH]; simpl; auto.
  destruct (rfind_char t x) as [n|].
  - destruct IH as (a & r & -> & -> & NI). exists (c :: a), r. simpl. auto.
  - destruct (N.eqb c x) eqn:E.
    + apply N.eqb_eq in E; subst. exists [], t; simpl; auto.
    + apply N.eqb_neq in E. intros [H|H]; auto.
Qed.

Lemma find_str_spec t p :
  match find_str t p with
  | Some n => exists a r, t = a ++ p ++ r /\ n = blen a /\
                          (forall a' r', t = a' ++ p ++ r' -> List.length a <= List.length a')
  | None => forall a r, t <> a ++ p ++ r
  end.
Proof.
  induction t as [|c t IH]; simpl.
  - destruct (starts_with [] p) eqn:S.
    + apply starts_with_spec in S as [r S]. exists [], r. simpl. repeat split; auto. intros; lia.
    + intros [|x a] r H; simpl in H; [|discriminate].
      rewrite H, starts_with_app in S. discriminate.
  - destruct (starts_with (c :: t) p) eqn:S.
    + apply starts_with_spec in S as [r S]. exists [], r. simpl. repeat split; auto. intros; lia.
    + destruct (find_str t p) as [n|]; simpl.
      * destruct IH as (a & r & -> & -> & M). exists (c :: a), r. simpl. repeat split; auto.
        intros [|y a'] r' H; simpl in *.
        -- rewrite H, starts_with_app in S. discriminate.
        -- inversion H. apply M in H2. lia.
      * intros [|y a] r H; simpl in *.
        -- rewrite H, starts_with_app in S. discriminate.
        -- inversion H. eapply IH; eauto.
Qed.

Lemma slice_app a m b : slice (a ++ m ++ b) (blen a, blen a + blen m) = Some m.
Proof.
  unfold slice; simpl. rewrite app_assoc. rewrite <- blen_app, split_at_app.
  now rewrite split_at_app.
Qed.
