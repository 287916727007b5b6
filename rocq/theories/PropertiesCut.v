(** C61: what stands in front of an item does not matter.

    Read with: Cut.v ([later], [moved]: a tree with every position moved by a number
    of bytes), Whitespace.v ([start_of]). *)

From Coq Require Import String List Arith Bool Lia.
From Verif Require Import Base Token Tokenizer TokenizerSpec Schema Value Grammar Lib Whitespace FileSpec Layout Rel Cut.
Import ListNotations.
Local Open Scope string_scope.
Local Open Scope list_scope.
Local Open Scope nat_scope.

(** [moved n] changes the extents of a tree and nothing else: to [n] bytes further on. *)
Lemma moved_extents n v : extents (moved n v) = map (later n) (extents v) /\ shape (moved n v) = shape v.
Proof.
  split.
  - unfold moved. induction v as [e|b|i|p|m| | |x IHx|l IHl|a b IHa IHb|k fs IHfs|e k p IHp] using val_ind'; try reflexivity.
    + cbn [vmap extents]. destruct m as [r e i [f|] [x|] [s|] u]; reflexivity.
    + exact IHx.
    + cbn [vmap extents]. induction IHl as [|x l Hx _ IH]; [reflexivity|]. cbn [map flat_map]. now rewrite map_app, Hx, IH.
    + cbn [vmap extents]. now rewrite map_app, IHa, IHb.
    + cbn [vmap extents]. induction IHfs as [|x l Hx _ IH]; [reflexivity|]. cbn [map flat_map]. now rewrite map_app, Hx, IH.
    + exact IHp.
  - unfold shape, moved. rewrite <- strip_vmap. generalize (strip v). clear v. intros v.
    induction v as [e|b|i|p|m| | |x IHx|l IHl|a b IHa IHb|k fs IHfs|e k p IHp] using val_ind'; try reflexivity; cbn [vmap]; try congruence.
    + destruct m as [r e i [f|] [x|] [s|] u]; reflexivity.
    + f_equal. rewrite map_map. apply map_ext_in. rewrite Forall_forall in IHl. exact IHl.
    + f_equal. rewrite map_map. apply map_ext_in. rewrite Forall_forall in IHfs. exact IHfs.
Qed.

(** A text is accepted, and one of its items starts behind [head].  Then the rest of
    the text on its own is accepted.  It gives that item and all later ones, whole and
    with the whitespace in them, at positions that are less by the length of [head];
    and it gives the layout between them. *)
Theorem C61_cut_at_item : forall X, xid_sane X -> forall head tail pre v post ws b,
  parse_rust_file X (head ++ tail) = FileOk (VNode "File" [VList (pre ++ v :: post); VList ws]) ->
  extent_of v = Some (blen head, b) ->
  exists items ws', parse_rust_file X tail = FileOk (VNode "File" [VList items; VList ws']) /\
    v :: post = map (moved (blen head)) items /\
    filter (fun w => blen head <=? start_of w) ws = map (moved (blen head)) ws'.
Proof. intros X XS head tail pre v post ws b H E. exact (cut_at_item X head tail _ ws pre v post b XS H eq_refl E). Qed.

(** The same item therefore gives the same tree, wherever it stands and whatever
    stands in front of it, so long as what follows is the same. *)
Theorem C61_items_in_front : forall X, xid_sane X -> forall head1 head2 tail pre1 v1 post1 ws1 b1 pre2 v2 post2 ws2 b2,
  parse_rust_file X (head1 ++ tail) = FileOk (VNode "File" [VList (pre1 ++ v1 :: post1); VList ws1]) ->
  parse_rust_file X (head2 ++ tail) = FileOk (VNode "File" [VList (pre2 ++ v2 :: post2); VList ws2]) ->
  extent_of v1 = Some (blen head1, b1) -> extent_of v2 = Some (blen head2, b2) ->
  map (moved (blen head2)) (v1 :: post1) = map (moved (blen head1)) (v2 :: post2).
Proof.
  intros X XS head1 head2 tail pre1 v1 post1 ws1 b1 pre2 v2 post2 ws2 b2 H1 H2 E1 E2.
  destruct (C61_cut_at_item X XS _ _ _ _ _ _ _ H1 E1) as (l1 & w1 & P1 & I1 & _).
  destruct (C61_cut_at_item X XS _ _ _ _ _ _ _ H2 E2) as (l2 & w2 & P2 & I2 & _).
  rewrite P1 in P2. injection P2 as <- _. rewrite I1, I2, !map_map. apply map_ext. intros x.
  assert (M : forall a b x, moved a (moved b x) = moved (a + b) x).
  { clear. intros a b. unfold moved. induction x as [e|b'|i|p|m| | |x IHx|l IHl|x y IHx IHy|k fs IHfs|e k p IHp] using val_ind'; try reflexivity; cbn [vmap]; try congruence.
    - unfold later. cbn [fst snd]. now rewrite !Nat.add_assoc.
    - destruct m as [r e i [f|] [x|] [s|] u]; unfold nmap, later; cbn; now rewrite !Nat.add_assoc.
    - f_equal. rewrite map_map. apply map_ext_in. rewrite Forall_forall in IHl. exact IHl.
    - f_equal. rewrite map_map. apply map_ext_in. rewrite Forall_forall in IHfs. exact IHfs. }
  now rewrite !M, Nat.add_comm.
Qed.

Example C61_ex :
  let head := str "#[a] fn f<T>() { 1 >> 2 } /*x*/ " in
  let tail := str "struct S { a: u8 } // y
const C: u8 = 7;" in
  exists v0 v1 v2 ws b, parse_rust_file ascii_xid (head ++ tail) = FileOk (VNode "File" [VList ([v0] ++ v1 :: [v2]); VList ws]) /\
    extent_of v1 = Some (blen head, b) /\ blen head = 32 /\ List.length ws = 6 /\
    List.length (filter (fun w => blen head <=? start_of w) ws) = 3.
Proof. cbv zeta. do 5 eexists. split; [vm_compute; reflexivity|]. repeat split; vm_compute; reflexivity. Qed.

Print Assumptions C61_cut_at_item.
Print Assumptions C61_items_in_front.
