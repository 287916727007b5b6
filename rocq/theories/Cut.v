(** Cutting an accepted text in front of an item: what follows is accepted and gives
    the remaining items, moved to their new positions. *)

From Coq Require Import String List Arith Bool Lia Sorted.
From Verif Require Import Base Peresil Token Tokenizer TokenizerSpec TokenizerWhole.
From Verif Require Import Schema Value Nt Grammar Points Table Typing Safety RunOk Apportion Lib FileToks Items Whitespace WhitespaceOk LibOk FileSpec Account.
From Verif Require Import Rel Layout Shift.
Import ListNotations.
Local Open Scope string_scope.
Local Open Scope list_scope.
Local Open Scope nat_scope.

(** An extent [n] bytes further on, and a tree with all its extents [n] bytes further on. *)
Definition later (n : nat) (e : extent) : extent := (n + fst e, n + snd e).
Definition moved (n : nat) (v : val) : val := vmap (later n) id_nat v.

(** * Tokens *)

Lemma part_later d off skip w : part_extent (d + off) skip w = option_map (later d) (part_extent off skip w).
Proof. destruct w; [reflexivity|]. cbn [part_extent option_map]. unfold later. cbn [fst snd]. now rewrite !Nat.add_assoc. Qed.

Lemma token_earlier X d s off t rest : token_at X s (d + off) t rest ->
  exists t0, token_at X s off t0 rest /\ t = tmap (later d) id_nat t0.
Proof.
  intros H. inversion H as [k w r E L|n r N]; subst.
  - exists (Tk k (off, off + blen w)). split; [now constructor|]. cbn [tmap]. unfold later. cbn [fst snd].
    now rewrite Nat.add_assoc.
  - destruct N as (rx & prefix & base & digits & frac & expo & suffix & E & R & D1 & D2 & D3 & F & P & S & ->).
    eexists. split.
    + apply at_number. exists rx, prefix, base, digits, frac, expo, suffix. repeat (split; [eassumption|]). reflexivity.
    + cbn [tmap]. unfold nmap. cbn [n_radix n_extent n_integral n_fractional n_exponent n_type_suffix n_underscores].
      rewrite <- !part_later. unfold later. cbn [fst snd]. unfold id_nat. now rewrite ?Nat.add_assoc.
Qed.

Lemma lexes_earlier X d s o ts : lexes X s o ts -> forall off, o = d + off ->
  exists ts0, lexes X s off ts0 /\ ts = map (tmap (later d) id_nat) ts0.
Proof.
  intros H. induction H as [o|s o t rest ts NE T L IH]; intros off ->.
  - exists [Tk KEndOfFile (off, off)]. split; [constructor|reflexivity].
  - destruct (token_earlier _ _ _ _ _ _ T) as (t0 & T0 & ->).
    destruct (IH (snd (token_extent t0))) as (ts0 & L0 & ->); [destruct t0; reflexivity|].
    exists (t0 :: ts0). split; [|reflexivity]. econstructor; eauto.
Qed.

Lemma lexes_from X : forall pre s o t post, lexes X s o (pre ++ t :: post) ->
  exists w rest, s = w ++ rest /\ fst (token_extent t) = o + blen w /\ lexes X rest (fst (token_extent t)) (t :: post).
Proof.
  induction pre as [|u pre IH]; intros s o t post L.
  - exists [], s. cbn [app] in L. split; [reflexivity|]. cbn [blen].
    assert (fst (token_extent t) = o) as ->; [|rewrite Nat.add_0_r; auto].
    apply lexes_step_inv in L as [(_ & _ & ->)|(_ & rest & T & _)]; [reflexivity|].
    destruct (token_at_fine _ _ _ _ _ T) as (w & _ & -> & _). reflexivity.
  - cbn [app] in L. apply lexes_step_inv in L as [(_ & E & _)|(_ & rest & T & L)]; [destruct pre; discriminate|].
    destruct (token_at_fine _ _ _ _ _ T) as (w & -> & E & _). rewrite E in L. cbn [snd] in L.
    destruct (IH _ _ _ _ L) as (w' & r' & -> & E' & L'). exists (w ++ w'), r'.
    split; [now rewrite app_assoc|]. rewrite blen_app. split; [lia|exact L'].
Qed.

Lemma filter_cut {A} (f : A -> bool) : forall l i t, nth_error (filter f l) i = Some t ->
  exists pre post, l = pre ++ t :: post /\ filter f (t :: post) = skipn i (filter f l) /\ f t = true.
Proof.
  induction l as [|x l IH]; intros i t H; [destruct i; discriminate|]. cbn [filter] in *. destruct (f x) eqn:F.
  - destruct i as [|i].
    + injection H as <-. exists [], l. cbn [app filter skipn]. rewrite F. auto.
    + cbn [nth_error] in H. destruct (IH _ _ H) as (pre & post & -> & E & T). exists (x :: pre), post. auto.
  - destruct (IH _ _ H) as (pre & post & -> & E & T). exists (x :: pre), post. auto.
Qed.

Lemma solid_later d ts : solid (map (tmap (later d) id_nat) ts) = map (tmap (later d) id_nat) (solid ts).
Proof.
  unfold solid. induction ts as [|t ts IH]; [reflexivity|]. cbn [map filter].
  assert (is_layout (tmap (later d) id_nat t) = is_layout t) as -> by (destruct t as [k e|n]; reflexivity).
  destruct (is_layout t); cbn [negb map]; now rewrite IH.
Qed.

(** * The item loop *)

Lemma items_cut toks : wf_toks toks -> forall pre post n pm p, valid toks p -> sub p = None -> pm_ok toks pm ->
  items_loop toks n pm p = ItemsOk (pre ++ post) ->
  exists m pm' q, n <= m + (off q - off p) /\ off p <= off q /\ m_state pm' = m_state pm /\ sub q = None /\ valid toks q /\ pm_ok toks pm' /\
    Forall (vin 0 (sb toks q)) pre /\ items_loop toks m pm' q = ItemsOk post.
Proof.
  intros WF. induction pre as [|v pre IH]; intros post n pm p V SN P H.
  - exists n, pm, p. repeat (split; [auto; lia|]). exact H.
  - destruct n as [|n]; [discriminate|]. cbn [items_loop] in H.
    destruct (match nth_error toks (off p) with Some t => is_kind KEndOfFile t | None => true end); [discriminate|].
    pose proof (item_ok toks WF p pm V P SN) as I.
    destruct (run table toks (parse_fuel (List.length toks)) item_grammar [] pm p) as [pm1 [q u|q e|w]]; cbn [finish] in H; try discriminate.
    + destruct I as (P1 & M1 & Vq & Lq & Sq & _ & Iv & _). rewrite (proj2 (Nat.ltb_lt _ _) Lq) in H.
      destruct (items_loop toks n pm1 q) as [l| |] eqn:R; try discriminate. injection H as <- ->.
      destruct (IH post n pm1 q Vq Sq P1 R) as (m & pm' & r & L1 & L2 & MS & S' & V' & P' & F' & R').
      exists m, pm', r. repeat (split; [auto; try lia; congruence|]). split; [|exact R']. constructor; [|exact F'].
      eapply vin_weaken; [| |exact Iv]; [lia|]. apply sb_mono; auto. unfold pos. rewrite S', Sq. cbn [sub_rank]. lia.
    + destruct (nth_error toks (off (f_point (add_failure pt_lt (m_failures pm1) q e)))); discriminate.
Qed.

Lemma first_item toks : wf_toks toks -> forall n pm p v l, valid toks p -> sub p = None -> pm_ok toks pm ->
  items_loop toks n pm p = ItemsOk (v :: l) ->
  exists t b, nth_error toks (off p) = Some t /\ extent_of v = Some (fst (token_extent t), b).
Proof.
  intros WF n pm p v l V SN P H. destruct n as [|n]; [discriminate|]. cbn [items_loop] in H.
  destruct (match nth_error toks (off p) with Some t => is_kind KEndOfFile t | None => true end); [discriminate|].
  pose proof (item_ok toks WF p pm V P SN) as I.
  destruct (run table toks (parse_fuel (List.length toks)) item_grammar [] pm p) as [pm1 [q u|q e|w]]; cbn [finish] in H; try discriminate.
  - destruct I as (P1 & M1 & Vq & Lq & Sq & _ & _ & first & last & F1 & _ & E). rewrite (proj2 (Nat.ltb_lt _ _) Lq) in H.
    destruct (items_loop toks n pm1 q) as [l'| |]; try discriminate. injection H as <- ->. eauto.
  - destruct (nth_error toks (off (f_point (add_failure pt_lt (m_failures pm1) q e)))); discriminate.
Qed.

Lemma items_shift kk dd toks1 toks2 : map (tmap (er dd) eu) toks1 = skipn kk toks2 ->
  forall n m, n <= m -> forall pm pm' p, m_state pm = m_state pm' ->
  match items_loop toks1 n pm p with
  | ItemsOk l => items_loop toks2 m pm' (sh kk p) = ItemsOk (map (smap kk dd) l)
  | ItemsErr _ _ => forall l, items_loop toks2 m pm' (sh kk p) <> ItemsOk l
  | ItemsAbort _ => True
  end.
Proof.
  intros HT. assert (LL : List.length toks1 <= List.length toks2).
  { apply (f_equal (@List.length _)) in HT. rewrite map_length, skipn_length in HT. lia. }
  induction n as [|n IH]; intros m L pm pm' p MS; [exact I|]. destruct m as [|m]; [lia|]. cbn [items_loop].
  assert (K : match nth_error toks2 (off (sh kk p)) with Some t => is_kind KEndOfFile t | None => true end =
              match nth_error toks1 (off p) with Some t => is_kind KEndOfFile t | None => true end).
  { pose proof (f_equal (fun l => nth_error l (off p)) HT) as H. cbn beta in H. rewrite nth_error_map, nth_skipn in H.
    cbn [sh off]. rewrite <- H. destruct (nth_error toks1 (off p)) as [[|]|]; reflexivity. }
  rewrite K. destruct (match nth_error toks1 (off p) with Some t => is_kind KEndOfFile t | None => true end); [reflexivity|].
  assert (FL : parse_fuel (List.length toks1) <= parse_fuel (List.length toks2)) by (unfold parse_fuel; lia).
  pose proof (Shift.run_rel kk dd toks1 toks2 HT table _ _ FL item_grammar [] [] eq_refl pm pm' p MS) as R.
  destruct (run table toks1 (parse_fuel (List.length toks1)) item_grammar [] pm p) as [pm1 r1],
           (run table toks2 (parse_fuel (List.length toks2)) item_grammar [] pm' (sh kk p)) as [pm2 r2].
  destruct R as [R|[M R]]; cbn [fst snd] in *; [rewrite R; exact I|].
  destruct R as [q a b H|q e|w]; cbn [finish]; [| |exact I].
  - assert ((off (sh kk p) <? off (sh kk q)) = (off p <? off q)) as ->.
    { cbn [sh off]. destruct (Nat.ltb_spec (off p) (off q)), (Nat.ltb_spec (kk + off p) (kk + off q)); try reflexivity; lia. }
    destruct (off p <? off q); [|exact I]. specialize (IH m ltac:(lia) pm1 pm2 q M).
    destruct (items_loop toks1 n pm1 q) as [l|l es|w]; [| |exact I].
    + rewrite IH. cbn [map]. unfold vs in H. now rewrite H.
    + intros l'. destruct (items_loop toks2 m pm2 (sh kk q)) as [l2| |]; try discriminate. exfalso. now apply (IH l2).
  - match goal with |- context [nth_error toks1 ?i] => destruct (nth_error toks1 i) end; [|exact I]. intros l.
    match goal with |- context [nth_error toks2 ?i] => destruct (nth_error toks2 i) end; intros Q; discriminate Q.
Qed.

(** A tree has no parser positions in it. *)
Lemma smap_moved kk n v : forall t, public t = true -> typed v t -> smap kk n v = moved n v.
Proof.
  unfold moved. induction v as [e|b|i|p|m| | |x IHx|l IHl|a b IHa IHb|k fs IHfs|e k p IHp] using val_ind'; intros t P T; try reflexivity.
  - inversion T; subst. discriminate.
  - inversion T as [| | | | | | |x' t' Tx| | | | |]; subst. cbn [smap vmap]. f_equal. now apply (IHx t').
  - inversion T as [| | | | | | | |l' t' F| | | |]; subst. cbn [smap vmap]. f_equal. apply map_ext_in. intros x Ix.
    rewrite Forall_forall in IHl. apply (IHl x Ix t'); auto.
  - inversion T; subst. apply andb_true_iff in P as [P1 P2]. cbn [smap vmap]. f_equal; eauto.
  - inversion T as [| | | | | | | | | |k' fs' fields SF F| |]; subst. cbn [smap vmap]. f_equal. apply map_ext_in. intros x Ix.
    rewrite Forall_forall in IHfs. destruct (named_in _ _ _ F Ix) as (g & ty & fl & A & _ & Tx).
    apply (IHfs x Ix ty); [|exact Tx]. apply public_struct in SF; [|exact P]. apply public_fields in SF.
    unfold struct_ok in SF. apply andb_true_iff in SF as [_ SF]. cbn [snd] in SF. rewrite forallb_forall in SF. specialize (SF _ A). cbn [fst snd] in SF.
    now apply andb_true_iff in SF as [SF _].
  - inversion T as [| | | | | | | | | | |e' v' p' vs' t' EV AS Tp|]; subst; [|reflexivity]. cbn [smap vmap]. f_equal.
    apply (IHp t'); [|exact Tp]. exact (public_variant _ _ _ _ (public_enum _ _ P EV) AS).
Qed.

(** * Whitespace *)

Definition moved_map (n : nat) (m : wsmap) : wsmap := map (fun x => (n + fst x, moved n (snd x))) m.
Definition from (n : nat) (m : wsmap) : wsmap := filter (fun x => n <=? fst x) m.

Lemma filter_moved n (f g : nat -> bool) m : (forall k, g (n + k) = f k) ->
  filter (fun x => g (fst x)) (moved_map n m) = moved_map n (filter (fun x => f (fst x)) m).
Proof.
  intros H. induction m as [|x m IH]; [reflexivity|]. cbn [moved_map map filter fst]. rewrite H.
  destruct (f (fst x)); cbn [map]; unfold moved_map in *; now rewrite IH.
Qed.

Lemma in_range_later n e k : in_range (later n e) (n + k) = in_range e k.
Proof.
  unfold in_range, later. cbn [fst snd].
  destruct (Nat.leb_spec (fst e) k), (Nat.leb_spec (n + fst e) (n + k)); try lia; cbn [andb]; try reflexivity.
  destruct (Nat.ltb_spec k (snd e)), (Nat.ltb_spec (n + k) (n + snd e)); try lia; reflexivity.
Qed.

Lemma in_range_from n e m : filter (fun x => in_range (later n e) (fst x)) m = filter (fun x => in_range (later n e) (fst x)) (from n m).
Proof.
  unfold from. rewrite filter_filter. apply filter_ext. intros x. unfold in_range, later. cbn [fst snd].
  destruct (Nat.leb_spec n (fst x)); [reflexivity|]. cbn [andb]. destruct (Nat.leb_spec (n + fst e) (fst x)); [lia|reflexivity].
Qed.

Lemma divvy_moved n e m1 m2 taken rest : from n m2 = moved_map n m1 -> divvy_up e m1 = BOk (taken, rest) ->
  exists rest2, divvy_up (later n e) m2 = BOk (map (moved n) taken, rest2) /\ from n rest2 = moved_map n rest.
Proof.
  unfold divvy_up. intros H. assert ((snd (later n e) <? fst (later n e)) = (snd e <? fst e)) as ->.
  { unfold later. cbn [fst snd]. destruct (Nat.ltb_spec (snd e) (fst e)), (Nat.ltb_spec (n + snd e) (n + fst e)); try lia; reflexivity. }
  destruct (snd e <? fst e); [discriminate|]. intros [= <- <-]. eexists. split.
  - rewrite in_range_from, H, (filter_moved n (in_range e) (in_range (later n e))) by (intros; apply in_range_later).
    unfold moved_map. rewrite !map_map. reflexivity.
  - unfold from in *. rewrite filter_filter.
    rewrite (filter_ext _ (fun x => (n <=? fst x) && negb (in_range (later n e) (fst x)))) by (intros; apply andb_comm).
    rewrite <- filter_filter, H.
    apply (filter_moved n (fun k => negb (in_range e k)) (fun k => negb (in_range (later n e) k))).
    intros k. now rewrite in_range_later.
Qed.

Lemma extend_nth_moved n taken : forall i fs fs', extend_nth i taken fs = BOk fs' ->
  extend_nth i (map (moved n) taken) (map (moved n) fs) = BOk (map (moved n) fs').
Proof.
  induction i as [|i IH]; intros [|x fs] fs' H; try discriminate.
  - destruct x; try discriminate. cbn [extend_nth] in H. injection H as <-.
    change (moved n (VList l)) with (VList (map (moved n) l)). cbn [map extend_nth]. unfold moved at 4. cbn [vmap].
    rewrite map_app. reflexivity.
  - cbn [extend_nth map] in *. destruct (extend_nth i taken fs) as [r|] eqn:R; [|discriminate]. cbn [bbind] in H.
    injection H as <-. rewrite (IH _ _ R). reflexivity.
Qed.

Lemma exit_moved n k fields fs m1 m2 v m1' : String.eqb k "File" = false -> from n m2 = moved_map n m1 ->
  exit_node k fields fs m1 = BOk (v, m1') ->
  exists m2', exit_node k fields (map (moved n) fs) m2 = BOk (moved n v, m2') /\ from n m2' = moved_map n m1'.
Proof.
  unfold exit_node. intros -> H. destruct (existsb (String.eqb k) handled).
  - change (VNode k (map (moved n) fs)) with (vmap (later n) id_nat (VNode k fs)). rewrite Rel.extent_of_map.
    destruct (extent_of (VNode k fs)) as [e|]; [|discriminate]. cbn [option_map].
    destruct (divvy_up e m1) as [[taken rest]|] eqn:D; [|discriminate]. cbn [bbind].
    destruct (divvy_moved _ _ _ _ _ _ H D) as (rest2 & -> & R). cbn [bbind]. unfold extend_whitespace.
    destruct (field_index "whitespace" fields) as [i|]; [|discriminate].
    destruct (extend_nth i taken fs) as [fs'|] eqn:E; [|discriminate]. cbn [bbind]. intros [= <- <-].
    rewrite (extend_nth_moved _ _ _ _ _ E). cbn [bbind]. eauto.
  - intros [= <- <-]. eauto.
Qed.

Lemma apportion_moved n v : forall t m1 m2 v' m1', typed v t -> nofile t = true -> from n m2 = moved_map n m1 ->
  apportion v m1 = BOk (v', m1') ->
  exists m2', apportion (moved n v) m2 = BOk (moved n v', m2') /\ from n m2' = moved_map n m1'.
Proof.
  induction v as [e|b|i|p|m| | |x IHx|l IHl|a b IHa IHb|k fs IHfs|e k p IHp] using val_ind'; intros t m1 m2 v' m1' T NF H A;
    try (injection A as <- <-; exists m2; split; [reflexivity|exact H]).
  - inversion T as [| | | | | | |x' t' Tx| | | | |]; subst. cbn [apportion] in A.
    destruct (apportion x m1) as [[y r]|] eqn:E; [|discriminate]. injection A as <- <-.
    destruct (IHx t' _ _ _ _ Tx NF H E) as (m2' & E2 & R). exists m2'. split; [|exact R].
    change (moved n (VSome x)) with (VSome (moved n x)). cbn [apportion]. rewrite E2. reflexivity.
  - inversion T as [| | | | | | | |l' t' F| | | |]; subst. rewrite apportion_list in A.
    destruct (ap_list l m1) as [[y r]|] eqn:E; [|discriminate]. injection A as <- <-.
    change (moved n (VList l)) with (VList (map (moved n) l)). rewrite apportion_list.
    enough (exists m2', ap_list (map (moved n) l) m2 = BOk (map (moved n) y, m2') /\ from n m2' = moved_map n r) as (m2' & -> & R) by (exists m2'; auto).
    clear T. revert m1 m2 y H E. induction l as [|x l IH]; intros m1 m2 y H E.
    { cbn in *. injection E as <- <-. eauto. }
    cbn [ap_list map] in *. inversion IHl as [|? ? Ix Il]; subst.
    destruct (apportion x m1) as [[x' r1]|] eqn:E1; [|discriminate]. cbn [bbind] in E.
    destruct (ap_list l r1) as [[y' r2]|] eqn:E2; [|discriminate]. injection E as <- <-.
    destruct (Ix t' _ _ _ _ (F x (or_introl eq_refl)) NF H E1) as (m2' & -> & R). cbn [bbind].
    destruct (IH Il (fun v I => F v (or_intror I)) _ _ _ R E2) as (m2'' & -> & R2). cbn [bbind]. exists m2''. auto.
  - inversion T as [| | | | | | | | | |k' fs' fields SF F| |]; subst. rewrite (apportion_node _ _ _ _ SF) in A.
    change (moved n (VNode k fs)) with (VNode k (map (moved n) fs)). rewrite (apportion_node _ _ _ _ SF).
    destruct (ap_fields fs fields m1) as [[y r]|] eqn:E; [|discriminate]. cbn [bbind] in A.
    enough (exists m2', ap_fields (map (moved n) fs) fields m2 = BOk (map (moved n) y, m2') /\ from n m2' = moved_map n r) as (m2' & -> & R).
    { cbn [bbind]. apply (exit_moved n k fields y r m2' v' m1'); auto. cbn [nofile] in NF. now apply negb_true_iff in NF. }
    pose proof (struct_nofile _ _ SF) as NFs. clear T A NF SF. revert m1 m2 y H E. induction F as [|x [[f ty] b] fs fields Tx F IH]; intros m1 m2 y H E.
    { cbn in *. injection E as <- <-. eauto. }
    cbn [ap_fields map] in *. inversion IHfs as [|? ? Ix Il]; subst. cbn [forallb fst snd] in NFs, Tx. apply andb_true_iff in NFs as [N1 N2].
    destruct (if b then apportion x m1 else BOk (x, m1)) as [[x' r1]|] eqn:E1; [|discriminate]. cbn [bbind] in E.
    destruct (ap_fields fs fields r1) as [[y' r2]|] eqn:E2; [|discriminate]. injection E as <- <-.
    assert (exists m2', (if b then apportion (moved n x) m2 else BOk (moved n x, m2)) = BOk (moved n x', m2') /\ from n m2' = moved_map n r1) as (m2' & -> & R).
    { destruct b; [exact (Ix ty _ _ _ _ Tx N1 H E1)|]. injection E1 as <- <-. eauto. }
    cbn [bbind]. destruct (IH Il N2 _ _ _ R E2) as (m2'' & -> & R2). cbn [bbind]. exists m2''. auto.
  - assert (exists t', typed p t' /\ nofile t' = true) as (t' & Tp & N').
    { inversion T as [| | | | | | | | | | |e' v'' p' vs' t' EV AS Tp|]; subst; [|exists TUnit; split; [constructor|reflexivity]].
      exists t'. split; [exact Tp|]. eapply enum_nofile; eauto. }
    cbn [apportion] in A. destruct (apportion p m1) as [[y r]|] eqn:E; [|discriminate]. injection A as <- <-.
    destruct (IHp t' _ _ _ _ Tp N' H E) as (m2' & E2 & R). exists m2'. split; [|exact R].
    change (moved n (VVar e k p)) with (VVar e k (moved n p)). cbn [apportion]. rewrite E2. reflexivity.
Qed.

(** What ends before [n] takes nothing from there on. *)
Lemma exit_ext k fields fs m e m' : exit_node k fields fs m <> BOk (VExt e, m').
Proof.
  unfold exit_node, extend_whitespace. destruct (String.eqb k "File"); [|destruct (existsb (String.eqb k) handled)].
  - destruct (field_index "whitespace" fields); [|discriminate]. destruct (extend_nth _ _ _); discriminate.
  - destruct (extent_of _); [|discriminate]. destruct (divvy_up _ _) as [[]|]; [|discriminate]. cbn [bbind].
    destruct (field_index "whitespace" fields); [|discriminate]. destruct (extend_nth _ _ _); discriminate.
  - discriminate.
Qed.

Lemma apportion_ext v m e m' : apportion v m = BOk (VExt e, m') -> v = VExt e.
Proof.
  destruct v as [e'| | | | | | |x|l| |k fs|en k p]; intros A; try (injection A as A _; congruence); try discriminate.
  - cbn [apportion] in A. destruct (apportion x m) as [[]|]; discriminate.
  - rewrite apportion_list in A. destruct (ap_list l m) as [[]|]; discriminate.
  - destruct (struct_fields k) as [fields|] eqn:SF; [|cbn [apportion] in A; rewrite SF in A; discriminate].
    rewrite (apportion_node _ _ _ _ SF) in A. destruct (ap_fields fs fields m) as [[fs' m1]|]; [|discriminate].
    now apply exit_ext in A.
  - cbn [apportion] in A. destruct (apportion p m) as [[]|]; discriminate.
Qed.

Lemma divvy_before n e m taken rest : snd e <= n -> divvy_up e m = BOk (taken, rest) -> from n rest = from n m.
Proof.
  unfold divvy_up. intros L. destruct (snd e <? fst e); [discriminate|]. intros [= <- <-]. unfold from. rewrite filter_filter.
  apply filter_ext. intros x. unfold in_range. destruct (Nat.leb_spec n (fst x)); [|now rewrite andb_false_r].
  destruct (Nat.ltb_spec (fst x) (snd e)); [lia|]. now rewrite andb_false_r.
Qed.

Lemma exit_before n k fields fs m v m' : String.eqb k "File" = false ->
  (forall e, extent_of (VNode k fs) = Some e -> snd e <= n) -> exit_node k fields fs m = BOk (v, m') -> from n m' = from n m.
Proof.
  unfold exit_node. intros -> H. destruct (existsb (String.eqb k) handled); [|intros [= _ <-]; reflexivity].
  destruct (extent_of (VNode k fs)) as [e|]; [|discriminate]. destruct (divvy_up e m) as [[taken rest]|] eqn:D; [|discriminate]. cbn [bbind].
  destruct (extend_whitespace k fields fs taken); [|discriminate]. intros [= _ <-]. eapply divvy_before; eauto.
Qed.

Lemma apportion_before n v : forall t m v' m', typed v t -> nofile t = true -> vin 0 n v ->
  apportion v m = BOk (v', m') -> from n m' = from n m.
Proof.
  induction v as [e|b|i|p|x| | |x IHx|l IHl|a b IHa IHb|k fs IHfs|e k p IHp] using val_ind'; intros t m v' m' T NF V A;
    try (injection A as _ <-; reflexivity).
  - inversion T as [| | | | | | |x' t' Tx| | | | |]; subst. cbn [apportion] in A.
    destruct (apportion x m) as [[y r]|] eqn:E; [|discriminate]. injection A as _ <-. eapply (IHx t'); eauto.
  - inversion T as [| | | | | | | |l' t' F| | | |]; subst. rewrite apportion_list in A.
    destruct (ap_list l m) as [[y r]|] eqn:E; [|discriminate]. injection A as _ <-.
    clear T. revert m y E. induction l as [|x l IH]; intros m y E.
    { cbn in *. injection E as _ <-. reflexivity. }
    cbn [ap_list] in *. inversion IHl as [|? ? Ix Il]; subst. unfold vin in V. cbn [extents flat_map] in V. apply Forall_app in V as [V1 V2].
    destruct (apportion x m) as [[x' r1]|] eqn:E1; [|discriminate]. cbn [bbind] in E.
    destruct (ap_list l r1) as [[y' r2]|] eqn:E2; [|discriminate]. injection E as _ <-.
    rewrite (IH Il V2 (fun v I => F v (or_intror I)) _ _ E2). exact (Ix t' _ _ _ (F x (or_introl eq_refl)) NF V1 E1).
  - inversion T as [| | | | | | | | | |k' fs' fields SF F| |]; subst. rewrite (apportion_node _ _ _ _ SF) in A.
    destruct (ap_fields fs fields m) as [[y r]|] eqn:E; [|discriminate]. cbn [bbind] in A.
    cbn [nofile] in NF. apply negb_true_iff in NF.
    assert (forall e, extent_of (VNode k y) = Some e -> snd e <= n) as XE.
    { intros e. destruct y as [|[ye| | | | | | | | | | |] y]; try discriminate. intros [= ->].
      destruct fs as [|x fs], fields as [|[[f ty] b] fields]; try discriminate. cbn [ap_fields] in E.
      destruct (if b then apportion x m else BOk (x, m)) as [[x' r1]|] eqn:E1; [|discriminate]. cbn [bbind] in E.
      destruct (ap_fields fs fields r1) as [[y' r2]|]; [|discriminate]. injection E as -> _ _.
      assert (x = VExt e) as -> by (destruct b; [now apply apportion_ext in E1|now injection E1 as -> _]).
      unfold vin in V. cbn [extents flat_map app] in V. inversion V as [|? ? W _]; subst. apply W. }
    rewrite (exit_before n k fields y r v' m' NF XE A). pose proof (struct_nofile _ _ SF) as NFs. clear T A NF SF XE.
    revert m y E. induction F as [|x [[f ty] b] fs fields Tx F IH]; intros m y E.
    { cbn in *. injection E as _ <-. reflexivity. }
    cbn [ap_fields] in *. inversion IHfs as [|? ? Ix Il]; subst. cbn [forallb fst snd] in NFs, Tx. apply andb_true_iff in NFs as [N1 N2].
    unfold vin in V. cbn [extents flat_map] in V. apply Forall_app in V as [V1 V2].
    destruct (if b then apportion x m else BOk (x, m)) as [[x' r1]|] eqn:E1; [|discriminate]. cbn [bbind] in E.
    destruct (ap_fields fs fields r1) as [[y' r2]|] eqn:E2; [|discriminate]. injection E as _ <-.
    rewrite (IH Il V2 N2 _ _ E2). destruct b; [exact (Ix ty _ _ _ Tx N1 V1 E1)|]. now injection E1 as _ <-.
  - assert (exists t', typed p t' /\ nofile t' = true) as (t' & Tp & N').
    { inversion T as [| | | | | | | | | | |e' v'' p' vs' t' EV AS Tp|]; subst; [|exists TUnit; split; [constructor|reflexivity]].
      exists t'. split; [exact Tp|]. eapply enum_nofile; eauto. }
    cbn [apportion] in A. destruct (apportion p m) as [[y r]|] eqn:E; [|discriminate]. injection A as _ <-. eapply (IHp t'); eauto.
Qed.

Lemma exit_incl k fields fs m v m' : exit_node k fields fs m = BOk (v, m') -> incl m' m.
Proof.
  unfold exit_node. destruct (String.eqb k "File"); [|destruct (existsb (String.eqb k) handled)].
  - destruct (extend_whitespace _ _ _ _); [|discriminate]. intros [= _ <-] x [].
  - destruct (extent_of (VNode k fs)) as [e|]; [|discriminate]. unfold divvy_up. destruct (snd e <? fst e); [discriminate|]. cbn [bbind].
    destruct (extend_whitespace _ _ _ _); [|discriminate]. intros [= _ <-] x Ix. now apply filter_In in Ix.
  - intros [= _ <-]. apply incl_refl.
Qed.

Lemma apportion_incl v : forall m v' m', apportion v m = BOk (v', m') -> incl m' m.
Proof.
  induction v as [e|b|i|p|x| | |x IHx|l IHl|a b IHa IHb|k fs IHfs|e k p IHp] using val_ind'; intros m v' m' A;
    try (injection A as _ <-; apply incl_refl).
  - cbn [apportion] in A. destruct (apportion x m) as [[y r]|] eqn:E; [|discriminate]. injection A as _ <-. eauto.
  - rewrite apportion_list in A. destruct (ap_list l m) as [[y r]|] eqn:E; [|discriminate]. injection A as _ <-.
    revert m y E. induction l as [|x l IH]; intros m y E; [cbn in E; injection E as _ <-; apply incl_refl|].
    inversion IHl as [|? ? Ix Il]; subst. cbn [ap_list] in E. destruct (apportion x m) as [[x' r1]|] eqn:E1; [|discriminate]. cbn [bbind] in E.
    destruct (ap_list l r1) as [[y' r2]|] eqn:E2; [|discriminate]. injection E as _ <-. eapply incl_tran; [eapply IH; eauto|eauto].
  - destruct (struct_fields k) as [fields|] eqn:SF; [|cbn [apportion] in A; rewrite SF in A; discriminate].
    rewrite (apportion_node _ _ _ _ SF) in A. destruct (ap_fields fs fields m) as [[y r]|] eqn:E; [|discriminate]. cbn [bbind] in A.
    apply exit_incl in A. eapply incl_tran; [exact A|]. clear A SF. revert fields m y E.
    induction fs as [|x fs IH]; intros [|[[f ty] b] fields] m y E; try discriminate; [cbn in E; injection E as _ <-; apply incl_refl|].
    inversion IHfs as [|? ? Ix Il]; subst. cbn [ap_fields] in E.
    destruct (if b then apportion x m else BOk (x, m)) as [[x' r1]|] eqn:E1; [|discriminate]. cbn [bbind] in E.
    destruct (ap_fields fs fields r1) as [[y' r2]|] eqn:E2; [|discriminate]. injection E as _ <-. eapply incl_tran; [eapply IH; eauto|].
    destruct b; [eauto|]. injection E1 as _ <-. apply incl_refl.
  - cbn [apportion] in A. destruct (apportion p m) as [[y r]|] eqn:E; [|discriminate]. injection A as _ <-. eauto.
Qed.

Lemma ap_list_incl : forall l m l' m', ap_list l m = BOk (l', m') -> incl m' m.
Proof.
  intros l m l' m' E. apply (apportion_incl (VList l) m (VList l') m'). rewrite apportion_list, E. reflexivity.
Qed.

Lemma filter_map_entries (p : nat -> bool) m : (forall x : nat * val, In x m -> fst x = start_of (snd x)) ->
  map snd (filter (fun x => p (fst x)) m) = filter (fun w => p (start_of w)) (map snd m).
Proof.
  induction m as [|x m IH]; intros H; [reflexivity|]. cbn [filter map]. rewrite <- (H x (or_introl eq_refl)).
  destruct (p (fst x)); cbn [map]; rewrite IH; auto; intros y Iy; apply H; now right.
Qed.

(** * Files *)

Lemma items_strip l ws parsed : strip (VNode "File" [VList l; VList ws]) = strip (VNode "File" [VList parsed; VList []]) ->
  map strip l = map strip parsed.
Proof. rewrite !strip_node. cbn. intros [= S]. exact S. Qed.

Lemma ap_list_app : forall a b m l m', ap_list (a ++ b) m = BOk (l, m') ->
  exists a' m1 b', ap_list a m = BOk (a', m1) /\ ap_list b m1 = BOk (b', m') /\ l = a' ++ b' /\ List.length a' = List.length a.
Proof.
  induction a as [|x a IH]; intros b m l m' E.
  - exists [], m, l. auto.
  - cbn [app ap_list] in *. destruct (apportion x m) as [[x' m1]|]; [|discriminate]. cbn [bbind] in *.
    destruct (ap_list (a ++ b) m1) as [[y m2]|] eqn:E2; [|discriminate]. injection E as <- <-.
    destruct (IH _ _ _ _ E2) as (a' & m3 & b' & -> & B & -> & L). exists (x' :: a'), m3, b'. cbn [bbind app List.length]. auto.
Qed.

Lemma before_list n : forall l m l' m', Forall (fun v => typed v (TN "Attributed<Item>")) l -> Forall (vin 0 n) l ->
  ap_list l m = BOk (l', m') -> from n m' = from n m.
Proof.
  induction l as [|x l IH]; intros m l' m' T V E; [cbn in E; now injection E as _ <-|].
  inversion T; inversion V; subst. cbn [ap_list] in E. destruct (apportion x m) as [[x' m1]|] eqn:E1; [|discriminate]. cbn [bbind] in E.
  destruct (ap_list l m1) as [[y m2]|] eqn:E2; [|discriminate]. injection E as _ <-.
  rewrite (IH _ _ _ ltac:(assumption) ltac:(assumption) E2). eapply (apportion_before n x (TN "Attributed<Item>")); eauto.
Qed.

Lemma file_shape X code ts f : tokenize X code = TokOk ts -> parse_rust_file X code = FileOk f ->
  exists parsed items left, parse_items (solid ts) = ItemsOk parsed /\
    ap_list parsed (fst (partition_tokens ts [])) = BOk (items, left) /\ f = VNode "File" [VList items; VList (map snd left)].
Proof.
  intros T P. unfold parse_rust_file in P. rewrite T in P. pose proof (partition_filter ts []) as PF.
  destruct (partition_tokens ts []) as [ws toks]. cbn [fst snd] in *. rewrite PF, solid_significant in P.
  destruct (parse_items (solid ts)) as [parsed| |]; try discriminate. exists parsed.
  rewrite (apportion_node "File" _ _ _ eq_refl) in P. cbn [ap_fields] in P. rewrite apportion_list in P.
  destruct (ap_list parsed ws) as [[items left]|]; [|discriminate]. cbn [bbind apportion] in P. cbn in P.
  injection P as <-. eauto 6.
Qed.

Lemma parsed_items X code ts l : xid_sane X -> tokenize X code = TokOk ts -> parse_items (solid ts) = ItemsOk l ->
  exists f, parse_rust_file X code = FileOk f.
Proof.
  intros XS T P. pose proof (file_total X XS code) as N. unfold parse_rust_file in *. rewrite T in *.
  pose proof (partition_filter ts []) as PF. destruct (partition_tokens ts []) as [ws toks]. cbn [snd] in PF.
  rewrite PF, solid_significant, P in *. destruct (apportion _ _) as [[f [|]]|w]; eauto; exfalso; now apply (N _ eq_refl).
Qed.

Lemma whitespace_map X code ts : xid_sane X -> tokenize X code = TokOk ts -> fst (partition_tokens ts []) = map entry (ws_entries ts).
Proof.
  intros XS T. pose proof T as T'. apply tokenize_iff in T'; [|exact XS]. destruct (lexes_fine _ _ _ _ T') as (_ & SS & W & _).
  destruct (tokens_tile _ _ _ T) as (init & TI & _ & NEi & _).
  apply (partition_map ts [] SS); [|constructor].
  rewrite TI. apply Forall_app. split; [eapply Forall_impl; [|exact NEi]; auto|]. constructor; [discriminate|constructor].
Qed.

Lemma ws_entries_later n ts : map entry (ws_entries (map (tmap (later n) id_nat) ts)) = moved_map n (map entry (ws_entries ts)).
Proof.
  unfold ws_entries. induction ts as [|t ts IH]; [reflexivity|]. cbn [map flat_map]. rewrite !map_app. unfold moved_map in *. rewrite map_app, IH. f_equal.
  destruct t as [k e|m]; [|reflexivity]. destruct k; reflexivity.
Qed.

Lemma from_all n m : Forall (fun x => n <= fst x) m -> from n m = m.
Proof.
  induction 1 as [|x m H _ IH]; [reflexivity|]. cbn [from filter]. rewrite (proj2 (Nat.leb_le _ _) H). unfold from in IH. now rewrite IH.
Qed.
Lemma from_none n m : Forall (fun x => fst x < n) m -> from n m = [].
Proof.
  induction 1 as [|x m H _ IH]; [reflexivity|]. cbn [from filter]. destruct (Nat.leb_spec n (fst x)); [lia|exact IH].
Qed.

Lemma entries_keys ts : forall x, In x (map entry (ws_entries ts)) -> exists t, In t ts /\ significant t = false /\ fst x = fst (token_extent t).
Proof.
  intros x H. apply in_map_iff in H as (w & <- & H). unfold ws_entries in H. apply in_flat_map in H as (t & It & H).
  exists t. split; [exact It|]. unfold significant. destruct (whitespace_node t) as [w'|] eqn:W; [|destruct H]. destruct H as [<-|[]]. split; [reflexivity|].
  destruct (whitespace_node_spec _ _ W) as (_ & E & _). unfold entry, start_of. cbn [fst]. now rewrite E.
Qed.

Lemma moved_list n : forall l m1 m2 l' m1', Forall (fun v => typed v (TN "Attributed<Item>")) l -> from n m2 = moved_map n m1 ->
  ap_list l m1 = BOk (l', m1') ->
  exists m2', ap_list (map (moved n) l) m2 = BOk (map (moved n) l', m2') /\ from n m2' = moved_map n m1'.
Proof.
  induction l as [|x l IH]; intros m1 m2 l' m1' T H E.
  - cbn in *. injection E as <- <-. eauto.
  - inversion T as [|? ? T1 T2]; subst. cbn [ap_list map] in *. destruct (apportion x m1) as [[x' r1]|] eqn:E1; [|discriminate]. cbn [bbind] in E.
    destruct (ap_list l r1) as [[y r2]|] eqn:E2; [|discriminate]. injection E as <- <-.
    destruct (apportion_moved n x _ _ _ _ _ T1 eq_refl H E1) as (m2' & -> & R). cbn [bbind].
    destruct (IH _ _ _ _ T2 R E2) as (m2'' & -> & R2). cbn [bbind]. exists m2''. auto.
Qed.

Lemma map_filter_entries n m1 m2 : moved_map n m1 = from n m2 -> map snd (from n m2) = map (moved n) (map snd m1).
Proof. intros <-. unfold moved_map. now rewrite !map_map. Qed.

(** The items from one that starts at offset [a] on, and the layout behind that offset. *)
Theorem cut_at_item X head tail items ws pre v post b : xid_sane X ->
  parse_rust_file X (head ++ tail) = FileOk (VNode "File" [VList items; VList ws]) -> items = pre ++ v :: post ->
  extent_of v = Some (blen head, b) ->
  exists items' ws', parse_rust_file X tail = FileOk (VNode "File" [VList items'; VList ws']) /\
    v :: post = map (moved (blen head)) items' /\
    filter (fun w => blen head <=? start_of w) ws = map (moved (blen head)) ws'.
Proof.
  intros XS A G E. remember (blen head) as a eqn:B. symmetry in B.
  destruct (file_accepted X XS _ _ A) as (ts & parsed & T & P & F).
  destruct (file_shape X _ ts _ T A) as (parsed' & items0 & left & P' & AP & EF).
  rewrite P in P'. injection P' as <-. injection EF as <- ->.
  destruct (tokens_wf X _ ts _ _ XS T (surjective_pairing _)) as [WF W].
  rewrite partition_filter, solid_significant in WF, W.
  assert (exists pre' rest', parsed = pre' ++ rest' /\ List.length pre' = List.length pre) as (pre' & rest' & EP & LP).
  { exists (firstn (List.length pre) parsed), (skipn (List.length pre) parsed). split; [now rewrite firstn_skipn|].
    apply firstn_length_le. assert (List.length items = List.length parsed) as L.
    { clear - AP. revert AP. generalize (fst (partition_tokens ts [])). revert items left. induction parsed as [|x l IH]; intros items left m AP.
      - cbn in AP. now injection AP as <- _.
      - cbn [ap_list] in AP. destruct (apportion x m) as [[x' m1]|]; [|discriminate]. cbn [bbind] in AP.
        destruct (ap_list l m1) as [[y m2]|] eqn:E; [|discriminate]. injection AP as <- _. cbn [List.length]. f_equal. eauto. }
    rewrite <- L, G, app_length. lia. }
  subst parsed. destruct (ap_list_app _ _ _ _ _ AP) as (apre & m1 & apost & AP1 & AP2 & EI & LA).
  assert (apre = pre /\ apost = v :: post) as [-> ->].
  { rewrite EI in G. assert (LL : List.length apre = List.length pre) by congruence. clear - G LL. revert pre G LL.
    induction apre as [|x l IH]; intros [|y pre] G LL; try discriminate; [auto|]. cbn [app] in G. injection G as -> G.
    destruct (IH pre G) as [-> ->]; auto. }
  pose proof (fo_parsed _ _ _ _ _ F) as TP. apply Forall_app in TP as [TP1 TP2].
  destruct rest' as [|v' post']; [cbn in AP2; discriminate|].
  assert (E' : extent_of v' = Some (a, b)).
  { pose proof (items_strip _ _ _ (fo_strip _ _ _ _ _ F)) as S. rewrite EI, !map_app in S.
    assert (S' : map strip (v :: post) = map strip (v' :: post')).
    { assert (LL : List.length (map strip pre) = List.length (map strip pre')) by (rewrite !map_length; congruence).
      clear - S LL. revert S LL. generalize (map strip pre), (map strip pre'), (map strip (v :: post)), (map strip (v' :: post')).
      induction l as [|x l IH]; intros [|y l0] l1 l2 S LL; try discriminate; [exact S|]. cbn [app] in S. injection S as -> S.
      injection LL as LL. now apply (IH l0). }
    cbn [map] in S'. injection S' as S' _. inversion TP2 as [|? ? TV _]; subst.
    rewrite <- (item_strip_extent v' TV), <- S', item_strip_extent; [exact E|].
    pose proof (fo_typed _ _ _ _ _ F) as TF. destruct (typed_struct _ _ _ TF eq_refl eq_refl) as (fs & EFs & FF). injection EFs as <-.
    inversion FF as [|x ? fs' ? Hx F']; subst. cbn [fst snd] in Hx. inversion Hx as [| | | | | | | |l' t' Hl| | | |]; subst. apply Hl, in_app_iff. right. now left. }
  unfold parse_items in P.
  destruct (items_cut _ WF pre' (v' :: post') _ _ pt_zero (valid_zero _ WF) eq_refl (pm_ok_new _ WF Unambiguous) P)
    as (m & pm' & q & L1 & L2 & MS & SQ & VQ & PQ & FQ & R).
  destruct (first_item _ WF _ _ _ _ _ VQ SQ PQ R) as (t & b' & N & E2). rewrite E2 in E'. injection E' as E3 _.
  assert (SBQ : sb (solid ts) q = a).
  { unfold sb. rewrite N. unfold sub_rank. rewrite SQ. lia. }
  rewrite SBQ in FQ.
  pose proof (whitespace_map X _ ts XS T) as WM. pose proof T as T'. apply tokenize_iff in T'; [|exact XS].
  destruct (lexes_fine _ _ _ _ T') as (_ & SS & _ & _).
  destruct (tokens_tile _ _ _ T) as (init & TI & _ & NEi & _).
  destruct (filter_cut _ _ _ _ N) as (tpre & tpost & ET & SK & ST).
  rewrite ET in T'.
  destruct (lexes_from _ _ _ _ _ _ T') as (w & rest & EC & EW & LX).
  assert (w = head /\ rest = tail) as [-> ->].
  { cbn [Nat.add] in EW. assert (LW : blen w = blen head) by congruence. clear - EC LW. symmetry in EC.
    revert head EC LW. induction w as [|c w IH]; intros [|d head] EC LW; cbn [app blen] in *; auto.
    - pose proof (len_utf8_pos d). lia.
    - pose proof (len_utf8_pos c). lia.
    - injection EC as -> EC. destruct (IH head EC) as [-> ->]; [lia|auto]. }
  rewrite E3 in LX. destruct (lexes_earlier X a _ _ _ LX 0) as (ts0 & L0 & E0); [lia|].
  assert (T0 : tokenize X tail = TokOk ts0) by (now apply tokenize_iff).
  assert (HT : map (tmap (er a) eu) (solid ts0) = skipn (off q) (solid ts)).
  { change (skipn (off q) (solid ts)) with (skipn (off q) (filter (fun t => negb (is_layout t)) ts)).
    rewrite <- SK. change (filter (fun t => negb (is_layout t)) (t :: tpost)) with (solid (t :: tpost)).
    rewrite E0, solid_later. reflexivity. }
  destruct (tokens_wf X _ ts0 _ _ XS T0 (surjective_pairing _)) as [WF0 W0].
  rewrite partition_filter, solid_significant in WF0, W0.
  assert (LN : S (List.length (solid ts0)) <= m).
  { apply (f_equal (@List.length _)) in HT. rewrite map_length, skipn_length in HT. cbn [pt_zero off] in *.
    pose proof (valid_lt _ _ VQ). lia. }
  pose proof (items_shift _ _ _ _ HT _ _ LN (new_master pt_zero Unambiguous) pm' pt_zero (eq_sym MS)) as SH.
  assert (sh (off q) pt_zero = q) as SHQ by (destruct q as [o s]; cbn [sub] in SQ; subst s; unfold sh; cbn [off sub pt_zero]; now rewrite Nat.add_0_r).
  rewrite SHQ, R in SH.
  pose proof (parse_items_ok _ WF0 _ W0) as NA. unfold parse_items in NA.
  destruct (items_loop (solid ts0) (S (List.length (solid ts0))) (new_master pt_zero Unambiguous) pt_zero) as [l|l es|w'] eqn:I0;
    [| |contradiction].
  2:{ exfalso. now apply (SH _ eq_refl). }
  destruct (parsed_items X tail ts0 l XS T0 I0) as (f' & PF). destruct (file_accepted X XS _ f' PF) as (ts0' & l' & T0' & P0 & F0).
  rewrite T0 in T0'. injection T0' as <-. unfold parse_items in P0. rewrite I0 in P0. injection P0 as <-.
  destruct (file_shape X _ ts0 _ T0 PF) as (l' & items' & left' & P0 & AP0 & ->).
  unfold parse_items in P0. rewrite I0 in P0. injection P0 as <-.
  assert (SM : map (smap (off q) a) l = map (moved a) l).
  { apply map_ext_in. intros x Ix. apply (smap_moved _ _ _ (TN "Attributed<Item>")); [reflexivity|].
    pose proof (fo_parsed _ _ _ _ _ F0) as FP. rewrite Forall_forall in FP. auto. }
  injection SH as SH. rewrite SM in SH.
  assert (WS : from a (map entry (ws_entries ts)) = moved_map a (map entry (ws_entries ts0))).
  { rewrite ET. unfold ws_entries. rewrite flat_map_app, map_app. unfold from. rewrite filter_app.
    change (flat_map (fun t => match whitespace_node t with Some w => [w] | None => [] end)) with ws_entries.
    change (filter (fun x => a <=? fst x)) with (from a).
    assert (SS' : StronglySorted tok_le (tpre ++ t :: tpost)) by congruence.
    rewrite (from_none a (map entry (ws_entries tpre))).
    - cbn [app]. rewrite E0, ws_entries_later. apply from_all. apply Forall_forall. intros x Hx. unfold moved_map in Hx.
      apply in_map_iff in Hx as (y & <- & _). cbn [fst]. lia.
    - apply Forall_forall. intros x Hx. destruct (entries_keys _ _ Hx) as (u & Iu & _ & ->).
      assert (fst (token_extent u) < snd (token_extent u)) as NE.
      { rewrite Forall_forall in NEi. apply NEi. rewrite ET in TI.
        assert (I2 : In u (removelast (tpre ++ t :: tpost))) by (rewrite removelast_app by discriminate; apply in_app_iff; now left).
        rewrite TI, removelast_last in I2. exact I2. }
      assert (tok_le u t) as LE.
      { clear - SS' Iu. induction tpre as [|y tpre IH]; [destruct Iu|]. cbn [app] in SS'. inversion SS' as [|? ? S1 S2]; subst.
        destruct Iu as [->|Iu]; [|auto]. rewrite Forall_forall in S2. apply S2, in_app_iff. right. now left. }
      unfold tok_le in LE. lia. }
  rewrite (whitespace_map X _ ts0 XS T0) in AP0.
  assert (HM : from a m1 = moved_map a (map entry (ws_entries ts0))).
  { rewrite (before_list a _ _ _ _ TP1 FQ AP1), WM. exact WS. }
  pose proof (fo_parsed _ _ _ _ _ F0) as TL.
  destruct (moved_list a _ _ _ _ _ TL HM AP0) as (m2' & AP3 & HM2). rewrite <- SH, AP2 in AP3. injection AP3 as AP3 <-.
  exists items', (map snd left'). split; [exact PF|]. split; [exact AP3|].
  rewrite <- (map_filter_entries a left' left) by (now symmetry).
  unfold from. rewrite <- filter_map_entries; [reflexivity|]. intros x Ix. apply (ap_list_incl _ _ _ _ AP) in Ix. rewrite WM in Ix.
  apply in_map_iff in Ix as (w & <- & _). reflexivity.
Qed.
