(** Reading a sequence of tokens piece by piece, and the tactics that run the
    grammar on known tokens with the rules of [Sem] and the first sets of [First]. *)

From Coq Require Import String List NArith Arith Bool Lia.
From Verif Require Import Base Peresil Token Schema Value Nt Grammar Points Table Static Amb Sem First OutlineSpec.
Import ListNotations.
Local Open Scope string_scope.
Local Open Scope list_scope.
Local Open Scope nat_scope.

Section Reads.
  Variable toks : list token.

  (** Asking for [m] at [p] gives [v] and leads to [q]. *)
  Definition gets (p : point) (m : matcher) (q : point) (v : val) : Prop :=
    forall err pm, tok toks m err pm p = (pm, Success q v).

  Definition takes (p : point) (c : piece) (q : point) : Prop :=
    match c with
    | Sym k => exists x, gets p (MK k) q (VExt x)
    | Word k x => gets p (MK k) q (VExt x)
    | Num n => gets p MNumber q (VNum n)
    | Raw t => sub p = None /\ nth_error toks (off p) = Some t /\ q = at_ (off p + 1)
    end.

  Fixpoint reads (p : point) (cs : list piece) (q : point) : Prop :=
    match cs with
    | [] => p = q
    | c :: cs' => exists r, takes p c r /\ reads r cs' q
    end.

  Lemma reads_app p a b q : reads p (a ++ b) q <-> exists r, reads p a r /\ reads r b q.
  Proof.
    revert p. induction a as [|c a IH]; intros p; cbn [app reads].
    - split; [eauto|]. intros (r & -> & H). exact H.
    - split.
      + intros (r & T & H). apply IH in H as (s & A & B). eauto 6.
      + intros (s & (r & T & A) & B). exists r. split; [exact T|]. apply IH. eauto.
  Qed.

  Lemma sem_gets a m err e p q v : gets p m q v -> sem toks a (GTok m err) e p (SOk q v).
  Proof. intros G. apply sem_tok. intros pm. rewrite (G err pm). reflexivity. Qed.

  Lemma gets_fun p m q q' v v' : gets p m q v -> gets p m q' v' -> q = q' /\ v = v'.
  Proof.
    intros A B. specialize (A ExpectedIdent (new_master pt_zero Unambiguous)).
    rewrite (B ExpectedIdent (new_master pt_zero Unambiguous)) in A. now inversion A.
  Qed.

  Lemma gets_tok m i t v : nth_error toks i = Some t -> convert m t = Some v -> gets (at_ i) m (at_ (i + 1)) v.
  Proof. intros N C err pm. unfold tok, at_. cbn [off sub]. rewrite N, C. reflexivity. Qed.

  (** ** What else can stand where a piece was taken *)
  Definition omask (k : tkind) (s : option nat) : N :=
    match s with
    | None => N.lor bit_any (N.lor (bit k) (offered_at (Tk k (0, 0)) 0))
    | Some n =>
        match split (Tk k (0, 0)) n with
        | Some (_, b) => N.lor bit_any (N.lor (tbit b) (offered_at (Tk k (0, 0)) (S n)))
        | None => everything
        end
    end.

  (** Whether asking for kind [k'] succeeds at a token of kind [k], after [s]. *)
  Definition matched (k : tkind) (s : option nat) (k' : tkind) : bool :=
    let is t := match convert (MK k') t with Some _ => true | None => false end in
    match s with
    | None => is (Tk k (0, 0)) || match split (Tk k (0, 0)) 0 with Some (a, _) => is a | None => false end
    | Some n =>
        match split (Tk k (0, 0)) n with
        | Some (_, b) => is b || match split (Tk k (0, 0)) (S n) with Some (a, _) => is a | None => false end
        | None => false
        end
    end.
End Reads.

Definition points_of : list (option nat) := [None; Some 0; Some 1].

(** The union of what is offered wherever kind [k] can be taken. *)
Definition could (k : tkind) : N :=
  fold_right (fun k0 s0 => fold_right (fun s acc => if matched k0 s k then N.lor (omask k0 s) acc else acc) s0 points_of)
    0%N all_tkinds.

Definition could_list : list N := Eval vm_compute in map could all_tkinds.
Definition could_tbl (k : tkind) : N := nth (N.to_nat (tkind_index k)) could_list 0%N.

(** [subset a b]. *)
Definition subset (a b : N) : bool := N.eqb (N.land a b) a.

Definition number_mask : N := N.lor bit_any bit_number.
Definition pmask (c : piece) : N :=
  match c with
  | Sym k | Word k _ => could_tbl k
  | Num _ | Raw (TkNumber _) => number_mask
  | Raw (Tk k _) => omask k None
  end.

Lemma subset_disjoint a b c : subset a b = true -> disjoint b c -> disjoint a c.
Proof.
  unfold subset, disjoint. intros E D. apply N.eqb_eq in E. rewrite <- E, <- N.land_assoc, D. apply N.land_0_r.
Qed.

Lemma disjoint_sym a b : disjoint a b -> disjoint b a.
Proof. unfold disjoint. now rewrite N.land_comm. Qed.

Lemma could_ok k0 s k : In s points_of -> matched k0 s k = true -> subset (omask k0 s) (could_tbl k) = true.
Proof.
  assert (B : forallb (fun k0 => forallb (fun s => forallb (fun k =>
     if matched k0 s k then subset (omask k0 s) (could_tbl k) else true) all_tkinds) points_of) all_tkinds = true)
    by (vm_compute; reflexivity).
  intros I M. rewrite forallb_forall in B. specialize (B k0 (all_tkinds_complete k0)).
  rewrite forallb_forall in B. specialize (B s I). rewrite forallb_forall in B. specialize (B k (all_tkinds_complete k)).
  now rewrite M in B.
Qed.

Definition kind_of (t : token) : option tkind := match t with Tk k _ => Some k | TkNumber _ => None end.

Lemma split_kind k x n : match split (Tk k x) n, split (Tk k (0, 0)) n with
  | Some (a, b), Some (a', b') =>
      (exists ka, kind_of a = Some ka /\ kind_of a' = Some ka) /\ (exists kb, kind_of b = Some kb /\ kind_of b' = Some kb)
  | None, None => True
  | _, _ => False
  end.
Proof. destruct x as [s e]. destruct k, n as [|[|n]]; cbn; eauto 8. Qed.

Lemma kind_tbit a b k : kind_of a = Some k -> kind_of b = Some k -> tbit a = tbit b.
Proof. destruct a, b; cbn; congruence. Qed.

Lemma kind_convert m a b k v : kind_of a = Some k -> kind_of b = Some k -> convert m a = Some v -> exists w, convert m b = Some w.
Proof.
  destruct a, b, m; cbn; try discriminate. intros [= ->] [= ->]. destruct (tkind_eqb k2 k); [eauto|discriminate].
Qed.

Section Masks.
  Variable toks : list token.

  Lemma offered_omask p k x : nth_error toks (off p) = Some (Tk k x) -> offered toks p = omask k (sub p).
  Proof.
    intros N. unfold offered, omask. rewrite N. unfold offered_at. destruct (sub p) as [n|].
    - pose proof (split_kind k x n) as A. pose proof (split_kind k x (S n)) as B.
      destruct (split (Tk k x) n) as [[a b]|], (split (Tk k (0, 0)) n) as [[a' b']|]; try contradiction; [|reflexivity].
      destruct A as [_ (kb & K1 & K2)]. rewrite (kind_tbit b b' kb K1 K2).
      destruct (split (Tk k x) (S n)) as [[c d]|], (split (Tk k (0, 0)) (S n)) as [[c' d']|]; try contradiction; [|reflexivity].
      destruct B as [(kc & K3 & K4) _]. now rewrite (kind_tbit c c' kc K3 K4).
    - pose proof (split_kind k x 0) as B.
      destruct (split (Tk k x) 0) as [[c d]|], (split (Tk k (0, 0)) 0) as [[c' d']|]; try contradiction; [|reflexivity].
      destruct B as [(kc & K3 & K4) _]. now rewrite (kind_tbit c c' kc K3 K4).
  Qed.

  Lemma gets_matched p k q v : gets toks p (MK k) q v ->
    exists k0 x, nth_error toks (off p) = Some (Tk k0 x) /\ In (sub p) points_of /\ matched k0 (sub p) k = true.
  Proof.
    intros G. specialize (G ExpectedIdent (new_master pt_zero Unambiguous)). unfold tok in G.
    destruct (nth_error toks (off p)) as [t|] eqn:N; [|discriminate].
    destruct t as [k0 x|n].
    2:{ exfalso. destruct (sub p) as [m|]; cbn in G; [destruct m|]; discriminate. }
    exists k0, x. split; [reflexivity|].
    destruct (sub p) as [n|]; cbn [sub_rank] in G.
    - pose proof (split_kind k0 x n) as A. pose proof (split_kind k0 x (S n)) as B. unfold matched.
      destruct (split (Tk k0 x) n) as [[a b]|] eqn:S; [|discriminate].
      split. { assert (n <= 1) as L by (apply (split_small (Tk k0 x)); congruence). destruct n as [|[|n]]; cbn; auto. lia. }
      destruct (split (Tk k0 (0, 0)) n) as [[a' b']|]; [|contradiction]. destruct A as [_ (kb & K1 & K2)].
      destruct (convert (MK k) b) eqn:C.
      { destruct (kind_convert _ _ _ _ _ K1 K2 C) as [w ->]. reflexivity. }
      destruct (split (Tk k0 x) (Datatypes.S n)) as [[c d]|]; [|discriminate].
      destruct (split (Tk k0 (0, 0)) (Datatypes.S n)) as [[c' d']|]; [|contradiction]. destruct B as [(kc & K3 & K4) _].
      destruct (convert (MK k) c) eqn:C2; [|discriminate].
      destruct (kind_convert _ _ _ _ _ K3 K4 C2) as [w ->]. apply orb_true_r.
    - split; [cbn; auto|]. pose proof (split_kind k0 x 0) as B. unfold matched.
      destruct (convert (MK k) (Tk k0 x)) eqn:C.
      { destruct (kind_convert _ (Tk k0 x) (Tk k0 (0, 0)) k0 _ eq_refl eq_refl C) as [w ->]. reflexivity. }
      destruct (split (Tk k0 x) 0) as [[c d]|]; [|discriminate].
      destruct (split (Tk k0 (0, 0)) 0) as [[c' d']|]; [|contradiction]. destruct B as [(kc & K3 & K4) _].
      destruct (convert (MK k) c) eqn:C2; [|discriminate].
      destruct (kind_convert _ _ _ _ _ K3 K4 C2) as [w ->]. apply orb_true_r.
  Qed.

  Lemma gets_could p k q v : gets toks p (MK k) q v -> subset (offered toks p) (could_tbl k) = true.
  Proof.
    intros G. destruct (gets_matched p k q v G) as (k0 & x & N & I & M). rewrite (offered_omask p k0 x N). now apply could_ok.
  Qed.

  Lemma gets_number p q v : gets toks p MNumber q v -> subset (offered toks p) number_mask = true.
  Proof.
    intros G. specialize (G ExpectedIdent (new_master pt_zero Unambiguous)). unfold tok in G. unfold offered.
    destruct (nth_error toks (off p)) as [t|] eqn:N; [|discriminate]. destruct t as [k0 [s e]|n].
    - exfalso. destruct (sub p) as [n|]; cbn [sub_rank] in G; [destruct n as [|[|n]]|]; destruct k0; discriminate.
    - destruct (sub p) as [m|]; [|reflexivity]. destruct m; discriminate.
  Qed.

  Lemma takes_offered p c q : takes toks p c q -> subset (offered toks p) (pmask c) = true.
  Proof.
    destruct c as [k|k x|n|t]; cbn [takes pmask].
    - intros [x G]. eapply gets_could; eauto.
    - intros G. eapply gets_could; eauto.
    - intros G. eapply gets_number; eauto.
    - intros (S & N & _). destruct t as [k x|n].
      + rewrite (offered_omask p k x N), S. unfold subset. apply N.eqb_eq. apply N.land_diag.
      + unfold offered. rewrite N, S. reflexivity.
  Qed.

  Lemma takes_disjoint p c q m : takes toks p c q -> N.land m (pmask c) = 0%N -> disjoint m (offered toks p).
  Proof.
    intros T D. apply disjoint_sym. eapply subset_disjoint; [eapply takes_offered; exact T|]. apply disjoint_sym. exact D.
  Qed.

  (** A parser that cannot start with the next piece fails. *)
  Lemma sem_skip a x e p c q : takes toks p c q -> N.land (firstg x) (pmask c) = 0%N -> nullg x = false ->
    sem toks a x e p (SFail p).
  Proof. intros T D N. apply sem_idle; [|exact N]. eapply takes_disjoint; eauto. Qed.

  (** The same where only what does not follow is known. *)
  Lemma sem_stop a x e p m : disjoint m (offered toks p) -> subset (firstg x) m = true -> nullg x = false ->
    sem toks a x e p (SFail p).
  Proof. intros D S N. apply sem_idle; [|exact N]. eapply subset_disjoint; eauto. Qed.
End Masks.

(** * Building results *)
Section Build.
  Variable toks : list token.

  Definition obind {A B} (r : option A) (k : A -> option B) : option B :=
    match r with Some a => k a | None => None end.

  Definition point_of (v : option val) : option point :=
    match v with Some (VPoint p) => Some p | _ => None end.

  (** [beval] with the extents that [exv] gives. *)
  Fixpoint sbeval (pt : point) (e : env) (b : bexp) {struct b} : option val :=
    match b with
    | BVar x => assoc x e
    | BEx x => obind (point_of (assoc x e)) (fun p => Some (VExt (exv toks p pt)))
    | BExTo x y => obind (point_of (assoc x e)) (fun p => obind (point_of (assoc y e)) (fun q => Some (VExt (exv toks p q))))
    | BUnit => Some VUnit
    | BNil => Some (VList [])
    | BNone => Some VNone
    | BSome b => obind (sbeval pt e b) (fun v => Some (VSome v))
    | BSingle b => obind (sbeval pt e b) (fun v => Some (VList [v]))
    | BIntoAppend b =>
        obind (sbeval pt e b) (fun v =>
          match v with
          | VNone => Some (VList [])
          | VSome v => Some (VList [v])
          | VList l => Some (VList l)
          | _ => None
          end)
    | BUnwrapNil b =>
        obind (sbeval pt e b) (fun v =>
          match v with VNone => Some (VList []) | VSome v => Some v | _ => None end)
    | BUnwrapOr b d =>
        obind (sbeval pt e b) (fun v =>
          match v with VNone => sbeval pt e d | VSome v => Some v | _ => None end)
    | BMk k fs =>
        obind ((fix go (fs : list (string * bexp)) : option (list val) :=
                  match fs with
                  | [] => Some []
                  | (_, b) :: fs' => obind (sbeval pt e b) (fun v => obind (go fs') (fun l => Some (v :: l)))
                  end) fs)
              (fun l => Some (VNode k l))
    | BVariant en v b => obind (sbeval pt e b) (fun p => Some (VVar en v p))
    | BPair a b => obind (sbeval pt e a) (fun x => obind (sbeval pt e b) (fun y => Some (VPair x y)))
    | BFst b => obind (sbeval pt e b) (fun v => match v with VPair x _ => Some x | _ => None end)
    | BSnd b => obind (sbeval pt e b) (fun v => match v with VPair _ y => Some y | _ => None end)
    | BField f b => obind (sbeval pt e b) (fun v => get_field f v)
    | BExtentOf b =>
        obind (sbeval pt e b) (fun v => match extent_of v with Some x => Some (VExt x) | None => None end)
    | BIsSome b =>
        obind (sbeval pt e b) (fun v =>
          match v with VNone => Some (VBool false) | VSome _ => Some (VBool true) | _ => None end)
    | BOptFst b =>
        obind (sbeval pt e b) (fun v =>
          match v with VNone => Some VNone | VSome (VPair x _) => Some (VSome x) | _ => None end)
    | BOptSnd b =>
        obind (sbeval pt e b) (fun v =>
          match v with VNone => Some VNone | VSome (VPair _ y) => Some y | _ => None end)
    | BStmts s t =>
        obind (sbeval pt e s) (fun s => obind (sbeval pt e t) (fun t =>
          match s, t with VList l, VBool b => Some (VList (fst (block_split l b))) | _, _ => None end))
    | BTrailing s t =>
        obind (sbeval pt e s) (fun s => obind (sbeval pt e t) (fun t =>
          match s, t with VList l, VBool b => Some (snd (block_split l b)) | _, _ => None end))
    | BParen x t =>
        obind (sbeval pt e x) (fun x => obind (sbeval pt e t) (fun t =>
          match x, t with
          | VExt x, VPair (VList l) (VPair (VNat n) _) => Some (paren_or_tuple x l n)
          | _, _ => None
          end))
    | BNumber b =>
        obind (sbeval pt e b) (fun v => match v with VNum n => Some (convert_number n) | _ => None end)
    end.

  Definition bok (r : bres val) (s : option val) : Prop :=
    match r with BOk v => s = Some v | BAbort _ => True end.

  Lemma bok_bind r s (k : val -> bres val) k' : bok r s -> (forall v, bok (k v) (k' v)) -> bok (bbind r k) (obind s k').
  Proof. destruct r as [v|w]; cbn [bok bbind]; [|auto]. intros -> H. apply H. Qed.

  Lemma sbeval_beval pt e : forall b, bok (beval toks pt e b) (sbeval pt e b).
  Proof.
    fix go 1. intros b. destruct b; cbn [beval sbeval].
    - destruct (assoc x e); cbn; auto.
    - destruct (assoc x e) as [[]|]; cbn; auto. unfold exv. destruct (ex toks p pt); cbn; auto.
    - destruct (assoc x e) as [[]|]; cbn; auto. destruct (assoc y e) as [[]|]; cbn; auto.
      unfold exv. destruct (ex toks p p0); cbn; auto.
    - reflexivity.
    - reflexivity.
    - reflexivity.
    - apply bok_bind; [apply go|reflexivity].
    - apply bok_bind; [apply go|reflexivity].
    - apply bok_bind; [apply go|]. intros []; cbn; auto.
    - apply bok_bind; [apply go|]. intros []; cbn; auto.
    - apply bok_bind; [apply go|]. intros []; cbn; auto.
    - assert (L : match (fix go (fs : list (string * bexp)) : bres (list val) :=
                  match fs with
                  | [] => BOk []
                  | (_, b) :: fs' => bbind (beval toks pt e b) (fun v => bbind (go fs') (fun l => BOk (v :: l)))
                  end) fs with
                  | BOk l => (fix go (fs : list (string * bexp)) : option (list val) :=
                  match fs with
                  | [] => Some []
                  | (_, b) :: fs' => obind (sbeval pt e b) (fun v => obind (go fs') (fun l => Some (v :: l)))
                  end) fs = Some l
                  | BAbort _ => True end).
      { induction fs as [|[f b] fs IH]; [reflexivity|]. specialize (go b). unfold bok in go.
        destruct (beval toks pt e b) as [v|]; cbn [bbind]; [|exact I]. rewrite go. cbn [obind].
        match type of IH with match ?X with _ => _ end => destruct X end; cbn [bbind]; [|exact I]. rewrite IH. reflexivity. }
      match type of L with match ?X with _ => _ end => destruct X end; cbn [bbind bok]; [|exact I]. rewrite L. reflexivity.
    - apply bok_bind; [apply go|reflexivity].
    - apply bok_bind; [apply go|]. intros x. apply bok_bind; [apply go|reflexivity].
    - apply bok_bind; [apply go|]. intros []; cbn; auto.
    - apply bok_bind; [apply go|]. intros []; cbn; auto.
    - apply bok_bind; [apply go|]. intros v. destruct (get_field f v); cbn; auto.
    - apply bok_bind; [apply go|]. intros v. destruct (extent_of v); cbn; auto.
    - apply bok_bind; [apply go|]. intros []; cbn; auto.
    - apply bok_bind; [apply go|]. intros []; cbn; auto. destruct v; cbn; auto.
    - apply bok_bind; [apply go|]. intros []; cbn; auto. destruct v; cbn; auto.
    - apply bok_bind; [apply go|]. intros s. apply bok_bind; [apply go|]. intros t. destruct s, t; cbn; auto.
    - apply bok_bind; [apply go|]. intros s. apply bok_bind; [apply go|]. intros t. destruct s, t; cbn; auto.
    - apply bok_bind; [apply go|]. intros s. apply bok_bind; [apply go|]. intros t.
      destruct s; cbn; auto. destruct t; cbn; auto. destruct t1; cbn; auto. destruct t2; cbn; auto. destruct t2_1; cbn; auto.
    - apply bok_bind; [apply go|]. intros []; cbn; auto.
  Qed.

  Lemma bval_eval pt e b v : sbeval pt e b = Some v -> bval toks pt e b v.
  Proof.
    intros H. pose proof (sbeval_beval pt e b) as K. unfold bval, bok in *. destruct (beval toks pt e b); [|exact I]. congruence.
  Qed.
End Build.

(** * Tactics *)

(** Evaluate the closure that builds a result. *)
Ltac build :=
  apply bval_eval;
  cbv [sbeval obind point_of assoc String.eqb Ascii.eqb Bool.eqb append vtailed attributed_from pathed_ident_from];
  reflexivity.

(** Enter a nonterminal. *)
Ltac enter := apply sem_nt; cbn [table].

(** The parser cannot start with the piece of [H : takes ..]. *)
Ltac skip H := apply (sem_skip _ _ _ _ _ _ _ H); [vm_compute; reflexivity|vm_compute; reflexivity].

(** The parser starts with something excluded by [H : disjoint .. (offered ..)]. *)
Ltac stop H := apply (sem_stop _ _ _ _ _ _ H); [vm_compute; reflexivity|vm_compute; reflexivity].

(** Skip the alternatives that cannot start here. *)
Ltac alts_past H := repeat (eapply alts_skip; [first [skip H|stop H]|]).

(** One step of a sequence. *)
Ltac seq := first [apply sem_seq|idtac]; eapply sems_cons; [|cbn [bind_pat]; reflexivity|].
Ltac seq_point := first [apply sem_seq|idtac]; eapply sems_cons; [apply sem_point|cbn [bind_pat]; reflexivity|].
Ltac seq_done := apply sems_nil; build.
Ltac opt_none H := eapply sem_opt_none; first [skip H|stop H].

Section Words.
  Variable toks : list token.

  Definition vident (x : extent) : val := VNode "Ident" [VExt x].
  Definition vlifetime (x : extent) : val := VNode "Lifetime" [VExt x; vident x].

  Lemma ident_kind_cases k : ident_kind k = true -> In k [KIdent; KDefault; KSelfIdent; KDyn; KUnion].
  Proof.
    unfold ident_kind. rewrite existsb_exists. intros (k' & I & E). apply tkind_eqb_eq in E. now subst.
  Qed.

  Lemma sem_ident a e p k x q : ident_kind k = true -> takes toks p (Word k x) q ->
    sem toks a (GNT N_ident) e p (SOk q (vident x)).
  Proof.
    intros K T. enter. apply sem_maperr. seq; [|seq_done].
    apply sem_alt. apply ident_kind_cases in K. cbn [In] in K.
    destruct K as [<-|[<-|[<-|[<-|[<-|[]]]]]]; alts_past T;
      (first [apply alts_last|apply alts_hit]); apply sem_gets; exact T.
  Qed.

  Lemma sem_member a e p k x q : member_kind k = true -> takes toks p (Word k x) q ->
    sem toks a (GNT N_path_member) e p (SOk q (vident x)).
  Proof.
    intros K T. enter. apply sem_alt. unfold member_kind in K. destruct (tkind_eqb k KCrate) eqn:E.
    - apply tkind_eqb_eq in E. subst k. apply alts_hit. seq; [apply sem_gets; exact T|]. seq_done.
    - rewrite orb_false_r in K. eapply alts_skip.
      + pose proof K as K'. apply ident_kind_cases in K'. cbn [In] in K'.
        destruct K' as [<-|[<-|[<-|[<-|[<-|[]]]]]]; skip T.
      + apply alts_last. now apply sem_ident with (k := k).
  Qed.

  Lemma sem_lifetime a e p x q : takes toks p (Word KLifetime x) q ->
    sem toks a (GNT N_lifetime) e p (SOk q (vlifetime x)).
  Proof. intros T. enter. seq; [apply sem_gets; exact T|]. seq_done. Qed.

  Lemma sem_sym a k err e p q : takes toks p (Sym k) q -> exists v, sem toks a (GTok (MK k) err) e p (SOk q v).
  Proof. intros [x G]. eexists. apply sem_gets. exact G. Qed.
End Words.

(** A symbol of the sequence, given [H : takes .. (Sym k) ..]. *)
Ltac seq_sym H :=
  let v := fresh "v" in let S := fresh "S" in
  match goal with
  | |- sem ?t ?a (GSeq _ _) ?e ?p _ => apply sem_seq
  | _ => idtac
  end;
  match goal with
  | |- sems ?t ?a ((_, ?x) :: _) _ ?e ?p _ =>
      match eval hnf in x with
      | GTok (MK ?k) ?err => destruct (sem_sym t a k err e _ _ H) as [v S]
      end
  end;
  eapply sems_cons; [exact S|cbn [bind_pat]; reflexivity|]; clear S.
