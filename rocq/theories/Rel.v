(** Two runs of a parser side by side: with different recorded failures, with
    more fuel, or on token lists that differ in extents only, they proceed in
    the same way. *)

From Coq Require Import String List Arith Bool Lia.
From Verif Require Import Base Peresil Token Schema Value Nt Grammar.
Import ListNotations.
Local Open Scope string_scope.
Local Open Scope list_scope.
Local Open Scope nat_scope.

(** * Replacing the extents of a value *)
Section Map.
  Variable er : extent -> extent.
  Variable eu : nat -> nat.

  Definition nmap (n : number) : number :=
    mkNumber (n_radix n) (er (n_extent n)) (er (n_integral n)) (option_map er (n_fractional n))
      (option_map er (n_exponent n)) (option_map er (n_type_suffix n)) (eu (n_underscores n)).

  Fixpoint vmap (v : val) : val :=
    match v with
    | VExt e => VExt (er e)
    | VNum n => VNum (nmap n)
    | VSome x => VSome (vmap x)
    | VList l => VList (map vmap l)
    | VPair a b => VPair (vmap a) (vmap b)
    | VNode k fs => VNode k (map vmap fs)
    | VVar e k p => VVar e k (vmap p)
    | _ => v
    end.

  Definition tmap (t : token) : token :=
    match t with Tk k e => Tk k (er e) | TkNumber n => TkNumber (nmap n) end.

  Definition emap (e : env) : env := map (fun p => (fst p, vmap (snd p))) e.

  Lemma get_field_map f v : get_field f (vmap v) = option_map vmap (get_field f v).
  Proof.
    destruct v; try reflexivity. cbn [vmap get_field]. destruct (struct_fields k) as [fields|]; [|reflexivity].
    destruct (field_index f fields) as [i|]; [|reflexivity]. apply nth_error_map.
  Qed.

  Lemma extent_of_map v : extent_of (vmap v) = option_map er (extent_of v).
  Proof.
    induction v using val_ind'; try reflexivity.
    - cbn [vmap extent_of map]. destruct fs as [|x fs]; [reflexivity|]. cbn [map]. destruct x; reflexivity.
    - exact IHv.
  Qed.

  Lemma assoc_map x e : assoc x (emap e) = option_map vmap (assoc x e).
  Proof.
    induction e as [|[k v] e IH]; [reflexivity|]. cbn [emap map assoc fst snd].
    destruct (String.eqb x k); [reflexivity|exact IH].
  Qed.

  Lemma bind_pat_map p : forall v e, bind_pat p (vmap v) (emap e) = option_map emap (bind_pat p v e).
  Proof.
    induction p as [x|a IHa b IHb]; intros v e; cbn [bind_pat]; [reflexivity|].
    destruct v; try reflexivity. cbn [vmap]. rewrite IHa.
    destruct (bind_pat a v1 e) as [e'|]; [apply IHb|reflexivity].
  Qed.

  Lemma may_terminate_map v : may_terminate_statement (vmap v) = may_terminate_statement v.
  Proof.
    unfold may_terminate_statement. rewrite get_field_map.
    destruct (get_field "value" v) as [x|]; [|reflexivity]. cbn [option_map].
    destruct x; try reflexivity. cbn [vmap may_terminate_expr].
    destruct (existsb _ _); [reflexivity|]. destruct (String.eqb v0 "MacroCall"); [|reflexivity].
    rewrite get_field_map. destruct (get_field "args" x) as [y|]; [|reflexivity].
    destruct y; reflexivity.
  Qed.

  Definition known_kind (k : string) : nat :=
    if String.eqb k "Expression" then 1 else if String.eqb k "Item" then 2 else 0.

  Lemma implicit_eq v : is_implicit_separator v =
    match v with
    | VVar _ k e =>
        if String.eqb k "Expression" then may_terminate_statement e
        else if String.eqb k "Item" then true else false
    | VNode _ _ =>
        match get_field "hand" v with Some (VVar _ h _) => String.eqb h "Brace" | _ => false end
    | _ => false
    end.
  Proof.
    destruct v as [| | | | | | | | | | |e k p]; try reflexivity. cbn [is_implicit_separator].
    destruct (String.eqb_spec k "Expression") as [->|N1]; [reflexivity|].
    destruct (String.eqb_spec k "Item") as [->|N2]; [reflexivity|].
    repeat match goal with
           | |- context [match ?x with _ => _ end] => is_var x; destruct x
           end; congruence.
  Qed.

  Lemma implicit_map v : is_implicit_separator (vmap v) = is_implicit_separator v.
  Proof.
    rewrite !implicit_eq. destruct v as [| | | | | | | | | |k fs|e k p]; try reflexivity; cbn [vmap].
    - change (VNode k (map vmap fs)) with (vmap (VNode k fs)). rewrite get_field_map.
      destruct (get_field "hand" (VNode k fs)) as [y|]; [|reflexivity]. destruct y; reflexivity.
    - rewrite may_terminate_map. reflexivity.
  Qed.

  Lemma block_split_eq l b : block_split l b =
    match rev l with
    | VVar _ k e :: before =>
        if String.eqb k "Expression" then (if b then (l, VNone) else (rev before, VSome e)) else (l, VNone)
    | _ => (l, VNone)
    end.
  Proof.
    unfold block_split. destruct (rev l) as [|v r]; [reflexivity|].
    destruct v as [| | | | | | | | | | |e k p]; try reflexivity.
    destruct (String.eqb_spec k "Expression") as [->|N1]; [reflexivity|].
    repeat match goal with
           | |- context [match ?x with _ => _ end] => is_var x; destruct x
           end; congruence.
  Qed.

  Lemma block_split_map l b :
    block_split (map vmap l) b = (map vmap (fst (block_split l b)), vmap (snd (block_split l b))).
  Proof.
    rewrite !block_split_eq, <- map_rev. destruct (rev l) as [|v r]; [reflexivity|].
    cbn [map]. destruct v as [| | | | | | | | | | |e k p]; try reflexivity. cbn [vmap].
    destruct (String.eqb k "Expression"); [|reflexivity]. destruct b; [reflexivity|].
    cbn [fst snd vmap]. rewrite map_rev. reflexivity.
  Qed.

  Lemma paren_map x l n : vmap (paren_or_tuple x l n) = paren_or_tuple (er x) (map vmap l) n.
  Proof. unfold paren_or_tuple. destruct l as [|v [|w l]]; [reflexivity| |reflexivity]. destruct n; reflexivity. Qed.

  Lemma convert_number_map n : vmap (convert_number n) = convert_number (nmap n).
  Proof.
    unfold convert_number. cbn [vmap map nmap n_radix n_extent n_integral n_fractional n_exponent n_type_suffix].
    repeat f_equal;
      match goal with |- context [match ?o with _ => _ end] => destruct o; reflexivity
                    | |- vmap (vopt ?o) = _ => destruct o; reflexivity end.
  Qed.

  Lemma is_range_map v : is_range (vmap v) = is_range v.
  Proof. destruct v; reflexivity. Qed.
End Map.

(** Matching on the names of variants, with equality tests instead of the
    nested matches on characters. *)
Definition on_prefix_or_atom {T} (v : val) (pre atom : val -> T) (other : T) : T :=
  match v with
  | VVar _ k x => if String.eqb k "Prefix" then pre x else if String.eqb k "Atom" then atom x else other
  | _ => other
  end.
Definition on_infix_or_postfix {T} (v : val) (inf post : val -> T) (other : T) : T :=
  match v with
  | VVar _ k x => if String.eqb k "Infix" then inf x else if String.eqb k "Postfix" then post x else other
  | _ => other
  end.

Lemma prefix_or_atom_eq {T} v (pre atom : val -> T) other :
  match v with
  | VVar _ "Prefix" op => pre op
  | VVar _ "Atom" x => atom x
  | _ => other
  end = on_prefix_or_atom v pre atom other.
Proof.
  destruct v as [| | | | | | | | | | |e k x]; try reflexivity. cbn [on_prefix_or_atom].
  destruct (String.eqb_spec k "Prefix") as [->|N1]; [reflexivity|].
  destruct (String.eqb_spec k "Atom") as [->|N2]; [reflexivity|].
  repeat match goal with
         | |- context [match ?x with _ => _ end] => is_var x; destruct x
         end; congruence.
Qed.

Lemma infix_or_postfix_eq {T} v (pre atom : val -> T) other :
  match v with
  | VVar _ "Infix" op => pre op
  | VVar _ "Postfix" x => atom x
  | _ => other
  end = on_infix_or_postfix v pre atom other.
Proof.
  destruct v as [| | | | | | | | | | |e k x]; try reflexivity. cbn [on_infix_or_postfix].
  destruct (String.eqb_spec k "Infix") as [->|N1]; [reflexivity|].
  destruct (String.eqb_spec k "Postfix") as [->|N2]; [reflexivity|].
  repeat match goal with
         | |- context [match ?x with _ => _ end] => is_var x; destruct x
         end; congruence.
Qed.

Lemma shunt_loop_S toks n f1 f2 f3 stmt y s pm pt :
  shunt_loop toks (S n) f1 f2 f3 stmt y s pm pt =
  let continue pm y s pt := shunt_loop toks n f1 f2 f3 stmt y (adapt_state stmt y s) pm pt in
  let add pm o s next pt :=
    match add_op toks y o s pt with
    | AOk y' => continue pm y' next pt
    | AErr p e => (pm, Failure p e)
    | AAbort w => (pm, Abort w)
    end in
  match s with
  | SPrefix | SInfix _ =>
      match (if match s with SInfix was_range => is_ambiguous (m_state pm) && was_range | _ => false end
             then with_amb Maximum f1 else f1) pm pt with
      | (pm1, Success p v) =>
          on_prefix_or_atom v (fun op => add pm1 (OpPrefix op) pt SPrefix p)
            (fun v => continue pm1 (add_expression y v pt p) SAtom p) (pm1, Abort IllTyped)
      | (pm1, Failure p _) => finish_progress pm1 (finish_yard toks y p)
      | (pm1, Abort w) => (pm1, Abort w)
      end
  | SPostfix | SAtom =>
      match f2 pm pt with
      | (pm1, Success p v) =>
          on_infix_or_postfix v (fun op => add pm1 (OpInfix op) pt (SInfix (is_range op)) p)
            (fun op => add pm1 (OpPostfix op) pt SPostfix p) (pm1, Abort IllTyped)
      | (pm1, Failure p _) => finish_progress pm1 (finish_yard toks y p)
      | (pm1, Abort w) => (pm1, Abort w)
      end
  | SAtomLimited =>
      match f3 pm pt with
      | (pm1, Success p op) => add pm1 (OpPostfix op) pt SPostfix p
      | (pm1, Failure p _) => finish_progress pm1 (finish_yard toks y p)
      | (pm1, Abort w) => (pm1, Abort w)
      end
  end.
Proof.
  cbn [shunt_loop]. cbv zeta.
  destruct s; try reflexivity.
  - destruct (f1 pm pt) as [pm1 [p v|p e|w]]; try reflexivity.
    rewrite <- prefix_or_atom_eq. reflexivity.
  - destruct ((if is_ambiguous (m_state pm) && was_range then with_amb Maximum f1 else f1) pm pt)
      as [pm1 [p v|p e|w]]; try reflexivity.
    rewrite <- prefix_or_atom_eq. reflexivity.
  - destruct (f2 pm pt) as [pm1 [p v|p e|w]]; try reflexivity.
    rewrite <- infix_or_postfix_eq. reflexivity.
  - destruct (f2 pm pt) as [pm1 [p v|p e|w]]; try reflexivity.
    rewrite <- infix_or_postfix_eq. reflexivity.
Qed.

(** * Relations between results *)

Inductive bsim {A B} (R : A -> B -> Prop) : bres A -> bres B -> Prop :=
| bs_ok a b : R a b -> bsim R (BOk a) (BOk b)
| bs_abort w : bsim R (BAbort w) (BAbort w).

Inductive asim {A B} (R : A -> B -> Prop) : ares A -> ares B -> Prop :=
| as_ok a b : R a b -> asim R (AOk a) (AOk b)
| as_err p e : asim R (AErr p e) (AErr p e)
| as_abort w : asim R (AAbort w) (AAbort w).

Lemma bsim_bind {A B A' B'} (R : A -> A' -> Prop) (R' : B -> B' -> Prop) r r' k k' :
  bsim R r r' -> (forall a a', R a a' -> bsim R' (k a) (k' a')) -> bsim R' (bbind r k) (bbind r' k').
Proof. intros [a b H|w] K; cbn [bbind]; [auto|constructor]. Qed.

Lemma asim_bind {A B A' B'} (R : A -> A' -> Prop) (R' : B -> B' -> Prop) r r' k k' :
  asim R r r' -> (forall a a', R a a' -> asim R' (k a) (k' a')) -> asim R' (abind r k) (abind r' k').
Proof. intros [a b H|p e|w] K; cbn [abind]; [auto|constructor|constructor]. Qed.

Lemma asim_of_b {A B} (R : A -> B -> Prop) r r' : bsim R r r' -> asim R (a_of_b r) (a_of_b r').
Proof. intros [a b H|w]; constructor; auto. Qed.

Section Rel.
  Variable er : extent -> extent.
  Variable eu : nat -> nat.
  Variables toks1 toks2 : list token.
  Variable FR : failures point perror -> failures point perror -> Prop.

  Hypothesis HU : forall a b, eu a = eu b -> (a = 0 <-> b = 0).
  Hypothesis HS : forall s e s' e', er (s, e) = er (s', e') ->
    er (s, s + 1) = er (s', s' + 1) /\ er (s + 1, e) = er (s' + 1, e') /\
    er (s + 1, s + 2) = er (s' + 1, s' + 2) /\ er (s + 2, e) = er (s' + 2, e').
  Hypothesis HJ : forall a b a' b', er a = er a' -> er b = er b' -> er (fst a, snd b) = er (fst a', snd b').
  Hypothesis HT : map (tmap er eu) toks1 = map (tmap er eu) toks2.
  Hypothesis HE : forall s e, bsim (fun a b => er a = er b) (ex toks1 s e) (ex toks2 s e).
  Hypothesis HF : forall f1 f2 p e, FR f1 f2 -> FR (add_failure pt_lt f1 p e) (add_failure pt_lt f2 p e).

  Notation vm := (vmap er eu).
  Definition vs (a b : val) : Prop := vm a = vm b.
  Definition es (a b : env) : Prop := emap er eu a = emap er eu b.

  Definition ms (a b : pm_t) : Prop := m_state a = m_state b /\ FR (m_failures a) (m_failures b).

  Inductive ps {A B} (R : A -> B -> Prop) : progress point A perror -> progress point B perror -> Prop :=
  | ps_ok p a b : R a b -> ps R (Success p a) (Success p b)
  | ps_fail p e : ps R (Failure p e) (Failure p e)
  | ps_abort w : ps R (Abort w) (Abort w).

  (** The first run may be out of fuel; otherwise the results correspond. *)
  Definition rs {A B} (R : A -> B -> Prop) (a : pm_t * progress point A perror)
             (b : pm_t * progress point B perror) : Prop :=
    snd a = Abort OutOfFuel \/ ms (fst a) (fst b) /\ ps R (snd a) (snd b).

  Definition prs {A B} (R : A -> B -> Prop) (f : gparser A) (f' : gparser B) : Prop :=
    forall pm pm' p, ms pm pm' -> rs R (f pm p) (f' pm' p).

  Lemma ms_record pm pm' p e : ms pm pm' -> ms (record_failure pt_lt pm p e) (record_failure pt_lt pm' p e).
  Proof. intros [A B]. split; [exact A|]. cbn [record_failure m_failures]. apply HF, B. Qed.

  Lemma rs_ok {A B} (R : A -> B -> Prop) pm pm' p a b :
    ms pm pm' -> R a b -> rs R (pm, Success p a) (pm', Success p b).
  Proof. intros. right. split; [assumption|constructor; assumption]. Qed.
  Lemma rs_fail {A B} (R : A -> B -> Prop) pm pm' p e :
    ms pm pm' -> rs R (pm, Failure p e) (pm', Failure p e).
  Proof. intros. right. split; [assumption|constructor]. Qed.
  Lemma rs_abort {A B} (R : A -> B -> Prop) pm pm' w :
    ms pm pm' -> rs R (pm, Abort w) (pm', Abort w).
  Proof. intros. right. split; [assumption|constructor]. Qed.
  Lemma rs_out {A B} (R : A -> B -> Prop) pm (x : pm_t * progress point B perror) :
    rs R (pm, Abort OutOfFuel) x.
  Proof. left. reflexivity. Qed.

  (** Run both sides of a related pair of parsers. *)
  Ltac both H :=
    match type of H with
    | prs _ ?f ?f' =>
        match goal with
        | M : ms ?pm ?pm' |- context [f ?pm ?p] =>
            match goal with
            | |- context [f' pm' p] =>
                let E := fresh "E" in let X := fresh "X" in
                pose proof (H pm pm' p M) as X;
                let pm1 := fresh "pm" in let pm2 := fresh "pm" in
                let r1 := fresh "r" in let r2 := fresh "r" in
                destruct (f pm p) as [pm1 r1]; destruct (f' pm' p) as [pm2 r2];
                let M' := fresh "M" in
                destruct X as [X|[M' X]];
                [cbn [snd] in X; subst r1; try apply rs_out
                |clear M; cbn [fst snd] in M', X; destruct X as [? ? ? X|? ?|?]]
            end
        end
    end.

  Lemma len_eq : List.length toks1 = List.length toks2.
  Proof. apply (f_equal (@List.length _)) in HT. now rewrite !map_length in HT. Qed.

  Lemma nth_rel i :
    match nth_error toks1 i, nth_error toks2 i with
    | Some a, Some b => tmap er eu a = tmap er eu b
    | None, None => True
    | _, _ => False
    end.
  Proof.
    pose proof (f_equal (fun l => nth_error l i) HT) as H. cbn beta in H. rewrite !nth_error_map in H.
    destruct (nth_error toks1 i), (nth_error toks2 i); try discriminate; [|exact I].
    injection H as H. exact H.
  Qed.

  Lemma split_rel t1 t2 n : tmap er eu t1 = tmap er eu t2 ->
    match split t1 n, split t2 n with
    | Some (a, b), Some (c, d) => tmap er eu a = tmap er eu c /\ tmap er eu b = tmap er eu d
    | None, None => True
    | _, _ => False
    end.
  Proof.
    destruct t1 as [k [s e]|n1], t2 as [k' [s' e']|n2]; try discriminate.
    - intros [= -> E]. destruct (HS _ _ _ _ E) as (A & B & C & D).
      destruct k'; cbn [split]; try exact I; destruct n as [|[|n]]; cbn [split tmap]; try exact I;
        rewrite ?A, ?B, ?C, ?D; auto.
    - intros _. exact I.
  Qed.

  Lemma convert_rel m t1 t2 : tmap er eu t1 = tmap er eu t2 ->
    option_map vm (convert m t1) = option_map vm (convert m t2).
  Proof.
    destruct m as [k|], t1 as [k1 e1|n1], t2 as [k2 e2|n2]; try discriminate; cbn [tmap convert]; try reflexivity.
    - intros [= -> E]. destruct (tkind_eqb k k2); cbn [option_map vmap]; congruence.
    - intros [= ]. cbn [option_map vmap]. unfold nmap. congruence.
  Qed.

  Lemma tok_rel m err : prs vs (tok toks1 m err) (tok toks2 m err).
  Proof.
    intros pm pm' p M. unfold tok. pose proof (nth_rel (off p)) as N.
    destruct (nth_error toks1 (off p)) as [t1|], (nth_error toks2 (off p)) as [t2|]; try contradiction;
      [|now apply rs_fail].
    assert (C : match match sub p with Some n => match split t1 n with Some (_, b) => Some b | None => None end | None => Some t1 end,
                      match sub p with Some n => match split t2 n with Some (_, b) => Some b | None => None end | None => Some t2 end with
                | Some a, Some b => tmap er eu a = tmap er eu b
                | None, None => True
                | _, _ => False end).
    { destruct (sub p) as [n|]; [|exact N]. pose proof (split_rel _ _ n N) as S.
      destruct (split t1 n) as [[a b]|], (split t2 n) as [[c d]|]; try contradiction; tauto. }
    destruct (match sub p with Some n => match split t1 n with Some (_, b) => Some b | None => None end | None => Some t1 end) as [c1|],
             (match sub p with Some n => match split t2 n with Some (_, b) => Some b | None => None end | None => Some t2 end) as [c2|];
      try contradiction; [|now apply rs_abort].
    pose proof (convert_rel m _ _ C) as V.
    destruct (convert m c1) as [v1|], (convert m c2) as [v2|]; try discriminate.
    - injection V as V. now apply rs_ok.
    - pose proof (split_rel _ _ (sub_rank (sub p)) N) as S.
      destruct (split t1 (sub_rank (sub p))) as [[a b]|], (split t2 (sub_rank (sub p))) as [[c d]|]; try contradiction;
        [|now apply rs_fail].
      destruct S as [S _]. pose proof (convert_rel m _ _ S) as W.
      destruct (convert m a) as [v1|], (convert m c) as [v2|]; try discriminate; [|now apply rs_fail].
      injection W as W. now apply rs_ok.
  Qed.

  Lemma is_kind_rel k t1 t2 : tmap er eu t1 = tmap er eu t2 -> is_kind k t1 = is_kind k t2.
  Proof. destruct t1, t2; try discriminate; cbn [tmap is_kind]; [intros [= -> _]|]; reflexivity. Qed.

  Lemma skip_rel o c : forall l1 l2 d, map (tmap er eu) l1 = map (tmap er eu) l2 ->
    nested_skip o c d l1 = nested_skip o c d l2.
  Proof.
    induction l1 as [|t1 l1 IH]; intros [|t2 l2] d H; try discriminate; [reflexivity|].
    cbn [map] in H. injection H as Ht Hl. cbn [nested_skip].
    rewrite !(is_kind_rel _ t1 t2 Ht). destruct (is_kind KEndOfFile t2); [reflexivity|].
    destruct (is_kind o t2); [now rewrite (IH l2)|]. destruct (is_kind c t2); [destruct d; [reflexivity|]|]; now rewrite (IH l2).
  Qed.

  Lemma nested_rel o c : prs vs (nested toks1 o c) (nested toks2 o c).
  Proof.
    intros pm pm' p M. unfold nested. rewrite (skip_rel o c (skipn (off p) toks1) (skipn (off p) toks2)).
    2:{ rewrite <- !skipn_map, HT. reflexivity. }
    destruct (HE p (mkPt (off p + nested_skip o c 0 (skipn (off p) toks2)) None)) as [a b H|w];
      [apply rs_ok|apply rs_abort]; auto. unfold vs. cbn [vmap]. congruence.
  Qed.

  (** ** Building results *)

  Lemma as_point_rel o1 o2 : option_map vm o1 = option_map vm o2 -> bsim eq (as_point o1) (as_point o2).
  Proof.
    destruct o1 as [v1|], o2 as [v2|]; try discriminate; cbn [option_map as_point]; [|constructor].
    intros [= H]. destruct v1, v2; try discriminate; cbn [vmap] in H; try constructor. congruence.
  Qed.

  Lemma assoc_rel x e1 e2 : es e1 e2 -> option_map vm (assoc x e1) = option_map vm (assoc x e2).
  Proof. unfold es. intros H. rewrite <- !assoc_map, H. reflexivity. Qed.

  Lemma ext_rel p q : bsim vs (bbind (ex toks1 p q) (fun x => BOk (VExt x))) (bbind (ex toks2 p q) (fun x => BOk (VExt x))).
  Proof.
    destruct (HE p q) as [a b H|w]; constructor. unfold vs. cbn [vmap]. congruence.
  Qed.

  Ltac inv H := unfold vs in H; cbn [vmap] in H;
    match type of H with
    | _ = _ => first [discriminate H | injection H as H | idtac]
    end.

  Lemma vs_list l1 l2 : vs (VList l1) (VList l2) <-> map vm l1 = map vm l2.
  Proof. unfold vs. cbn [vmap]. split; [intros [= H]; exact H|intros ->; reflexivity]. Qed.

  Lemma beval_rel pt e1 e2 : es e1 e2 -> forall b, bsim vs (beval toks1 pt e1 b) (beval toks2 pt e2 b).
  Proof.
    intros He. fix go 1. intros b.
    destruct b as [x|x|x y| | | |b|b|b|b|b d|k fs|en v b|a b|b|b|f b|b|b|b|b|s t|s t|x t|b]; cbn [beval].
    - pose proof (assoc_rel x _ _ He) as A.
      destruct (assoc x e1), (assoc x e2); try discriminate; constructor. injection A as A. exact A.
    - eapply bsim_bind; [apply as_point_rel, assoc_rel, He|]. intros ? ? <-. apply ext_rel.
    - eapply bsim_bind; [apply as_point_rel, assoc_rel, He|]. intros ? ? <-.
      eapply bsim_bind; [apply as_point_rel, assoc_rel, He|]. intros ? ? <-. apply ext_rel.
    - constructor. reflexivity.
    - constructor. reflexivity.
    - constructor. reflexivity.
    - eapply bsim_bind; [apply go|]. intros a a' H. constructor. unfold vs in *. cbn [vmap]. congruence.
    - eapply bsim_bind; [apply go|]. intros a a' H. constructor. unfold vs in *. cbn [vmap map]. congruence.
    - eapply bsim_bind; [apply go|]. intros a a' H.
      destruct a, a'; inv H; constructor; unfold vs; cbn [vmap map]; congruence.
    - eapply bsim_bind; [apply go|]. intros a a' H.
      destruct a, a'; inv H; constructor; unfold vs; cbn [vmap map]; congruence.
    - eapply bsim_bind; [apply go|]. intros a a' H.
      destruct a, a'; inv H; try (constructor; unfold vs; cbn [vmap map]; congruence). apply go.
    - eapply bsim_bind with (R := fun l l' => map vm l = map vm l').
      + induction fs as [|[nm b] fs IH]; [constructor; reflexivity|].
        eapply bsim_bind; [apply go|]. intros a a' H.
        eapply bsim_bind; [apply IH|]. intros l l' H'. constructor. cbn [map]. unfold vs in H. congruence.
      + intros l l' H. constructor. unfold vs. cbn [vmap]. congruence.
    - eapply bsim_bind; [apply go|]. intros x x' H. constructor. unfold vs in *. cbn [vmap]. congruence.
    - eapply bsim_bind; [apply go|]. intros x x' H. eapply bsim_bind; [apply go|]. intros y y' H'.
      constructor. unfold vs in *. cbn [vmap]. congruence.
    - eapply bsim_bind; [apply go|]. intros a a' H.
      destruct a, a'; inv H; constructor; unfold vs; congruence.
    - eapply bsim_bind; [apply go|]. intros a a' H.
      destruct a, a'; inv H; constructor; unfold vs; congruence.
    - eapply bsim_bind; [apply go|]. intros a a' H. unfold vs in H.
      pose proof (f_equal (get_field f) H) as G. rewrite !get_field_map in G.
      destruct (get_field f a), (get_field f a'); try discriminate; constructor. injection G as G. exact G.
    - eapply bsim_bind; [apply go|]. intros a a' H. unfold vs in H.
      pose proof (f_equal extent_of H) as G. rewrite !extent_of_map in G.
      destruct (extent_of a), (extent_of a'); try discriminate; constructor. injection G as G.
      unfold vs. cbn [vmap]. congruence.
    - eapply bsim_bind; [apply go|]. intros a a' H.
      destruct a, a'; inv H; constructor; unfold vs; reflexivity.
    - eapply bsim_bind; [apply go|]. intros a a' H.
      destruct a as [| | | | | | |a| | | |], a' as [| | | | | | |a'| | | |]; inv H; try (constructor; unfold vs; reflexivity).
      destruct a, a'; inv H; constructor; unfold vs; cbn [vmap]; congruence.
    - eapply bsim_bind; [apply go|]. intros a a' H.
      destruct a as [| | | | | | |a| | | |], a' as [| | | | | | |a'| | | |]; inv H; try (constructor; unfold vs; reflexivity).
      destruct a, a'; inv H; constructor; unfold vs; cbn [vmap]; congruence.
    - eapply bsim_bind; [apply go|]. intros x x' H. eapply bsim_bind; [apply go|]. intros y y' H'.
      destruct x, x'; inv H; try constructor. destruct y, y'; inv H'; try constructor. subst.
      apply vs_list. pose proof (f_equal (fun l => fst (block_split l b0)) H) as G. cbn beta in G.
      rewrite !block_split_map in G. exact G.
    - eapply bsim_bind; [apply go|]. intros x x' H. eapply bsim_bind; [apply go|]. intros y y' H'.
      destruct x, x'; inv H; try constructor. destruct y, y'; inv H'; try constructor. subst.
      unfold vs. pose proof (f_equal (fun l => snd (block_split l b0)) H) as G. cbn beta in G.
      rewrite !block_split_map in G. exact G.
    - eapply bsim_bind; [apply go|]. intros z z' H. eapply bsim_bind; [apply go|]. intros y y' H'.
      destruct z, z'; inv H; try constructor. destruct y, y'; inv H'; try constructor.
      destruct y1, y'1; cbn [vmap] in *; try discriminate; try constructor.
      destruct y2, y'2; cbn [vmap] in *; try discriminate; try constructor.
      destruct y2_1, y'2_1; cbn [vmap] in *; try discriminate; try constructor.
      unfold vs. rewrite !paren_map. congruence.
    - eapply bsim_bind; [apply go|]. intros z z' H.
      destruct z, z'; try discriminate H; constructor.
      unfold vs in *. cbn [vmap] in H. rewrite !convert_number_map.
      exact (f_equal (fun v => match v with VNum n => convert_number n | _ => VUnit end) H).
  Qed.

  Lemma bind_pat_rel p v1 v2 e1 e2 : vs v1 v2 -> es e1 e2 ->
    match bind_pat p v1 e1, bind_pat p v2 e2 with
    | Some a, Some b => es a b
    | None, None => True
    | _, _ => False
    end.
  Proof.
    unfold vs, es. intros Hv He.
    pose proof (bind_pat_map er eu p v1 e1) as A. pose proof (bind_pat_map er eu p v2 e2) as B.
    rewrite Hv, He, B in A. destruct (bind_pat p v1 e1), (bind_pat p v2 e2); try discriminate; [|exact I].
    injection A as A. symmetry. exact A.
  Qed.

  Lemma steps_rel rn1 rn2 steps b :
    (forall x e1 e2, es e1 e2 -> prs vs (rn1 x e1) (rn2 x e2)) ->
    forall e1 e2, es e1 e2 -> prs vs (run_steps toks1 rn1 steps b e1) (run_steps toks2 rn2 steps b e2).
  Proof.
    intros Hr. induction steps as [|[pt x] steps IH]; intros e1 e2 He pm pm' p M; cbn [run_steps].
    - destruct (beval_rel p e1 e2 He b) as [v1 v2 H|w]; [now apply rs_ok|now apply rs_abort].
    - pose proof (Hr x e1 e2 He) as H. both H.
      + pose proof (bind_pat_rel pt a b0 e1 e2 X He) as G.
        destruct (bind_pat pt a e1), (bind_pat pt b0 e2); try contradiction; [|now apply rs_abort].
        now apply IH.
      + now apply rs_fail.
      + now apply rs_abort.
  Qed.

  (** ** Combinators *)

  Lemma alternate_rel (fs1 fs2 : list (gparser val)) :
    Forall2 (prs vs) fs1 fs2 -> prs vs (alternate pt_lt recov fs1) (alternate pt_lt recov fs2).
  Proof.
    assert (A : forall fs1 fs2 : list (gparser val), Forall2 (prs vs) fs1 fs2 ->
      forall r1 r2, ps vs r1 r2 -> forall pm pm' pt, ms pm pm' ->
      rs vs (alternate_from pt_lt recov r1 fs1 pm pt) (alternate_from pt_lt recov r2 fs2 pm' pt)).
    { clear fs1 fs2. induction 1 as [|f1 f2 fs1 fs2 Hf _ IH]; intros r1 r2 Hr pm pm' pt M; cbn [alternate_from].
      - right. split; assumption.
      - destruct Hr as [p a b H|p e|w]; [now apply rs_ok| |now apply rs_abort]. cbn [recov].
        pose proof (Hf pm pm' pt M) as X. destruct (f1 pm pt) as [pm1 r1], (f2 pm' pt) as [pm2 r2].
        destruct X as [X|[M' X]]; cbn [fst snd] in *.
        + subst r1. destruct fs1; cbn [alternate_from]; apply rs_out.
        + apply IH; [exact X|now apply ms_record]. }
    intros H pm pm' pt M. destruct H as [|f1 f2 fs1 fs2 Hf H]; cbn [alternate]; [now apply rs_abort|].
    pose proof (Hf pm pm' pt M) as X. destruct (f1 pm pt) as [pm1 r1], (f2 pm' pt) as [pm2 r2].
    destruct X as [X|[M' X]]; cbn [fst snd] in *.
    - subst r1. destruct fs1; cbn [alternate_from]; apply rs_out.
    - now apply A.
  Qed.

  Lemma map_rel {A B} (R : A -> A -> Prop) (R' : B -> B -> Prop) f1 f2 h :
    prs R f1 f2 -> (forall a b, R a b -> R' (h a) (h b)) -> prs R' (map_p f1 h) (map_p f2 h).
  Proof.
    intros H Hh pm pm' p M. unfold map_p. both H; [apply rs_ok|apply rs_fail|apply rs_abort]; auto.
  Qed.

  Definition os (a b : option val) : Prop := option_map vm a = option_map vm b.

  Lemma optional_rel f1 f2 : prs vs f1 f2 -> prs os (optional pt_lt recov f1) (optional pt_lt recov f2).
  Proof.
    intros H pm pm' p M. unfold optional. both H.
    - apply rs_ok; [assumption|]. unfold os, vs in *. cbn. congruence.
    - cbn [recov]. apply rs_ok; [now apply ms_record|reflexivity].
    - now apply rs_abort.
  Qed.

  Lemma peek_rel f1 f2 : prs vs f1 f2 -> prs vs (peek f1) (peek f2).
  Proof. intros H pm pm' p M. unfold peek. both H; [apply rs_ok|apply rs_fail|apply rs_abort]; auto. Qed.

  Definition ls (a b : list val) : Prop := map vm a = map vm b.

  Lemma many_rel f1 f2 : prs vs f1 f2 -> forall n m, n <= m ->
    prs ls (zero_or_more pt_lt recov n f1) (zero_or_more pt_lt recov m f2).
  Proof.
    intros H n. induction n as [|n IH]; intros m L pm pm' p M; cbn [zero_or_more]; [apply rs_out|].
    destruct m as [|m]; [lia|]. cbn [zero_or_more]. both H.
    - specialize (IH m ltac:(lia)). both IH.
      + apply rs_ok; [assumption|]. unfold ls, vs in *. cbn [map]. congruence.
      + now apply rs_fail.
      + now apply rs_abort.
    - cbn [recov]. apply rs_ok; [now apply ms_record|reflexivity].
    - now apply rs_abort.
  Qed.

  Lemma vtailed_rel v1 v2 c l : ls v1 v2 -> vs (vtailed v1 c l) (vtailed v2 c l).
  Proof. unfold ls, vs. cbn [vtailed vmap]. congruence. Qed.

  Lemma ls_snoc l1 l2 v1 v2 : ls l1 l2 -> vs v1 v2 -> ls (l1 ++ [v1]) (l2 ++ [v2]).
  Proof. unfold ls, vs. intros A B. rewrite !map_app. cbn [map]. congruence. Qed.

  Lemma tailed_rel s1 s2 f1 f2 : prs vs s1 s2 -> prs vs f1 f2 -> forall n m, n <= m ->
    forall l1 l2, ls l1 l2 -> forall c b, prs vs (tailed_loop n s1 f1 l1 c b) (tailed_loop m s2 f2 l2 c b).
  Proof.
    intros Hs Hf n. induction n as [|n IH]; intros m L l1 l2 Hl c b pm pm' p M; cbn [tailed_loop]; [apply rs_out|].
    destruct m as [|m]; [lia|]. cbn [tailed_loop]. both Hf.
    - both Hs.
      + apply IH; [lia|now apply ls_snoc|assumption].
      + apply rs_ok; [assumption|]. now apply vtailed_rel, ls_snoc.
      + now apply rs_abort.
    - apply rs_ok; [assumption|]. now apply vtailed_rel.
    - now apply rs_abort.
  Qed.

  Lemma tailed1_rel s1 s2 f1 f2 : prs vs s1 s2 -> prs vs f1 f2 -> forall n m, n <= m ->
    prs vs (tailed1 n s1 f1) (tailed1 m s2 f2).
  Proof.
    intros Hs Hf n m L pm pm' p M. unfold tailed1. both Hf.
    - assert (Hl : ls [a] [b]) by (unfold ls, vs in *; cbn [map]; congruence). both Hs.
      + now apply (tailed_rel s1 s2 f1 f2 Hs Hf n m L).
      + apply rs_ok; [assumption|]. now apply vtailed_rel.
      + now apply rs_abort.
    - now apply rs_fail.
    - now apply rs_abort.
  Qed.

  Lemma resume_rel s1 s2 f1 f2 : prs vs s1 s2 -> prs vs f1 f2 -> forall n m, n <= m ->
    prs vs (resume n s1 f1) (resume m s2 f2).
  Proof.
    intros Hs Hf n m L pm pm' p M. unfold resume. both Hs.
    - pose proof (tailed1_rel s1 s2 f1 f2 Hs Hf n m L) as Ht. both Ht.
      + destruct a0, b0; try discriminate; try now apply rs_abort.
        injection X0 as A B. apply rs_ok; [assumption|exact A].
      + apply rs_ok; [assumption|reflexivity].
      + now apply rs_abort.
    - apply rs_ok; [assumption|reflexivity].
    - now apply rs_abort.
  Qed.

  Lemma implicit_rel v1 v2 : vs v1 v2 -> is_implicit_separator v1 = is_implicit_separator v2.
  Proof. unfold vs. intros H. rewrite <- (implicit_map er eu v1), <- (implicit_map er eu v2), H. reflexivity. Qed.

  Lemma implicit_loop_rel s1 s2 f1 f2 : prs vs s1 s2 -> prs vs f1 f2 -> forall n m, n <= m ->
    forall l1 l2, ls l1 l2 -> forall c b, prs vs (implicit_loop n s1 f1 l1 c b) (implicit_loop m s2 f2 l2 c b).
  Proof.
    intros Hs Hf n. induction n as [|n IH]; intros m L l1 l2 Hl c b pm pm' p M; cbn [implicit_loop]; [apply rs_out|].
    destruct m as [|m]; [lia|]. cbn [implicit_loop]. both Hf.
    - rewrite (implicit_rel _ _ X). both Hs.
      + apply IH; [lia|now apply ls_snoc|assumption].
      + destruct (is_implicit_separator b0).
        * apply IH; [lia|now apply ls_snoc|assumption].
        * apply rs_ok; [assumption|]. now apply vtailed_rel, ls_snoc.
      + now apply rs_abort.
    - apply rs_ok; [assumption|]. now apply vtailed_rel.
    - now apply rs_abort.
  Qed.

  Lemma with_amb_rel l f1 f2 : prs vs f1 f2 -> prs vs (with_amb l f1) (with_amb l f2).
  Proof.
    intros H pm pm' p [Ms Mf]. unfold with_amb.
    assert (M : ms (set_amb pm l) (set_amb pm' l)) by (split; [reflexivity|exact Mf]).
    pose proof (H _ _ p M) as X.
    destruct (f1 (set_amb pm l) p) as [pm1 r1], (f2 (set_amb pm' l) p) as [pm2 r2].
    destruct X as [X|[[_ M'] X]]; cbn [fst snd] in *; [left; exact X|].
    right. split; [|exact X]. split; [exact Ms|exact M'].
  Qed.

  (** ** The shunting yard *)
  Definition opmap (o : opk) : opk :=
    match o with OpPrefix v => OpPrefix (vm v) | OpInfix v => OpInfix (vm v) | OpPostfix v => OpPostfix (vm v) end.
  Definition cmap {A} (h : A -> A) (c : car A) : car A := mkCar (h (c_val c)) (c_spt c) (c_ept c).
  Definition rsim (a b : list (car val)) : Prop := map (cmap vm) a = map (cmap vm) b.
  Definition osim (a b : list (car opk)) : Prop := map (cmap opmap) a = map (cmap opmap) b.
  Definition ysim (a b : yard) : Prop := osim (y_ops a) (y_ops b) /\ rsim (y_res a) (y_res b).

  Lemma car_inv {A} (h : A -> A) (a b : car A) : cmap h a = cmap h b ->
    h (c_val a) = h (c_val b) /\ c_spt a = c_spt b /\ c_ept a = c_ept b.
  Proof. unfold cmap. intros [= A1 A2 A3]. auto. Qed.

  Lemma rsim_cons a b l1 l2 : cmap vm a = cmap vm b -> rsim l1 l2 -> rsim (a :: l1) (b :: l2).
  Proof. unfold rsim. cbn [map]. congruence. Qed.

  Lemma pop_rel r1 r2 loc : rsim r1 r2 ->
    asim (fun a b => cmap vm (fst a) = cmap vm (fst b) /\ rsim (snd a) (snd b)) (pop_expression r1 loc) (pop_expression r2 loc).
  Proof.
    unfold rsim. destruct r1 as [|a r1], r2 as [|b r2]; try discriminate; cbn [pop_expression map]; intros H.
    - constructor.
    - injection H as A B C D. constructor. cbn [fst snd]. split; [unfold cmap; congruence|exact D].
  Qed.

  Lemma exa_rel p q : asim (fun a b => er a = er b) (a_of_b (ex toks1 p q)) (a_of_b (ex toks2 p q)).
  Proof. apply asim_of_b, HE. Qed.

  Definition frel (f g : extent -> val -> val) : Prop :=
    forall x y a b, er x = er y -> vs a b -> vs (f x a) (g y b).
  Definition frel2 (f g : extent -> val -> val -> val) : Prop :=
    forall x y a b c d, er x = er y -> vs a b -> vs c d -> vs (f x a c) (g y b d).

  Lemma prefix_rel r1 r2 s e x1 x2 at1 at2 f1 f2 : rsim r1 r2 -> er x1 = er x2 -> vs at1 at2 -> frel f1 f2 ->
    asim rsim (apply_prefix toks1 r1 s e x1 at1 f1) (apply_prefix toks2 r2 s e x2 at2 f2).
  Proof.
    intros Hr Hx Ha Hf. unfold apply_prefix. eapply asim_bind; [apply pop_rel, Hr|].
    intros [c1 q1] [c2 q2] [A B]. cbn [fst snd] in *. destruct (car_inv _ _ _ A) as (A1 & A2 & A3). rewrite A3.
    destruct (pt_lt (c_ept c2) s); [constructor|]. eapply asim_bind; [apply exa_rel|]. intros i1 i2 Hi.
    constructor. apply rsim_cons; [|exact B]. unfold cmap. cbn [c_val c_spt c_ept vmap map].
    specialize (Hf i1 i2 _ _ Hi A1). unfold vs in *. rewrite Hf, Ha, (HJ _ _ _ _ Hx Hi). reflexivity.
  Qed.

  Lemma maybe_prefix_rel r1 r2 s e x1 x2 at1 at2 f1 f2 : rsim r1 r2 -> er x1 = er x2 -> vs at1 at2 -> frel f1 f2 ->
    asim rsim (apply_maybe_prefix toks1 r1 s e x1 at1 f1) (apply_maybe_prefix toks2 r2 s e x2 at2 f2).
  Proof.
    intros Hr Hx Ha Hf. unfold apply_maybe_prefix.
    destruct r1 as [|c1 r1], r2 as [|c2 r2]; try discriminate Hr.
    - eapply asim_bind; [apply exa_rel|]. intros i1 i2 Hi. constructor. apply rsim_cons; [|reflexivity].
      unfold cmap. cbn [c_val c_spt c_ept vmap map].
      specialize (Hf i1 i2 VNone VNone Hi eq_refl). unfold vs in *. rewrite Hf, Ha, (HJ _ _ _ _ Hx Hi). reflexivity.
    - apply prefix_rel; auto. intros x y a b Hxy Hab. apply Hf; [exact Hxy|]. unfold vs in *. cbn [vmap]. congruence.
  Qed.

  Lemma into_attributed_rel x y a b : er x = er y -> vs a b -> vs (into_attributed x a) (into_attributed y b).
  Proof. unfold vs, into_attributed. intros H H'. cbn [vmap map]. congruence. Qed.

  Lemma infix_rel r1 r2 s e f1 f2 : rsim r1 r2 -> frel2 f1 f2 ->
    asim rsim (apply_infix toks1 r1 s e f1) (apply_infix toks2 r2 s e f2).
  Proof.
    intros Hr Hf. unfold apply_infix. eapply asim_bind; [apply pop_rel, Hr|].
    intros [c1 q1] [c2 q2] [A B]. cbn [fst snd] in *. eapply asim_bind; [apply pop_rel, B|].
    intros [d1 u1] [d2 u2] [A' B']. cbn [fst snd] in *.
    destruct (car_inv _ _ _ A) as (A1 & A2 & A3), (car_inv _ _ _ A') as (A1' & A2' & A3').
    rewrite A2', A3. eapply asim_bind; [apply exa_rel|]. intros i1 i2 Hi. constructor. apply rsim_cons; [|exact B'].
    unfold cmap. cbn [c_val c_spt c_ept]. f_equal. apply into_attributed_rel; [exact Hi|]. apply Hf; assumption.
  Qed.

  Lemma maybe_infix_rel r1 r2 s e f1 f2 : rsim r1 r2 -> frel2 f1 f2 ->
    asim rsim (apply_maybe_infix toks1 r1 s e f1) (apply_maybe_infix toks2 r2 s e f2).
  Proof.
    intros Hr Hf. unfold apply_maybe_infix.
    assert (L : List.length r1 = List.length r2).
    { apply (f_equal (@List.length _)) in Hr. now rewrite !map_length in Hr. }
    rewrite L. destruct (List.length r2 <=? 1).
    - eapply asim_bind; [apply pop_rel, Hr|]. intros [c1 q1] [c2 q2] [A B]. cbn [fst snd] in *.
      destruct (car_inv _ _ _ A) as (A1 & A2 & A3). rewrite A2.
      eapply asim_bind; [apply exa_rel|]. intros i1 i2 Hi. constructor. apply rsim_cons; [|exact B].
      unfold cmap. cbn [c_val c_spt c_ept]. f_equal. apply into_attributed_rel; [exact Hi|].
      apply Hf; [exact Hi|exact A1|reflexivity].
    - apply infix_rel; [exact Hr|]. intros x y a b c d Hxy Hab Hcd. apply Hf; auto.
      unfold vs in *. cbn [vmap]. congruence.
  Qed.

  Lemma postfix_rel r1 r2 s e f1 f2 : rsim r1 r2 -> frel f1 f2 ->
    asim rsim (apply_postfix toks1 r1 s e f1) (apply_postfix toks2 r2 s e f2).
  Proof.
    intros Hr Hf. unfold apply_postfix. eapply asim_bind; [apply pop_rel, Hr|].
    intros [c1 q1] [c2 q2] [A B]. cbn [fst snd] in *.
    destruct (car_inv _ _ _ A) as (A1 & A2 & A3). rewrite A2.
    eapply asim_bind; [apply exa_rel|]. intros i1 i2 Hi. constructor. apply rsim_cons; [|exact B].
    unfold cmap. cbn [c_val c_spt c_ept]. f_equal. apply into_attributed_rel; [exact Hi|].
    apply Hf; [exact Hi|exact A1].
  Qed.

  Ltac node := unfold vs in *; intros; unfold expr_node; cbn [vmap map]; congruence.

  Lemma apply_one_rel r1 r2 o1 o2 s e : rsim r1 r2 -> opmap o1 = opmap o2 ->
    asim rsim (apply_one toks1 r1 o1 s e) (apply_one toks2 r2 o2 s e).
  Proof.
    intros Hr Ho.
    destruct o1 as [v1|v1|v1], o2 as [v2|v2|v2]; try discriminate Ho; injection Ho as Ho;
      destruct v1 as [| | | | | | | | | |n1 fs1|e1 k1 p1], v2 as [| | | | | | | | | |n2 fs2|e2 k2 p2];
      try discriminate Ho; try constructor.
    - cbn [vmap] in Ho. injection Ho as -> Hfs.
      destruct fs1 as [|a1 fs1], fs2 as [|a2 fs2]; try discriminate Hfs; [constructor|].
      cbn [map] in Hfs. injection Hfs as Ha Hfs.
      destruct a1 as [x1| | | | | | | | | | |], a2 as [x2| | | | | | | | | | |]; try discriminate Ha; try constructor.
      cbn [vmap] in Ha. injection Ha as Ha.
      destruct fs1 as [|b1 fs1], fs2 as [|b2 fs2]; try discriminate Hfs; [constructor|].
      cbn [map] in Hfs. injection Hfs as Hb Hfs.
      destruct fs1 as [|c1 fs1], fs2 as [|c2 fs2]; try discriminate Hfs; [constructor|].
      cbn [map] in Hfs. injection Hfs as Hc Hfs.
      destruct c1 as [| | | | | | | | | | |e1 k1 p1], c2 as [| | | | | | | | | | |e2 k2 p2]; try discriminate Hc; try constructor.
      cbn [vmap] in Hc. injection Hc as -> -> Hp.
      destruct fs1 as [|d1 fs1], fs2 as [|d2 fs2]; try discriminate Hfs; [constructor|].
      cbn [map] in Hfs. injection Hfs as Hd Hfs.
      destruct fs1 as [|g1 fs1], fs2 as [|g2 fs2]; try discriminate Hfs; [|constructor].
      cbn [apply_one].
      repeat match goal with |- context [String.eqb k2 ?s] => destruct (String.eqb k2 s) end;
        first [apply prefix_rel|apply maybe_prefix_rel]; auto; intros ? ? ? ? ? ?; node.
    - cbn [vmap] in Ho. injection Ho as -> -> Hp. cbn [apply_one].
      repeat match goal with |- context [String.eqb k2 ?s] => destruct (String.eqb k2 s) end;
        first [apply infix_rel|apply maybe_infix_rel]; auto; intros ? ? ? ? ? ? ? ? ?; node.
    - cbn [vmap] in Ho. injection Ho as -> -> Hp. cbn [apply_one].
      repeat match goal with |- context [String.eqb k2 ?s] => destruct (String.eqb k2 s) end;
        apply postfix_rel; auto; intros ? ? ? ? ? ?; node.
  Qed.

  Lemma should_pop_rel o1 o2 t1 t2 : opmap o1 = opmap o2 -> opmap t1 = opmap t2 -> should_pop o1 t1 = should_pop o2 t2.
  Proof. destruct o1, o2; try discriminate; destruct t1, t2; try discriminate; reflexivity. Qed.

  Lemma precedence_rel o1 o2 : opmap o1 = opmap o2 -> forall ops1 ops2 r1 r2, osim ops1 ops2 -> rsim r1 r2 ->
    asim ysim (apply_precedence toks1 ops1 r1 o1) (apply_precedence toks2 ops2 r2 o2).
  Proof.
    intros Ho. induction ops1 as [|t1 ops1 IH]; intros [|t2 ops2] r1 r2 H Hr; try discriminate H; cbn [apply_precedence].
    - constructor. split; [reflexivity|exact Hr].
    - unfold osim in H. cbn [map] in H. injection H as A1 A2 A3 H. rewrite (should_pop_rel _ _ _ _ Ho A1), A2, A3.
      destruct (should_pop o2 (c_val t2)).
      + eapply asim_bind; [apply apply_one_rel; eassumption|]. intros q1 q2 Hq. now apply IH.
      + constructor. split; [|exact Hr]. unfold osim. cbn [y_ops map]. unfold cmap at 1 3. rewrite A1, A2, A3, H. reflexivity.
  Qed.

  Lemma all_rel : forall ops1 ops2 r1 r2, osim ops1 ops2 -> rsim r1 r2 ->
    asim rsim (apply_all toks1 ops1 r1) (apply_all toks2 ops2 r2).
  Proof.
    induction ops1 as [|t1 ops1 IH]; intros [|t2 ops2] r1 r2 H Hr; try discriminate H; cbn [apply_all].
    - constructor. exact Hr.
    - unfold osim in H. cbn [map] in H. injection H as A1 A2 A3 H. rewrite A2, A3.
      eapply asim_bind; [apply apply_one_rel; eassumption|]. intros q1 q2 Hq. now apply IH.
  Qed.

  Lemma add_op_rel y1 y2 o1 o2 s e : ysim y1 y2 -> opmap o1 = opmap o2 ->
    asim ysim (add_op toks1 y1 o1 s e) (add_op toks2 y2 o2 s e).
  Proof.
    intros [A B] Ho. unfold add_op. eapply asim_bind; [apply precedence_rel; eassumption|].
    intros z1 z2 [C D]. constructor. split; [|exact D]. unfold osim in *. cbn [y_ops map].
    unfold cmap at 1 3. cbn [c_val c_spt c_ept]. congruence.
  Qed.

  Lemma add_expression_rel y1 y2 v1 v2 s e : ysim y1 y2 -> vs v1 v2 ->
    ysim (add_expression y1 v1 s e) (add_expression y2 v2 s e).
  Proof.
    intros [A B] H. split; [exact A|]. apply rsim_cons; [|exact B]. unfold cmap. cbn [c_val c_spt c_ept]. congruence.
  Qed.

  Lemma adapt_rel stmt y1 y2 s : ysim y1 y2 -> adapt_state stmt y1 s = adapt_state stmt y2 s.
  Proof.
    intros [A B]. destruct s; try reflexivity. cbn [adapt_state]. destruct stmt; [|reflexivity].
    destruct (y_ops y1), (y_ops y2); try discriminate A; try reflexivity.
    unfold rsim in B. apply (f_equal (@rev _)) in B. rewrite <- !map_rev in B.
    destruct (rev (y_res y1)) as [|c1 l1], (rev (y_res y2)) as [|c2 l2]; try discriminate B; [reflexivity|].
    cbn [map] in B. injection B as B _.
    rewrite <- (may_terminate_map er eu (c_val c1)), <- (may_terminate_map er eu (c_val c2)), B. reflexivity.
  Qed.

  Lemma finish_rel pm pm' y1 y2 p : ms pm pm' -> ysim y1 y2 ->
    rs vs (finish_progress pm (finish_yard toks1 y1 p)) (finish_progress pm' (finish_yard toks2 y2 p)).
  Proof.
    intros M [A B]. unfold finish_yard. destruct (all_rel _ _ _ _ A B) as [r1 r2 H|q e|w]; cbn [abind finish_progress];
      [|now apply rs_fail|now apply rs_abort].
    unfold rsim in H. destruct r1 as [|c1 [|d1 r1]], r2 as [|c2 [|d2 r2]]; try discriminate H; cbn [finish_progress].
    - now apply rs_fail.
    - cbn [map] in H. injection H as H1 H2 H3. rewrite H3. now apply rs_ok.
    - now apply rs_abort.
  Qed.


  Lemma shunt_rel f1 g1 f2 g2 f3 g3 stmt : prs vs f1 g1 -> prs vs f2 g2 -> prs vs f3 g3 -> forall n m, n <= m ->
    forall y1 y2, ysim y1 y2 -> forall s,
    prs vs (shunt_loop toks1 n f1 f2 f3 stmt y1 s) (shunt_loop toks2 m g1 g2 g3 stmt y2 s).
  Proof.
    intros H1 H2 H3 n. induction n as [|n IH]; intros m L y1 y2 Hy s pm pm' p M; [apply rs_out|].
    destruct m as [|m]; [lia|]. rewrite !shunt_loop_S. cbv zeta.
    assert (L' : n <= m) by lia.
    assert (ADD : forall pm1 pm1' o1 o2 s1 nx p1, ms pm1 pm1' -> opmap o1 = opmap o2 ->
      rs vs (match add_op toks1 y1 o1 s1 p1 with
             | AOk y' => shunt_loop toks1 n f1 f2 f3 stmt y' (adapt_state stmt y' nx) pm1 p1
             | AErr q e => (pm1, Failure q e)
             | AAbort w => (pm1, Abort w)
             end)
            (match add_op toks2 y2 o2 s1 p1 with
             | AOk y' => shunt_loop toks2 m g1 g2 g3 stmt y' (adapt_state stmt y' nx) pm1' p1
             | AErr q e => (pm1', Failure q e)
             | AAbort w => (pm1', Abort w)
             end)).
    { intros pm1 pm1' o1 o2 s1 nx p1 M1 Ho.
      destruct (add_op_rel y1 y2 o1 o2 s1 p1 Hy Ho) as [z1 z2 Hz|q e|w]; [|now apply rs_fail|now apply rs_abort].
      rewrite (adapt_rel stmt z1 z2 nx Hz). now apply IH. }
    assert (PA : forall pm1 pm1' v1 v2 q, ms pm1 pm1' -> vs v1 v2 ->
      rs vs
        (on_prefix_or_atom v1
          (fun op => match add_op toks1 y1 (OpPrefix op) p q with
             | AOk y' => shunt_loop toks1 n f1 f2 f3 stmt y' (adapt_state stmt y' SPrefix) pm1 q
             | AErr q e => (pm1, Failure q e)
             | AAbort w => (pm1, Abort w)
             end)
          (fun v => shunt_loop toks1 n f1 f2 f3 stmt (add_expression y1 v p q)
             (adapt_state stmt (add_expression y1 v p q) SAtom) pm1 q) (pm1, Abort IllTyped))
        (on_prefix_or_atom v2
          (fun op => match add_op toks2 y2 (OpPrefix op) p q with
             | AOk y' => shunt_loop toks2 m g1 g2 g3 stmt y' (adapt_state stmt y' SPrefix) pm1' q
             | AErr q e => (pm1', Failure q e)
             | AAbort w => (pm1', Abort w)
             end)
          (fun v => shunt_loop toks2 m g1 g2 g3 stmt (add_expression y2 v p q)
             (adapt_state stmt (add_expression y2 v p q) SAtom) pm1' q) (pm1', Abort IllTyped))).
    { intros pm1 pm1' v1 v2 q M1 Hv. unfold vs in Hv.
      destruct v1 as [| | | | | | | | | | |e1 k1 x1], v2 as [| | | | | | | | | | |e2 k2 x2]; try discriminate Hv;
        cbn [on_prefix_or_atom]; try now apply rs_abort.
      cbn [vmap] in Hv. injection Hv as -> -> Hv.
      destruct (String.eqb k2 "Prefix"); [apply ADD; [assumption|cbn [opmap]; congruence]|].
      destruct (String.eqb k2 "Atom"); [|now apply rs_abort].
      pose proof (add_expression_rel y1 y2 x1 x2 p q Hy Hv) as Hz.
      rewrite (adapt_rel stmt _ _ SAtom Hz). now apply IH. }
    assert (IP : forall pm1 pm1' v1 v2 q, ms pm1 pm1' -> vs v1 v2 ->
      rs vs
        (on_infix_or_postfix v1
          (fun op => match add_op toks1 y1 (OpInfix op) p q with
             | AOk y' => shunt_loop toks1 n f1 f2 f3 stmt y' (adapt_state stmt y' (SInfix (is_range op))) pm1 q
             | AErr q e => (pm1, Failure q e)
             | AAbort w => (pm1, Abort w)
             end)
          (fun op => match add_op toks1 y1 (OpPostfix op) p q with
             | AOk y' => shunt_loop toks1 n f1 f2 f3 stmt y' (adapt_state stmt y' SPostfix) pm1 q
             | AErr q e => (pm1, Failure q e)
             | AAbort w => (pm1, Abort w)
             end) (pm1, Abort IllTyped))
        (on_infix_or_postfix v2
          (fun op => match add_op toks2 y2 (OpInfix op) p q with
             | AOk y' => shunt_loop toks2 m g1 g2 g3 stmt y' (adapt_state stmt y' (SInfix (is_range op))) pm1' q
             | AErr q e => (pm1', Failure q e)
             | AAbort w => (pm1', Abort w)
             end)
          (fun op => match add_op toks2 y2 (OpPostfix op) p q with
             | AOk y' => shunt_loop toks2 m g1 g2 g3 stmt y' (adapt_state stmt y' SPostfix) pm1' q
             | AErr q e => (pm1', Failure q e)
             | AAbort w => (pm1', Abort w)
             end) (pm1', Abort IllTyped))).
    { intros pm1 pm1' v1 v2 q M1 Hv. unfold vs in Hv.
      destruct v1 as [| | | | | | | | | | |e1 k1 x1], v2 as [| | | | | | | | | | |e2 k2 x2]; try discriminate Hv;
        cbn [on_infix_or_postfix]; try now apply rs_abort.
      cbn [vmap] in Hv. injection Hv as -> -> Hv.
      destruct (String.eqb k2 "Infix").
      { rewrite <- (is_range_map er eu x1), Hv, is_range_map. apply ADD; [assumption|cbn [opmap]; congruence]. }
      destruct (String.eqb k2 "Postfix"); [|now apply rs_abort].
      apply ADD; [assumption|cbn [opmap]; congruence]. }
    assert (M0 := M). destruct M as [Ms Mf]. rewrite Ms.
    destruct s as [|wr| | |].
    - both H1; [now apply PA|now apply finish_rel|now apply rs_abort].
    - destruct (is_ambiguous (m_state pm') && wr).
      + pose proof (with_amb_rel Maximum f1 g1 H1) as H1'.
        both H1'; [now apply PA|now apply finish_rel|now apply rs_abort].
      + both H1; [now apply PA|now apply finish_rel|now apply rs_abort].
    - both H2; [now apply IP|now apply finish_rel|now apply rs_abort].
    - both H2; [now apply IP|now apply finish_rel|now apply rs_abort].
    - both H3; [|now apply finish_rel|now apply rs_abort].
      apply ADD; [assumption|]. unfold vs in X. cbn [opmap]. congruence.
  Qed.

  Theorem run_rel tbl n : forall m, n <= m -> forall x e1 e2, es e1 e2 ->
    prs vs (run tbl toks1 n x e1) (run tbl toks2 m x e2).
  Proof.
    induction n as [|n IH]; intros m L x e1 e2 He pm pm' p M; [destruct x; apply rs_out|].
    destruct m as [|m]; [lia|]. assert (L' : n <= m) by lia. specialize (IH m L').
    destruct x as [mt err|nn| |steps b|gs|y|y|app sep f|sep f|sep f|sep f|o c|y|y|y err|y err|l y|err y|a b|stmt];
      cbn [run].
    - now apply tok_rel.
    - now apply IH.
    - apply rs_ok; [assumption|reflexivity].
    - now apply steps_rel.
    - apply alternate_rel; [|assumption]. induction gs as [|y gs IHg]; cbn [map]; constructor; auto.
    - apply map_rel with (R := os); [apply optional_rel; auto| |assumption].
      unfold os, vs. intros [a|] [b|] H; try discriminate; [|reflexivity]. cbn in *. congruence.
    - apply map_rel with (R := ls); [apply many_rel; auto| |assumption].
      unfold ls, vs. intros a b H. cbn [vmap]. congruence.
    - destruct (beval_rel p e1 e2 He app) as [v1 v2 H|w]; [|now apply rs_abort].
      destruct v1, v2; try discriminate H; try now apply rs_abort.
      apply vs_list in H. apply tailed_rel; auto.
    - apply tailed1_rel; auto.
    - apply resume_rel; auto.
    - apply implicit_loop_rel; auto. reflexivity.
    - now apply nested_rel.
    - pose proof (IH y e1 e2 He) as H. both H; [|now apply rs_fail|now apply rs_abort].
      destruct (HE p p0) as [x1 x2 Hx|w]; [|now apply rs_abort]. apply rs_ok; [assumption|].
      unfold vs. cbn [vmap]. congruence.
    - apply map_rel with (R := vs); [apply peek_rel; auto| |assumption]. reflexivity.
    - pose proof (IH y e1 e2 He) as H. both H; [now apply rs_ok|now apply rs_fail|now apply rs_abort].
    - pose proof (IH y e1 e2 He) as H. both H; [|now apply rs_fail|now apply rs_abort].
      destruct a, b; try discriminate X; try now apply rs_abort.
      unfold vs in X. cbn [vmap] in X. unfold nmap in X. injection X as R1 R2 R3 R4 R5 R6 R7.
      apply HU in R7. unfold into_simple. rewrite R1.
      destruct (n_radix n1); try now apply rs_fail.
      destruct (n_fractional n0), (n_fractional n1); try discriminate R4; try now apply rs_fail.
      destruct (n_exponent n0), (n_exponent n1); try discriminate R5; try now apply rs_fail.
      destruct (n_type_suffix n0), (n_type_suffix n1); try discriminate R6; try now apply rs_fail.
      destruct (n_underscores n0), (n_underscores n1); try now apply rs_fail.
      + apply rs_ok; [assumption|]. unfold vs. cbn [vmap]. congruence.
      + discriminate (proj1 R7 eq_refl).
      + discriminate (proj2 R7 eq_refl).
    - apply with_amb_rel; auto.
    - pose proof (proj1 M) as Ms. rewrite Ms. destruct (is_maximum (m_state pm')); [now apply rs_fail|now apply IH].
    - pose proof (proj1 M) as Ms. rewrite Ms. destruct (is_ambiguous (m_state pm')); now apply IH.
    - apply shunt_rel; auto; try (apply IH; reflexivity). split; reflexivity.
  Qed.
End Rel.
