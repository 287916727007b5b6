(** Where the extents of a result lie: a static analysis of the table.  For each
    parser it computes from where on its value's extents lie, whether they end at
    a token that was taken whole, and whether the value's own extent holds the
    rest of it; it checks that the fields of every node are built in source order
    and that every node's extent holds its fields, but for the exceptions listed
    in [SpanSpec].  [SpansOk] proves the analysis sound for every derivation. *)

From Coq Require Import String List Arith Bool.
From Verif Require Import Base Peresil Token Schema Value Nt Grammar Points Table Static SpanSpec Deriv.
Import ListNotations.
Local Open Scope string_scope.
Local Open Scope list_scope.
Local Open Scope nat_scope.

(** * Static descriptions of values *)

(** Shapes of values with two parts in source order. *)
Inductive po : Type := PoNo | PoPair | PoOpt | PoCore.

Definition po_eqb (a b : po) : bool :=
  match a, b with PoNo, PoNo | PoPair, PoPair | PoOpt, PoOpt | PoCore, PoCore => true | _, _ => false end.

(** Times count the steps of a sequence: step [i] runs from time [2 * i] to
    [2 * i + 2], and [2 * i + 1] is between the two parts of its value, if there
    are two. *)
Record at_t : Type := mkAt {
  a_emp : bool;          (* no extents at all *)
  a_lo : nat; a_hi : nat;(* extents lie between these times *)
  a_ub : nat;            (* the step after which the value was complete *)
  a_sf : bool;           (* extents end at whole tokens *)
  a_slf : bool;          (* the value's own extent holds the rest *)
  a_md : option nat;     (* the time between the two parts *)
  a_po : po
}.

Inductive entry : Type := EP (i : nat) | EV (a : at_t).
Definition senv := list (string * entry).

Record pa : Type := mkPa { r_emp : bool; r_lo : nat; r_sf : bool; r_sfx : bool; r_slf : bool; r_po : po }.

(** The steps that surely move to another token, those that may move within a
    token, and those that read half a token. *)
Record moves : Type := mkMoves { m_adv : list nat; m_loose : list nat; m_halves : list (nat * tkind) }.
Definition still : moves := mkMoves [] [] [].

Definition nothing : at_t := mkAt true 0 0 0 true false None PoNo.

Section Build.
  Variable se : senv.
  Variable now : nat.
  Variable advl : moves.

  Definition between_b (j k n : nat) : bool := (j <=? n) && (n <? k).
  Definition adv_between (j k : nat) : bool :=
    existsb (between_b j k) (m_adv advl) ||
    two_halves (map snd (filter (fun x => between_b j k (fst x)) (m_halves advl))).
  (** Steps [j] to [k] take nothing or move to another token. *)
  Definition whole_between (j k : nat) : bool :=
    adv_between j k || negb (existsb (between_b j k) (m_loose advl)).
  Definition safe_at (u : nat) (a : at_t) : bool := a_sf a || adv_between (a_ub a) u.

  Definition join (a b : at_t) : at_t :=
    if a_emp a then b else if a_emp b then a
    else let u := Nat.max (a_ub a) (a_ub b) in
         mkAt false (Nat.min (a_lo a) (a_lo b)) (Nat.max (a_hi a) (a_hi b)) u
              (safe_at u a && safe_at u b) false None PoNo.

  (** A value with the extents of another. *)
  Definition plain (a : at_t) : at_t := mkAt (a_emp a) (a_lo a) (a_hi a) (a_ub a) (a_sf a) false None PoNo.
  Definition selfish (a : at_t) (b : bool) : at_t := mkAt (a_emp a) (a_lo a) (a_hi a) (a_ub a) (a_sf a) b None PoNo.
  Definition shaped (a : at_t) (p : po) : at_t := mkAt (a_emp a) (a_lo a) (a_hi a) (a_ub a) (a_sf a) (a_slf a) None p.

  Definition first_part (p : po) (a : at_t) : at_t :=
    match a_md a with
    | Some m => if po_eqb (a_po a) p then mkAt (a_emp a) (a_lo a) m (a_ub a) (a_sf a) false None PoNo else plain a
    | None => plain a
    end.
  Definition second_part (p : po) (a : at_t) : at_t :=
    match a_md a with
    | Some m => if po_eqb (a_po a) p then mkAt (a_emp a) m (a_hi a) (a_ub a) (a_sf a) false None PoNo else plain a
    | None => plain a
    end.

  (** The variable whose extent [b] has. *)
  Fixpoint root (b : bexp) : option string :=
    match b with
    | BVar x => Some x
    | BVariant _ _ b => root b
    | _ => None
    end.

  Definition is_root (x : string) (b : bexp) : bool :=
    match root b with Some y => String.eqb x y | None => false end.

  (** [b] is built from the variable [x] alone. *)
  Fixpoint from (x : string) (b : bexp) : bool :=
    match b with
    | BVar y => String.eqb x y
    | BField "extent" (BVar y) => String.eqb x y
    | BExtentOf b => is_root x b
    | BNil | BNone | BUnit => true
    | BSome b | BSingle b | BVariant _ _ b => from x b
    | BMk _ fs => forallb (fun f => from x (snd f)) fs
    | _ => false
    end.

  Definition var_self (x : string) : bool :=
    match assoc x se with Some (EV a) => a_slf a | _ => false end.

  Definition item : Type := (string * bexp) * at_t.

  (** The extent built by [be] holds the field. *)
  Definition holds (be : bexp) (f : item) : bool :=
    let a := snd f in
    match be with
    | BEx x => match assoc x se with Some (EP j) => (2 * j <=? a_lo a) && safe_at now a | _ => false end
    | BExTo x y =>
        match assoc x se, assoc y se with
        | Some (EP j), Some (EP k) => (2 * j <=? a_lo a) && (a_hi a <=? 2 * k) && (a_ub a <=? k) && safe_at k a
        | _, _ => false
        end
    | BVar x | BField "extent" (BVar x) => var_self x && from x (snd (fst f))
    | _ => false
    end.

  (** The extent of what [b] builds. *)
  Fixpoint extent_exp (b : bexp) : option bexp :=
    match b with
    | BVar x => Some (BVar x)
    | BVariant _ _ b => extent_exp b
    | BMk _ ((f, be) :: _) => if String.eqb f "extent" then Some be else None
    | _ => None
    end.

  Definition contains (be : bexp) (f : item) : bool :=
    a_emp (snd f) || holds be f ||
    match be with
    | BExtentOf b => match extent_exp b with Some be' => holds be' f | None => false end
    | _ => false
    end.

  Definition precedes (x y : item) : bool :=
    a_emp (snd x) || a_emp (snd y) || (a_hi (snd x) <=? a_lo (snd y)) ||
    match snd (fst x), snd (fst y) with
    | BStmts (BVar s) (BVar t), BTrailing (BVar s') (BVar t') => String.eqb s s' && String.eqb t t'
    | _, _ => false
    end.

  Fixpoint in_order (k : string) (l : list item) : bool :=
    match l with
    | [] => true
    | x :: l' => forallb (fun y => implb (ordered_pair k (fst (fst x)) (fst (fst y))) (precedes x y)) l' && in_order k l'
    end.

  Definition names_match (k : string) (l : list item) : bool :=
    match struct_fields k with
    | Some fields => (length fields =? length l) &&
                     forallb (fun x => String.eqb (fst (fst (fst x))) (fst (fst (snd x)))) (combine fields l)
    | None => false
    end.

  Definition mk_at (k : string) (l : list item) : option at_t :=
    if names_match k l && in_order k l then
      let all := fold_right (fun x a => join (snd x) a) nothing l in
      let own := match l with ((f, be), _) :: rest => String.eqb f "extent" && forallb (contains be) rest | [] => false end in
      if String.eqb k "DisambiguationCore" then
        match l with
        | [x; y; z] => Some (shaped (plain all) (if precedes x y && a_emp (snd z) then PoCore else PoNo))
        | _ => None
        end
      else if is_hollow k then Some (plain all)
      else match l with
           | ((f, _), _) :: _ => if String.eqb f "extent" then if own then Some (selfish all true) else None else Some (plain all)
           | [] => Some (plain all)
           end
    else None.

  Definition point_of (x : string) : option nat :=
    match assoc x se with Some (EP j) => Some j | _ => None end.

  Definition omap {A B} (f : A -> B) (o : option A) : option B := match o with Some x => Some (f x) | None => None end.
  Definition obind {A B} (o : option A) (f : A -> option B) : option B := match o with Some x => f x | None => None end.

  Fixpoint bat (b : bexp) : option at_t :=
    match b with
    | BVar x => match assoc x se with Some (EV a) => Some a | _ => None end
    | BEx x => omap (fun j => mkAt false (2 * j) (2 * now) now (whole_between j now) true None PoNo) (point_of x)
    | BExTo x y =>
        obind (point_of x) (fun j => obind (point_of y) (fun k =>
          if j <=? k then Some (mkAt false (2 * j) (2 * k) k (whole_between j k) true None PoNo) else None))
    | BUnit | BNil | BNone => Some nothing
    | BIsSome b => omap (fun _ => nothing) (bat b)
    | BSome b | BSingle b | BIntoAppend b | BUnwrapNil b => omap plain (bat b)
    | BUnwrapOr b d => obind (bat b) (fun a => omap (fun a' => plain (join a a')) (bat d))
    | BMk k fs =>
        obind ((fix go (fs : list (string * bexp)) : option (list item) :=
                  match fs with
                  | [] => Some []
                  | (f, b) :: fs' => obind (bat b) (fun a => omap (cons ((f, b), a)) (go fs'))
                  end) fs) (mk_at k)
    | BVariant _ _ b => omap (fun a => selfish a (a_slf a)) (bat b)
    | BPair a b =>
        obind (bat a) (fun x => omap (fun y =>
          shaped (plain (join x y)) (if precedes (("", a), x) (("", b), y) then PoPair else PoNo)) (bat b))
    | BFst b => omap (first_part PoPair) (bat b)
    | BSnd b => omap (second_part PoPair) (bat b)
    | BField f b =>
        omap (fun a => if String.eqb f "extent" then plain a
                       else if String.eqb f "from_type" then first_part PoCore a
                       else if String.eqb f "to_type" then second_part PoCore a
                       else if String.eqb f "whitespace" && po_eqb (a_po a) PoCore then nothing
                       else plain a) (bat b)
    | BExtentOf b => omap (fun a => selfish a true) (bat b)
    | BOptFst b => omap (first_part PoOpt) (bat b)
    | BOptSnd b => omap (second_part PoOpt) (bat b)
    | BStmts s t => obind (bat t) (fun _ => omap plain (bat s))
    | BTrailing s t => obind (bat t) (fun _ => omap plain (bat s))
    | BParen x t =>
        obind (bat x) (fun ax => obind (bat t) (fun a =>
          if contains x (("", t), a) then Some (selfish (join ax a) true) else None))
    | BNumber b => omap (fun a => selfish a true) (bat b)
    end.
End Build.

(** * Parsers *)

Section Check.
  Variable nat_attr : nt -> bool * bool * bool * po.

  Definition meet (a b : pa) : pa :=
    mkPa (r_emp a && r_emp b) (Nat.min (r_lo a) (r_lo b)) (r_sf a && r_sf b) (r_sfx a && r_sfx b) (r_slf a && r_slf b)
         (if po_eqb (r_po a) (r_po b) then r_po a else PoNo).

  Definition is_infix_build (b : bexp) : bool :=
    match b with BVariant _ v _ => String.eqb v "Infix" || String.eqb v "Prefix" | _ => false end.

  (** The time of the value of step [i]. *)
  Definition step_at (i : nat) (r : pa) : at_t :=
    let two := (r_lo r =? 2 * i) && negb (po_eqb (r_po r) PoNo) in
    mkAt (r_emp r) (r_lo r) (2 * i + 2) (i + 1) (r_sf r) (r_slf r)
         (if two then Some (2 * i + 1) else None) (if two then r_po r else PoNo).

  Fixpoint bind_at (p : pat) (a : at_t) (se : senv) : senv :=
    match p with
    | PVar x => (x, EV a) :: se
    | PPair p1 p2 => bind_at p2 (second_part PoPair a) (bind_at p1 (first_part PoPair a) se)
    end.

  Definition moved (i : nat) (y : g) (advl : moves) : moves :=
    mkMoves (if tdadv y then i :: m_adv advl else m_adv advl)
            (if tsadv y then m_loose advl else i :: m_loose advl)
            (match y with
             | GTok (MK k) _ => if splits_off k then (i, k) :: m_halves advl else m_halves advl
             | _ => m_halves advl
             end).

  Section Steps.
    Variable chk : senv -> nat -> moves -> g -> option pa.
    Fixpoint walk (steps : list (pat * g)) (se : senv) (i : nat) (advl : moves) : option (senv * nat * moves) :=
      match steps with
      | [] => Some (se, i, advl)
      | (p, y) :: rest =>
          match (match p, y with
                 | PVar x, GPoint => Some ((x, EP i) :: se)
                 | _, _ => omap (fun r => bind_at p (step_at i r) se) (chk se i advl y)
                 end) with
          | Some se' => walk rest se' (i + 1) (moved i y advl)
          | None => None
          end
      end.
  End Steps.

  Definition finish (i : nat) (now : nat) (advl : moves) (b : bexp) (a : at_t) : pa :=
    let sf := safe_at advl now a in
    mkPa (a_emp a) (Nat.min (a_lo a) (2 * i)) sf (is_infix_build b || sf) (a_slf a) (a_po a).

  Definition opt_po (p : po) : po := match p with PoPair => PoOpt | _ => PoNo end.

  Fixpoint meets (l : list (option pa)) : option pa :=
    match l with
    | [] => None
    | [o] => o
    | o :: l' => obind o (fun a => omap (meet a) (meets l'))
    end.

  Fixpoint chk (se : senv) (i : nat) (advl : moves) (x : g) {struct x} : option pa :=
    match x with
    | GTok m _ => Some (mkPa false (2 * i) (whole_matcher m) (whole_matcher m) (match m with MK _ => true | _ => false end) PoNo)
    | GNT n => let '(sf, sfx, slf, p) := nat_attr n in Some (mkPa false (2 * i) sf sfx slf p)
    | GPoint => None
    | GSeq steps b =>
        obind (walk chk steps se i advl) (fun '(se', i', advl') => omap (finish i i' advl' b) (bat se' i' advl' b))
    | GAlt gs => meets (map (chk se i advl) gs)
    | GOpt y => omap (fun r => mkPa (r_emp r) (Nat.min (r_lo r) (2 * i)) (r_sf r) (r_sf r) false (opt_po (r_po r))) (chk se i advl y)
    | GMany y => omap (fun r => mkPa false (2 * i) (r_sf r) (r_sf r) false PoNo) (chk [] 0 still y)
    | GTailed app sep f =>
        obind (chk [] 0 still f) (fun r =>
          obind (bat se i advl app) (fun a =>
            let sf := r_sf r && (a_emp a || safe_at advl i a) in
            Some (mkPa false (if a_emp a then 2 * i else Nat.min (2 * i) (a_lo a)) sf sf false PoPair)))
    | GTailed1 sep f | GImplicit sep f =>
        omap (fun r => mkPa false (2 * i) (r_sf r) (r_sf r) false PoPair) (chk [] 0 still f)
    | GResume sep f => omap (fun r => mkPa false (2 * i) (r_sf r) (r_sf r) false PoNo) (chk [] 0 still f)
    | GNested _ _ => Some (mkPa false (2 * i) true true true PoNo)
    | GExt y => Some (mkPa false (2 * i) (tdadv y || tsadv y) (tdadv y || tsadv y) true PoNo)
    | GPeek y => Some (mkPa true (2 * i) true true false PoNo)
    | GMapErr y _ | GAmb _ y | GIfMax _ y => chk se i advl y
    | GSimple y _ => omap (fun r => mkPa false (r_lo r) (r_sf r) (r_sf r) true PoNo) (chk se i advl y)
    | GIfAmb a b => obind (chk se i advl a) (fun r => omap (meet r) (chk se i advl b))
    | GShunt _ => Some (mkPa false (2 * i) true true true PoNo)
    end.
End Check.

Definition attr0 : bool * bool * bool * po := (true, true, true, PoNo).
Definition attr_list : list (bool * bool * bool * po) :=
  Eval vm_compute in
    Nat.iter 25 (fun l => map (fun n =>
        match chk (lookup attr0 l) [] 0 still (table n) with
        | Some r => (r_sf r, r_sfx r, r_slf r, r_po r)
        | None => lookup attr0 l n
        end) all_nts)
      (map (fun _ => attr0) all_nts).
Definition nattr : nt -> bool * bool * bool * po := lookup (false, false, false, PoNo) attr_list.
Definition tchk := chk nattr.

Definition span_ok (n : nt) : bool :=
  match tchk [] 0 still (table n) with
  | Some r =>
      let '(sf, sfx, slf, p) := nattr n in
      implb sf (r_sf r) && implb sfx (r_sfx r) && implb slf (r_slf r) && (po_eqb p PoNo || po_eqb p (r_po r))
  | None => false
  end.

Lemma spans_checked : forallb span_ok all_nts = true.
Proof. vm_compute. reflexivity. Qed.
