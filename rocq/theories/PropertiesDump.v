(** C64: what is printed for a syntax tree tells the tree.

    Read with: Dump.v ([debug]: what [{:#?}] prints), Value.v ([typed]). *)

From Coq Require Import String Ascii List Bool Arith NArith Lia DecimalString DecimalNat Decimal.
From Verif Require Import Base Token Tokenizer TokenizerSpec Schema Value Apportion Lib Whitespace FileSpec LibOk Tools Dump.
From Verif Require Account PropertiesAccessors.
Import ListNotations.
Local Open Scope string_scope.
Local Open Scope list_scope.
Local Open Scope nat_scope.

(** ** Words *)
Definition delimiter (c : char) : Prop := c = 40%N \/ c = 44%N \/ c = 10%N.
Definition delimited (r : text) : Prop := match r with [] => True | c :: _ => delimiter c end.

Lemma word_inj w : forall w' r r', Forall (fun c => ~ delimiter c) w -> Forall (fun c => ~ delimiter c) w' ->
  delimited r -> delimited r' -> w ++ r = w' ++ r' -> w = w' /\ r = r'.
Proof.
  induction w as [|c w IH]; intros [|c' w'] r r' F F' D D' E; cbn [List.app] in E.
  - auto.
  - rewrite E in D. inversion F'; subst. contradiction.
  - rewrite <- E in D'. inversion F; subst. contradiction.
  - injection E as <- E. inversion F; inversion F'; subst. destruct (IH w' r r') as [-> ->]; auto.
Qed.

Lemma str_inj a : forall b, str a = str b -> a = b.
Proof.
  induction a as [|c a IH]; intros [|d b] E; try discriminate; [reflexivity|]. cbn in E. injection E as E1 E2. f_equal; [|auto].
  apply (f_equal ascii_of_N) in E1. now rewrite !ascii_N_embedding in E1.
Qed.

Lemma digits_inj n m : digits n = digits m -> n = m.
Proof.
  unfold digits. intros E. apply str_inj in E. apply (f_equal NilEmpty.uint_of_string) in E. rewrite !NilEmpty.usu in E. injection E as E.
  now apply Unsigned.to_uint_inj.
Qed.
Lemma digits_word n : Forall (fun c => ~ delimiter c) (digits n).
Proof.
  unfold digits. generalize (Nat.to_uint n). intros u. unfold delimiter.
  induction u; cbn; constructor; try assumption; intros [H|[H|H]]; discriminate.
Qed.

(** ** Trees *)
Definition same_start (v : val) : Prop := forall t v' d r r', Account.public t = true -> typed v t -> typed v' t ->
  delimited r -> delimited r' -> debug d v ++ r = debug d v' ++ r' -> v = v' /\ r = r'.

Definition fields_text (d : nat) : list val -> list (string * ty * bool) -> text :=
  fix go (fs : list val) (fields : list (string * ty * bool)) : text :=
    match fs, fields with
    | x :: fs', (f, _, _) :: fields' => line_at (S d) ++ str f ++ str ": " ++ debug (S d) x ++ str "," ++ go fs' fields'
    | _, _ => []
    end.
Lemma debug_node d k fs : debug d (VNode k fs) = str (type_name k) ++ str " {" ++ fields_text d fs (fields_of k) ++ line_at d ++ str "}".
Proof. reflexivity. Qed.

Lemma comma r : delimited (str "," ++ r).
Proof. right. left. reflexivity. Qed.

Lemma fields_inj d fs : Forall same_start fs -> forall fields fs' r r',
  forallb (fun f => Account.public (snd (fst f))) fields = true ->
  Forall2 (fun v f => typed v (snd (fst f))) fs fields -> Forall2 (fun v f => typed v (snd (fst f))) fs' fields ->
  fields_text d fs fields ++ r = fields_text d fs' fields ++ r' -> fs = fs' /\ r = r'.
Proof.
  induction 1 as [|x fs Hx _ IH]; intros fields fs' r r' P T T' E.
  - inversion T; subst. inversion T'; subst. auto.
  - inversion T as [|? [[f t] b] ? fields' Tx Tf]; subst. inversion T' as [|x' ? fs'' ? Tx' Tf']; subst. cbn [forallb fst snd] in *.
    apply andb_true_iff in P as [P1 P2]. cbn [fields_text] in E. fold (fields_text d) in E. rewrite <- !app_assoc in E. do 3 apply app_inv_head in E.
    apply (Hx t x' (S d)) in E as [-> E]; auto using comma. apply app_inv_head in E.
    destruct (IH fields' fs'' r r') as [-> ->]; auto.
Qed.

Lemma spaces_inj n (a b : text) : repeat 32%N n ++ a = repeat 32%N n ++ b -> a = b.
Proof. apply app_inv_head. Qed.

Lemma line_deeper d (a b : text) : line_at (S d) ++ a <> line_at d ++ str "]" ++ b.
Proof.
  unfold line_at. replace (4 * S d) with (4 * d + 4) by lia. rewrite repeat_app. cbn [List.app repeat]. intros E. injection E as E.
  rewrite <- app_assoc in E. apply app_inv_head in E. discriminate.
Qed.

Definition elements (d : nat) (l : list val) : text := flat_map (fun x => line_at (S d) ++ debug (S d) x ++ str ",") l.
Lemma elements_inj d l : Forall same_start l -> forall t l' r r', Account.public t = true ->
  (forall v, In v l -> typed v t) -> (forall v, In v l' -> typed v t) ->
  elements d l ++ line_at d ++ str "]" ++ r = elements d l' ++ line_at d ++ str "]" ++ r' -> l = l' /\ r = r'.
Proof.
  induction 1 as [|x l Hx _ IH]; intros t [|x' l'] r r' P T T' E; unfold elements in E; cbn [flat_map] in E; rewrite <- ?app_assoc in E.
  - cbn [List.app] in E. apply app_inv_head in E. injection E. auto.
  - cbn [List.app] in E. symmetry in E. now apply line_deeper in E.
  - cbn [List.app] in E. now apply line_deeper in E.
  - apply app_inv_head in E. apply (Hx t x' (S d)) in E as [-> E]; auto using comma; [|apply T; now left|apply T'; now left].
    apply app_inv_head in E. destruct (IH t l' r r') as [-> ->]; auto; intros v I; [apply T|apply T']; now right.
Qed.

Lemma structs_not_enums : forallb (fun s => match enum_variants (fst s) with None => true | _ => false end) structs = true.
Proof. vm_compute. reflexivity. Qed.
Lemma names_words : forallb (fun s => forallb (fun v => forallb (fun c => negb (N.eqb c 40) && negb (N.eqb c 44) && negb (N.eqb c 10)) (str (fst v))) (snd s)) enums = true.
Proof. vm_compute. reflexivity. Qed.

Lemma variant_word e vs x t : In (e, vs) enums -> assoc x vs = Some t -> Forall (fun c => ~ delimiter c) (str x).
Proof.
  intros I A. pose proof names_words as B. rewrite forallb_forall in B. specialize (B _ I). cbn [snd] in B. rewrite forallb_forall in B.
  apply SpansOk.assoc_in in A. specialize (B _ A). cbn [fst] in B. rewrite forallb_forall in B. apply Forall_forall. intros c Ic D. specialize (B c Ic).
  destruct D as [->|[->| ->]]; discriminate.
Qed.

Lemma debug_prefix v : same_start v.
Proof.
  induction v using val_ind'; intros t v' d r r' P T T' D D' E.
  - inversion T; subst. inversion T'; subst. cbn [debug] in E. rewrite <- !app_assoc in E. do 2 apply app_inv_head in E.
    apply word_inj in E as [E1 E]; auto using digits_word, comma. do 2 apply app_inv_head in E. apply word_inj in E as [E2 E]; auto using digits_word, comma.
    do 3 apply app_inv_head in E. apply digits_inj in E1, E2. destruct e, e0. cbn in *. subst. auto.
  - inversion T; subst. inversion T'; subst. cbn [debug] in E. destruct b, b0; cbn in E; try discriminate; injection E; auto.
  - inversion T; subst. inversion T'; subst. cbn [debug] in E. apply word_inj in E as [E1 E]; auto using digits_word. apply digits_inj in E1. now subst.
  - inversion T; subst. discriminate P.
  - inversion T; subst. discriminate P.
  - inversion T; subst; inversion T'; subst. cbn [debug] in E. apply app_inv_head in E. auto.
  - inversion T; subst. inversion T'; subst; cbn [debug] in E; [apply app_inv_head in E; auto|discriminate].
  - inversion T; subst. inversion T' as [| | | | | |tw|w tw Tw| | | | |]; subst; cbn [debug] in E; [discriminate|]. rewrite <- !app_assoc in E. do 2 apply app_inv_head in E.
    cbn [Account.public] in P. apply (IHv t0 w (S d)) in E as [-> E]; auto using comma. do 3 apply app_inv_head in E. auto.
  - inversion T as [| | | | | | | |l0 t0 Tl| | | |]; subst. inversion T' as [| | | | | | | |l' t0' Tl'| | | |]; subst. cbn [Account.public] in P.
    assert (Q : forall l, debug d (VList l) = match l with [] => str "[]" | _ => str "[" ++ elements d l ++ line_at d ++ str "]" end) by (intros []; reflexivity).
    rewrite !Q in E. destruct l as [|x l], l' as [|x' l'].
    + apply app_inv_head in E. auto.
    + rewrite <- !app_assoc in E. discriminate E.
    + rewrite <- !app_assoc in E. discriminate E.
    + rewrite <- !app_assoc in E. apply app_inv_head in E. apply (elements_inj d _ H t0) in E as [-> ->]; auto.
  - inversion T; subst. inversion T'; subst. cbn [Account.public] in P. apply andb_true_iff in P as [P1 P2]. cbn [debug] in E. rewrite <- !app_assoc in E. do 2 apply app_inv_head in E.
    apply (IHv1 ta a (S d)) in E as [-> E]; auto using comma. do 2 apply app_inv_head in E. apply (IHv2 tb b (S d)) in E as [-> E]; auto using comma.
    do 3 apply app_inv_head in E. auto.
  - inversion T as [| | | | | | | | | |k0 fs0 fields F Tf| |]; subst. pose proof (Account.public_struct _ _ P F) as J.
    pose proof structs_not_enums as NE. rewrite forallb_forall in NE. specialize (NE _ J). cbn [fst] in NE.
    inversion T' as [| | | | | | | | | |k0' fs' fields' F' Tf'|e' x' p' vs' t' V' A' Tp'|e' x' vs' V' A']; subst; [|rewrite V' in NE; discriminate|rewrite V' in NE; discriminate].
    rewrite F in F'. injection F' as <-. rewrite !debug_node in E. unfold fields_of in E. rewrite F in E. rewrite <- !app_assoc in E. do 2 apply app_inv_head in E.
    apply (fields_inj d _ H fields) in E as [-> E]; auto; [do 2 apply app_inv_head in E; auto|].
    apply Account.public_fields in J. unfold Account.struct_ok in J. apply andb_true_iff in J as [_ J]. cbn [snd] in J.
    rewrite forallb_forall in J |- *. intros f If. specialize (J f If). now apply andb_true_iff in J as [J _].
  - inversion T as [| | | | | | | | | | |e0 x0 p0 vs t0 V A Tp|e0 x0 vs V A]; subst.
    + pose proof (Account.public_enum _ _ P V) as J. pose proof (Account.public_variant _ _ _ _ J A) as Pt.
      inversion T' as [| | | | | | | | | |k0' fs' fields' F' Tf'|e' x' p' vs' t' V' A' Tp'|e' x' vs' V' A']; subst.
      * exfalso. pose proof (Account.public_struct _ _ P F') as J'. pose proof structs_not_enums as NE. rewrite forallb_forall in NE. specialize (NE _ J'). cbn [fst] in NE. now rewrite V in NE.
      * rewrite V in V'. injection V' as <-. cbn [debug] in E. unfold bare_variant in E. rewrite V, A, A' in E. rewrite <- !app_assoc in E.
        apply word_inj in E as [E1 E]; eauto using variant_word; [|left; reflexivity|left; reflexivity]. apply str_inj in E1 as <-. rewrite A in A'. injection A' as <-.
        do 2 apply app_inv_head in E. apply (IHv t0 p' (S d)) in E as [-> E]; auto using comma. do 3 apply app_inv_head in E. auto.
      * exfalso. rewrite V in V'. injection V' as <-. cbn [debug] in E. unfold bare_variant in E. rewrite V, A, A' in E. rewrite <- !app_assoc in E.
        apply word_inj in E as [E1 E]; eauto using variant_word; [|left; reflexivity]. apply str_inj in E1 as <-. congruence.
    + pose proof (Account.public_enum _ _ P V) as J.
      inversion T' as [| | | | | | | | | |k0' fs' fields' F' Tf'|e' x' p' vs' t' V' A' Tp'|e' x' vs' V' A']; subst.
      * exfalso. pose proof (Account.public_struct _ _ P F') as J'. pose proof structs_not_enums as NE. rewrite forallb_forall in NE. specialize (NE _ J'). cbn [fst] in NE. now rewrite V in NE.
      * exfalso. rewrite V in V'. injection V' as <-. cbn [debug] in E. unfold bare_variant in E. rewrite V, A, A' in E. rewrite <- !app_assoc in E.
        apply word_inj in E as [E1 E]; eauto using variant_word; [|left; reflexivity]. apply str_inj in E1 as <-. congruence.
      * rewrite V in V'. injection V' as <-. cbn [debug] in E. unfold bare_variant in E. rewrite V, A, A' in E.
        apply word_inj in E as [E1 E]; eauto using variant_word. apply str_inj in E1 as <-. auto.
Qed.

(** ** What the program [dump] writes *)
Lemma dump_outputs X names files : Forall (fun p => exists code f, p = OutDebug f /\ parse_rust_file X code = FileOk f) (fst (dump X names files)).
Proof.
  induction files as [|[fname [| |code]] files IH]; cbn [dump]; try constructor.
  destruct (parse_rust_file X code) eqn:E; try (destruct (message _ _ _ _); apply Forall_nil); try apply Forall_nil.
  unfold and_then. destruct (dump X names files) as [o e]. cbn [fst List.app] in *. apply Forall_cons; eauto.
Qed.

Lemma file_text f : typed f (TN "File") -> exists t, debug 0 f = str "File {" ++ t.
Proof.
  intros T. inversion T; subst; [|discriminate|discriminate]. rewrite debug_node. change (type_name "File") with "File".
  change (str "File {") with (str "File" ++ str " {"). eexists. rewrite <- app_assoc. reflexivity.
Qed.

Lemma stdout_inj l : forall l', Forall (fun p => exists f, p = OutDebug f /\ typed f (TN "File")) l ->
  Forall (fun p => exists f, p = OutDebug f /\ typed f (TN "File")) l' -> stdout_text l = stdout_text l' -> l = l'.
Proof.
  unfold stdout_text. induction l as [|p l IH]; intros [|p' l'] F F' E.
  - reflexivity.
  - exfalso. inversion F' as [|? ? (f & -> & T) _]; subst. destruct (file_text f T) as (t & D). cbn [flat_map printed_text] in E. rewrite D in E. discriminate.
  - exfalso. inversion F as [|? ? (f & -> & T) _]; subst. destruct (file_text f T) as (t & D). cbn [flat_map printed_text] in E. rewrite D in E. discriminate.
  - inversion F as [|? ? (f & -> & T) Fl]; inversion F' as [|? ? (f' & -> & T') Fl']; subst. cbn [flat_map printed_text] in E. rewrite <- !app_assoc in E.
    apply (debug_prefix f (TN "File") f' 0) in E as [-> E]; auto; try (right; right; reflexivity). apply app_inv_head in E. f_equal. auto.
Qed.

(** ** Indentation *)
(** What the standard library's [PadAdapter] does with what is written through it: four
    spaces behind each line break. *)
Definition indent (t : text) : text := flat_map (fun c => if N.eqb c 10 then 10%N :: repeat 32%N 4 else [c]) t.
Lemma indent_app a b : indent (a ++ b) = indent a ++ indent b.
Proof. apply flat_map_app. Qed.
Lemma indent_word w : Forall (fun c => ~ delimiter c) w -> indent w = w.
Proof.
  induction 1 as [|c w N _ IH]; [reflexivity|]. unfold indent in *. cbn [flat_map]. destruct (N.eqb_spec c 10) as [->|_]; [|cbn [List.app]; now f_equal].
  exfalso. apply N. right. now right.
Qed.
Lemma indent_line d : indent (line_at d) = line_at (S d).
Proof.
  replace (line_at (S d)) with ((10%N :: repeat 32%N 4) ++ repeat 32%N (4 * d)) by (unfold line_at; now replace (4 * S d) with (4 + 4 * d) by lia).
  replace (line_at d) with ([10%N] ++ repeat 32%N (4 * d)) by reflexivity. rewrite indent_app. f_equal.
  generalize (4 * d). intros n. induction n as [|n IH]; [reflexivity|]. change (repeat 32%N (S n)) with ([32%N] ++ repeat 32%N n).
  rewrite indent_app, IH. reflexivity.
Qed.
Lemma struct_names_words : forallb (fun s => forallb (fun c => negb (N.eqb c 10)) (str (type_name (fst s))) &&
  forallb (fun f => forallb (fun c => negb (N.eqb c 10)) (str (fst (fst f)))) (snd s)) structs = true.
Proof. vm_compute. reflexivity. Qed.
Lemma indent_flat w : forallb (fun c => negb (N.eqb c 10)) w = true -> indent w = w.
Proof.
  induction w as [|c w IH]; [reflexivity|]. cbn [forallb]. intros E. apply andb_true_iff in E as [E1 E2]. unfold indent in *. cbn [flat_map].
  destruct (N.eqb c 10); [discriminate|]. cbn [List.app]. f_equal. auto.
Qed.
Lemma indent_digits n : indent (digits n) = digits n. Proof. apply indent_word, digits_word. Qed.

Lemma debug_indent v : forall t d, Account.public t = true -> typed v t -> debug (S d) v = indent (debug d v).
Proof.
  induction v using val_ind'; intros t d P T.
  - cbn [debug]. now rewrite !indent_app, !indent_digits, !indent_line.
  - now destruct b.
  - cbn [debug]. now rewrite indent_digits.
  - reflexivity.
  - reflexivity.
  - reflexivity.
  - reflexivity.
  - inversion T; subst. cbn [debug]. rewrite !indent_app, !indent_line. rewrite <- (IHv t0) by auto. reflexivity.
  - inversion T as [| | | | | | | |l0 t0 Tl| | | |]; subst. cbn [Account.public] in P.
    assert (Q : forall d, debug d (VList l) = match l with [] => str "[]" | _ => str "[" ++ elements d l ++ line_at d ++ str "]" end) by (intros; destruct l; reflexivity).
    rewrite !Q. assert (R : elements (S d) l = indent (elements d l)).
    { clear Q T. induction H as [|x l Hx _ IH]; [reflexivity|]. unfold elements in *. cbn [flat_map]. rewrite !indent_app, indent_line, IH by (intros; apply Tl; now right).
      rewrite <- (Hx t0) by (auto; apply Tl; now left). reflexivity. }
    destruct l; [reflexivity|]. rewrite !indent_app, indent_line, R. reflexivity.
  - inversion T; subst. cbn [Account.public] in P. apply andb_true_iff in P as [P1 P2]. cbn [debug]. rewrite !indent_app, !indent_line.
    rewrite <- (IHv1 ta), <- (IHv2 tb) by auto. reflexivity.
  - inversion T as [| | | | | | | | | |k0 fs0 fields F Tf| |]; subst. pose proof (Account.public_struct _ _ P F) as J.
    pose proof struct_names_words as W. rewrite forallb_forall in W. specialize (W _ J). cbn [fst snd] in W. apply andb_true_iff in W as [W1 W2].
    apply Account.public_fields in J. unfold Account.struct_ok in J. apply andb_true_iff in J as [_ J]. cbn [snd] in J.
    rewrite !debug_node. unfold fields_of. rewrite F, !indent_app, indent_line, (indent_flat _ W1). change (indent (str " {")) with (str " {"). change (indent (str "}")) with (str "}").
    do 2 f_equal. f_equal. clear F T W1 P. revert fields Tf W2 J. induction H as [|x fs Hx _ IH]; intros fields Tf W2 J; inversion Tf as [|? [[f t] b] ? fields' Tx Tl]; subst; [reflexivity|].
    cbn [forallb fst snd] in W2, J, Tx. apply andb_true_iff in W2 as [W1 W2]. apply andb_true_iff in J as [J1 J2]. apply andb_true_iff in J1 as [J1 _].
    cbn [fields_text]. fold (fields_text (S d)). fold (fields_text d). rewrite !indent_app, indent_line, (indent_flat _ W1), (IH fields') by auto. rewrite <- (Hx t) by auto. reflexivity.
  - inversion T as [| | | | | | | | | | |e0 x0 p0 vs t0 V A Tp|e0 x0 vs V A]; subst; pose proof (Account.public_enum _ _ P V) as J; cbn [debug]; unfold bare_variant; rewrite V, A.
    + pose proof (Account.public_variant _ _ _ _ J A) as Pt. rewrite !indent_app, !indent_line, (indent_word (str v)) by eauto using variant_word.
      rewrite <- (IHv t0) by auto. reflexivity.
    + symmetry. apply indent_word. eauto using variant_word.
Qed.

(** Values of one of the types of src/ast.rs that are printed alike are equal. *)
Theorem C64_debug : forall d t v v', Account.public t = true -> typed v t -> typed v' t -> debug d v = debug d v' -> v = v'.
Proof.
  intros d t v v' P T T' E. apply (debug_prefix v t v' d [] [] P T T' I I). now rewrite !app_nil_r.
Qed.

(** Two accepted texts with the same dump have the same tree: every node, every extent and
    all the whitespace. *)
Theorem C64_dump : forall X, xid_sane X -> forall code f code' f', parse_rust_file X code = FileOk f -> parse_rust_file X code' = FileOk f' ->
  debug 0 f = debug 0 f' -> f = f'.
Proof.
  intros X XS code f code' f' E E'. apply (C64_debug 0 (TN "File")); [reflexivity| |]; eapply PropertiesAccessors.file_typed; eauto.
Qed.

(** The same for whole runs of the program: when two runs over any files write the same on
    the standard output, they have read the same trees, file by file. *)
Theorem C64_program : forall X, xid_sane X -> forall names files names' files',
  stdout_text (fst (dump X names files)) = stdout_text (fst (dump X names' files')) -> fst (dump X names files) = fst (dump X names' files').
Proof.
  intros X XS names files names' files' E. apply stdout_inj; auto;
    (eapply Forall_impl; [|apply dump_outputs]; intros p (code & f & -> & F); exists f; split; [reflexivity|eapply PropertiesAccessors.file_typed; eauto]).
Qed.

(** What is printed for a part is what would be printed for it alone, indented. *)
Theorem C64_indented : forall t v, Account.public t = true -> typed v t -> forall d, debug d v = Nat.iter d indent (debug 0 v).
Proof.
  intros t v P T d. induction d as [|d IH]; [reflexivity|]. rewrite (debug_indent v t d P T), IH. reflexivity.
Qed.

(** ** Examples *)
Definition shown (code : string) : option text :=
  match parse_rust_file ascii_xid (str code) with FileOk f => Some (debug 0 f) | _ => None end.
Definition lines (l : list string) : text := removelast (flat_map (fun s => str s ++ [10%N]) l).

Example C64_ex_empty : shown "" = Some (lines ["File {"; "    items: [],"; "    whitespace: [],"; "}"]).
Proof. vm_compute. reflexivity. Qed.

Example C64_ex_whole : shown " use a;" = Some (lines
  ["File {";
   "    items: [";
   "        Attributed {";
   "            extent: Extent(";
   "                1,";
   "                7,";
   "            ),";
   "            attributes: [],";
   "            value: Use(";
   "                Use {";
   "                    extent: Extent(";
   "                        1,";
   "                        7,";
   "                    ),";
   "                    visibility: None,";
   "                    path: UsePath {";
   "                        extent: Extent(";
   "                            5,";
   "                            6,";
   "                        ),";
   "                        path: [],";
   "                        tail: Ident(";
   "                            UseTailIdent {";
   "                                extent: Extent(";
   "                                    5,";
   "                                    6,";
   "                                ),";
   "                                name: Ident {";
   "                                    extent: Extent(";
   "                                        5,";
   "                                        6,";
   "                                    ),";
   "                                },";
   "                                rename: None,";
   "                                whitespace: [],";
   "                            },";
   "                        ),";
   "                        whitespace: [],";
   "                    },";
   "                    whitespace: [";
   "                        Whitespace(";
   "                            Extent(";
   "                                4,";
   "                                5,";
   "                            ),";
   "                        ),";
   "                    ],";
   "                },";
   "            ),";
   "            whitespace: [],";
   "        },";
   "    ],";
   "    whitespace: [";
   "        Whitespace(";
   "            Extent(";
   "                0,";
   "                1,";
   "            ),";
   "        ),";
   "    ],";
   "}"]).
Proof. vm_compute. reflexivity. Qed.

Example C64_ex_use : shown "use a;" <> None /\ shown "use a;" <> shown "use b ;" /\ shown "use a;" = shown "use b;".
Proof. vm_compute. repeat split; discriminate. Qed.

Print Assumptions C64_debug.
Print Assumptions C64_dump.
Print Assumptions C64_program.
Print Assumptions C64_indented.
