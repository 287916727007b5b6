(** Properties C32 (which nodes visitors reach) and C50 - C52: the command line
    programs. *)

From Coq Require Import String List Bool Arith NArith Lia.
From Verif Require Import Base Token Peresil Tokenizer TokenizerSpec TokenizerWhole Schema Value Visit VisitSpec VisitAll
  Grammar Apportion Lib LibOk FileSpec PropertiesTokenizer PropertiesFile PropertiesVisit Tools.
Import ListNotations.
Local Open Scope string_scope.
Local Open Scope list_scope.
Local Open Scope nat_scope.

Lemma file_typed X code f : xid_sane X -> parse_rust_file X code = FileOk f -> typed f (TN "File").
Proof.
  intros XS E. pose proof (parse_rust_file_ok X code XS) as H. rewrite E in H. destruct H as (ts & parsed & T & P & F). apply F.
Qed.

(** ** C32: every node of a returned file is entered and left exactly once,
    except for the kinds of nodes that occur in the qualifier of [pub(...)], in
    the whitespace of [Attributed] nodes or as operators ([hidden]). *)
Theorem C32_reaches_every_other_node_partial : forall X, xid_sane X -> forall code f, parse_rust_file X code = FileOk f ->
  forall (S : Type) enter leave (s : S), (forall s k v, snd (enter s k v) = Continue) ->
  exists log, follows enter leave s log (visit S enter leave f s) /\ well_nested log /\
    forall k, ~ In k hidden ->
      enters (fun k' _ => String.eqb k k') log = List.length (filter (is_node k) (parts f)) /\
      leaves (fun k' _ => String.eqb k k') log = List.length (filter (is_node k) (parts f)).
Proof.
  intros X XS code f E S enter leave s C. destruct (C32_well_nested S enter leave f s C) as (log & T & F & W & En & Le).
  exists log. split; [auto|]. split; [auto|]. intros k NH. rewrite En, Le.
  enough (count (fun k' _ => String.eqb k k') f = List.length (filter (is_node k) (parts f))) by auto.
  rewrite (count_all _) with (t := TN "File").
  - reflexivity.
  - intros k' w H. apply String.eqb_eq in H. subst k'. unfold in_hidden. rewrite <- not_true_iff_false. intros H. apply NH.
    apply existsb_exists in H as (k' & I & H). apply String.eqb_eq in H. now subst.
  - eapply file_typed; eauto.
  - reflexivity.
Qed.

Example C32_reaches_ex : exists f, parse_rust_file ascii_xid sample = FileOk f /\
  ~ In "Expression" hidden /\ List.length (filter (is_node "Expression") (parts f)) = 6.
Proof.
  eexists. split; [vm_compute; reflexivity|]. split; [|vm_compute; reflexivity]. intros H. repeat (destruct H as [H|H]; [discriminate|]). destruct H.
Qed.

(** ** C50: the number that the stats program prints for an accepted file is the
    number of statements in its syntax tree. *)
Definition statements (f : val) : nat := List.length (filter (is_node "Statement") (parts f)).

Theorem C50_statement_count : forall X, xid_sane X -> forall code f, parse_rust_file X code = FileOk f ->
  forall names fname keep_going,
  stats X names false keep_going [(fname, Contents code)] =
    ([Out (fname ++ str ": " ++ digits (statements f) ++ str " statements")], Done).
Proof.
  intros X XS code f E names fname kg. cbn [stats]. rewrite E. unfold and_then. cbn [fst snd]. rewrite app_nil_r. do 4 f_equal. f_equal. f_equal.
  destruct (C32_reaches_every_other_node_partial X XS code f E nat stats_enter stats_leave 0 ltac:(reflexivity)) as (log & F & _ & H).
  destruct (H "Statement") as [_ L]. { intros I. repeat (destruct I as [I|I]; [discriminate|]). destruct I. }
  unfold statements. rewrite <- L.
  assert (forall log m n, follows stats_enter stats_leave m log n -> n = m + leaves (fun k' _ => String.eqb "Statement" k') log) as G; [|f_equal; exact (G _ _ _ F)].
  clear. intros log m n F. induction F as [s|s s1 s2 k v c log EN F IH|s s2 k v log F IH].
  - unfold leaves. cbn [filter List.length]. lia.
  - injection EN as <- <-. exact IH.
  - rewrite IH. unfold leaves, stats_leave. cbn [filter]. rewrite (String.eqb_sym k "Statement"). destruct (String.eqb "Statement" k); cbn [List.length]; lia.
Qed.

Example C50_ex : stats ascii_xid (fun _ => []) false false [(str "a.rs", Contents (str "fn f() { let a = { b; c }; a; } fn g() { h(); }"))] =
  ([Out (str "a.rs: 5 statements")], Done).
Proof. vm_compute. reflexivity. Qed.

(** ** C51: files are handled in the order given.  With keep-going each one gets
    its line or its complaint; without it the program stops at the first file
    that is not accepted, after the lines of those before it, and names it. *)
Definition stats_line (fname : text) (f : val) : printed := Out (fname ++ str ": " ++ digits (statements f) ++ str " statements").

Definition complaint (fname : text) (m : text) : Prop := exists d, m = str "Unable to parse " ++ fname ++ [newline] ++ d.

(** [answers check X file l]: [l] is what is printed for the file. *)
Inductive answers (check : bool) (X : xid) : text * source -> list printed -> Prop :=
| an_ok fname code f : parse_rust_file X code = FileOk f ->
    answers check X (fname, Contents code) (if check then [] else [stats_line fname f])
| an_err fname code m : (forall f, parse_rust_file X code <> FileOk f) -> complaint fname m ->
    answers check X (fname, Contents code) [Err m].

Lemma message_some X code names fname : xid_sane X -> (forall f, parse_rust_file X code <> FileOk f) ->
  exists m, message names fname code (parse_rust_file X code) = Some m /\ complaint fname m.
Proof.
  intros XS N. pose proof (fun title l n H => file_error X XS code title l n H) as R.
  pose proof (C18_total X XS code) as T. destruct (parse_rust_file X code) as [f|e|l es|w] eqn:E.
  - destruct (N f eq_refl).
  - destruct (R _ _ _ eq_refl) as (_ & _ & _ & H). destruct (H (names (FileTokErr e))) as (d & D). cbn [error_at fst snd] in D.
    unfold message, detail_text. rewrite D. eexists. split; [reflexivity|]. eexists. reflexivity.
  - destruct (R _ _ _ eq_refl) as (_ & _ & _ & H). destruct (H (names (FileErr l es))) as (d & D).
    unfold message, detail_text. rewrite D. eexists. split; [reflexivity|]. eexists. reflexivity.
  - destruct (T w eq_refl).
Qed.

Lemma stats_ok X names check kg fname code f rest : xid_sane X -> parse_rust_file X code = FileOk f ->
  stats X names check kg ((fname, Contents code) :: rest) = and_then (if check then [] else [stats_line fname f]) (stats X names check kg rest).
Proof.
  intros XS E. pose proof (C50_statement_count X XS code f E names fname kg) as H. cbn [stats] in *. rewrite E in *. unfold and_then in H. cbn [fst snd] in H.
  rewrite app_nil_r in H. destruct check; [reflexivity|]. assert (forall a b : list printed, (a, Done) = (b, Done) -> a = b) as Q by congruence. apply Q in H. unfold stats_line. now rewrite H.
Qed.

Lemma stats_err X names check kg fname code rest : xid_sane X -> (forall f, parse_rust_file X code <> FileOk f) ->
  exists m, complaint fname m /\ stats X names check kg ((fname, Contents code) :: rest) =
    if kg then and_then [Err m] (stats X names check kg rest) else ([], Panics m).
Proof.
  intros XS N. destruct (message_some X code names fname XS N) as (m & M & C). exists m. split; [auto|]. cbn [stats].
  pose proof (C18_total X XS code) as T. destruct (parse_rust_file X code) as [f|e|l es|w] eqn:E; try (now rewrite M); [destruct (N f eq_refl)|destruct (T w eq_refl)].
Qed.

Theorem C51_keep_going : forall X, xid_sane X -> forall names check files,
  Forall (fun f => exists code, snd f = Contents code) files ->
  exists outs, Forall2 (answers check X) files outs /\ stats X names check true files = (concat outs, Done).
Proof.
  intros X XS names check files R. induction R as [|[fname src] files (code & C) R IH]; [exists []; split; [constructor|reflexivity]|].
  cbn [snd] in C. subst src. destruct IH as (outs & O & S).
  assert ((exists f, parse_rust_file X code = FileOk f) \/ (forall f, parse_rust_file X code <> FileOk f)) as [(f & E)|N].
  { destruct (parse_rust_file X code) as [f| | |]; [left; eauto| | |]; right; intros f; discriminate. }
  - exists ((if check then [] else [stats_line fname f]) :: outs). split; [constructor; [now constructor|auto]|].
    rewrite (stats_ok _ _ _ _ _ _ _ _ XS E), S. reflexivity.
  - destruct (stats_err X names check true fname code files XS N) as (m & C & M). exists ([Err m] :: outs). split; [constructor; [now constructor|auto]|].
    rewrite M, S. reflexivity.
Qed.

Theorem C51_stops_at_first_failure : forall X, xid_sane X -> forall names check good fname code rest,
  Forall (fun f => exists code f', snd f = Contents code /\ parse_rust_file X code = FileOk f') good ->
  (forall f, parse_rust_file X code <> FileOk f) ->
  exists outs m, Forall2 (answers check X) good outs /\ complaint fname m /\
    stats X names check false (good ++ (fname, Contents code) :: rest) = (concat outs, Panics m).
Proof.
  intros X XS names check good fname code rest G N. induction G as [|[fn src] good (c & f & C & E) G IH].
  - destruct (stats_err X names check false fname code rest XS N) as (m & C & M). exists [], m. split; [constructor|]. auto.
  - cbn [snd] in C. subst src. destruct IH as (outs & m & O & C & S). exists ((if check then [] else [stats_line fn f]) :: outs), m.
    split; [constructor; [now constructor|auto]|]. split; [auto|]. cbn [app]. rewrite (stats_ok _ _ _ _ _ _ _ _ XS E), S. reflexivity.
Qed.

Theorem C51_all_accepted : forall X, xid_sane X -> forall names check keep_going files,
  Forall (fun f => exists code f', snd f = Contents code /\ parse_rust_file X code = FileOk f') files ->
  exists outs, Forall2 (answers check X) files outs /\ stats X names check keep_going files = (concat outs, Done).
Proof.
  intros X XS names check kg files G. induction G as [|[fn src] good (c & f & C & E) G IH]; [exists []; split; [constructor|reflexivity]|].
  cbn [snd] in C. subst src. destruct IH as (outs & O & S). exists ((if check then [] else [stats_line fn f]) :: outs).
  split; [constructor; [now constructor|auto]|]. cbn [app]. rewrite (stats_ok _ _ _ _ _ _ _ _ XS E), S. reflexivity.
Qed.

(** The dump program shows the trees of the accepted files before the first one
    that is not. *)
Theorem C51_dump : forall X, xid_sane X -> forall names files,
  Forall (fun f => exists code, snd f = Contents code) files ->
  exists good rest trees, files = good ++ rest /\
    Forall2 (fun file t => exists code, snd file = Contents code /\ parse_rust_file X code = FileOk t) good trees /\
    fst (dump X names files) = map OutDebug trees /\
    ((rest = [] /\ snd (dump X names files) = Done) \/
     exists fname code m rest', rest = (fname, Contents code) :: rest' /\ (forall f, parse_rust_file X code <> FileOk f) /\
       complaint fname m /\ snd (dump X names files) = Panics m).
Proof.
  intros X XS names files R. induction R as [|[fname src] files (code & C) R IH].
  - exists [], [], []. split; [reflexivity|]. split; [constructor|]. split; [reflexivity|left; auto].
  - cbn [snd] in C. subst src. destruct IH as (good & rest & trees & -> & G & F & H).
    pose proof (C18_total X XS code) as T. cbn [dump].
    destruct (parse_rust_file X code) as [f|e|l es|w] eqn:E; [|..|destruct (T w eq_refl)].
    + exists ((fname, Contents code) :: good), rest, (f :: trees). split; [reflexivity|]. split; [constructor; [exists code; auto|auto]|].
      cbn [and_then fst snd app map]. split; [now rewrite F|exact H].
    + exists [], ((fname, Contents code) :: good ++ rest), []. split; [reflexivity|]. split; [constructor|].
      destruct (message_some X code names fname XS) as (m & M & C); [intros f; now rewrite E|]. rewrite E in M. rewrite M.
      split; [reflexivity|]. right. exists fname, code, m, (good ++ rest). split; [auto|]. split; [intros f; now rewrite E|auto].
    + exists [], ((fname, Contents code) :: good ++ rest), []. split; [reflexivity|]. split; [constructor|].
      destruct (message_some X code names fname XS) as (m & M & C); [intros f; now rewrite E|]. rewrite E in M. rewrite M.
      split; [reflexivity|]. right. exists fname, code, m, (good ++ rest). split; [auto|]. split; [intros f; now rewrite E|auto].
Qed.

(** No program ends in a panic of the library, whatever the files. *)
Theorem C51_never_broken : forall X, xid_sane X -> forall names check keep_going files src,
  snd (stats X names check keep_going files) <> Broken /\ snd (dump X names files) <> Broken /\
  snd (tokenizer_program X src) <> Broken.
Proof.
  intros X XS names check kg files src. split; [|split].
  - induction files as [|[fname [| |code]] files IH]; try discriminate.
    assert ((exists f, parse_rust_file X code = FileOk f) \/ (forall f, parse_rust_file X code <> FileOk f)) as [(f & E)|N].
    { destruct (parse_rust_file X code) as [f| | |]; [left; eauto| | |]; right; intros f; discriminate. }
    + rewrite (stats_ok _ _ _ _ _ _ _ _ XS E). exact IH.
    + destruct (stats_err X names check kg fname code files XS N) as (m & C & ->). destruct kg; [exact IH|discriminate].
  - induction files as [|[fname [| |code]] files IH]; try discriminate. cbn [dump].
    pose proof (C18_total X XS code) as T. pose proof (message_some X code names fname XS) as M.
    destruct (parse_rust_file X code) as [f|e|l es|w] eqn:E; [exact IH| | |destruct (T w eq_refl)];
      (destruct M as (m & -> & _); [discriminate|discriminate]).
  - destruct src as [| |code]; try discriminate. cbn [tokenizer_program].
    destruct (C02_eof_once X XS code) as [(e & ->)|(ts & init & T & _)]; [discriminate|]. rewrite T.
    pose proof (C03_extents_valid X code ts T) as V.
    assert (forall l i, incl l ts -> snd (token_lines code i l) <> Broken) as G.
    { induction l as [|t l IH]; intros i I; [discriminate|]. cbn [token_lines].
      destruct (V t (token_extent t)) as (_ & w & ->); [apply I; now left| |].
      - destruct t as [k x|n]; cbn [token_extents token_extent]; now left.
      - apply IH. intros z Hz. apply I. now right. }
    apply G. apply incl_refl.
Qed.

Example C51_ex : stats ascii_xid (fun _ => []) false true
    [(str "a", Contents (str "fn f() { b; }")); (str "c", Contents (str "fn")); (str "d", Contents (str ""))] =
  ([Out (str "a: 1 statements"); Err (str "Unable to parse c
Unable to parse text (line 1, column 2)
fn
 ^
Expected:
"); Out (str "d: 0 statements")], Done).
Proof. vm_compute. reflexivity. Qed.

(** ** C52: the tokenizer program prints the tokens in order, numbered from 0,
    each with its text; the texts put together are the file. *)
Theorem C52_token_lines : forall X code ts, tokenize X code = TokOk ts ->
  exists texts, concat texts = code /\ List.length texts = List.length ts /\
    tokenizer_program X (Contents code) =
      (map (fun x => OutToken (fst x) (fst (snd x)) (snd (snd x)) (existsb (N.eqb newline) (snd (snd x))))
           (combine (seq 0 (List.length ts)) (combine ts texts)), Done).
Proof.
  intros X code ts T. destruct (C01_tokens_tile X code ts T) as (init & _ & _ & _ & texts & F & C). exists texts. split; [auto|].
  split; [symmetry; clear -F; induction F; cbn [List.length]; congruence|]. cbn [tokenizer_program]. rewrite T. generalize 0 as i. clear T C. induction F as [|t w ts texts H F IH]; intros i; [reflexivity|].
  cbn [token_lines]. unfold token_text in H. rewrite H. cbn [List.length seq combine map fst snd]. rewrite IH. reflexivity.
Qed.

Theorem C52_failure : forall X, xid_sane X -> forall code, (forall ts, tokenize X code <> TokOk ts) ->
  tokenizer_program X (Contents code) = ([Out (str "failed to tokenize")], Done).
Proof.
  intros X XS code N. cbn [tokenizer_program]. destruct (C02_eof_once X XS code) as [(e & ->)|(ts & _ & T & _)]; [reflexivity|]. destruct (N _ T).
Qed.

Example C52_ex : tokenizer_program ascii_xid (Contents (str "a 1")) =
  ([OutToken 0 (Tk KIdent (0, 1)) (str "a") false; OutToken 1 (Tk KWhitespace (1, 2)) (str " ") false;
    OutToken 2 (TkNumber (mkNumber RDecimal (2, 3) (2, 3) None None None 0)) (str "1") false; OutToken 3 (Tk KEndOfFile (3, 3)) [] false], Done).
Proof. vm_compute. reflexivity. Qed.

Print Assumptions C32_reaches_every_other_node_partial.
Print Assumptions C50_statement_count.
Print Assumptions C51_keep_going.
Print Assumptions C51_stops_at_first_failure.
Print Assumptions C51_all_accepted.
Print Assumptions C51_dump.
Print Assumptions C51_never_broken.
Print Assumptions C52_token_lines.
Print Assumptions C52_failure.
