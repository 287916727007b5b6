(** Properties of visitors (C32, C33). *)

From Coq Require Import String List Bool Arith NArith.
From Verif Require Import Base Peresil Tokenizer Token Schema Value Visit VisitSpec Grammar Apportion Lib.
Import ListNotations.
Local Open Scope string_scope.
Local Open Scope list_scope.
Local Open Scope nat_scope.

(** ** C32 *)

(** Whatever its state and methods do, a visitor that always answers
    [Continue] is called with a well nested sequence of events that is a
    traversal of the tree; each kind of node is entered, and left, as many
    times as it occurs in the visited fields. *)
Theorem C32_well_nested :
  forall (S : Type) enter leave (v : val) (s : S),
    (forall s k v, snd (enter s k v) = Continue) ->
    exists log,
      traversal (fun _ => true) v log /\
      follows enter leave s log (visit S enter leave v s) /\
      well_nested log /\
      (forall p, enters p log = count p v) /\
      (forall p, leaves p log = count p v).
Proof.
  intros S en le v s Hc.
  destruct (visit_ok S en le v s) as (log & Ht & Hf). exists log.
  pose proof (follows_answers en le (fun _ c => c = Continue) s _ log Hc Hf) as Ha.
  assert (Ht' : traversal (fun _ => true) v log).
  { apply (traversal_weaken _ _ _ _ Ht). eapply Forall_impl; [|exact Ha]. intros [k w c|k w]; auto. }
  pose proof (traversal_nested _ _ _ Ht') as Hn.
  assert (He : forall p, enters p log = count p v) by (intros p; exact (traversal_count _ p _ _ Ht' Ha)).
  repeat split; auto. intros p. rewrite <- He. symmetry. exact (nested_balanced p log Hn).
Qed.

(** The sequence is the only one that fits: the traversal does not depend on
    anything but the tree and the visitor's answers. *)
Theorem C32_unique : forall (S : Type) enter leave prunes v (s a b : S) l1 l2,
  traversal prunes v l1 -> traversal prunes v l2 ->
  follows enter leave s l1 a -> follows enter leave s l2 b -> l1 = l2 /\ a = b.
Proof.
  intros S en le prunes v s a b l1 l2 H1 H2 F1 F2.
  assert (l1 = l2) as -> by exact (traversal_unique S en le prunes v l1 H1 l2 H2 s a b F1 F2).
  split; [reflexivity|exact (follows_det en le l2 s a b F1 F2)].
Qed.

(** A visitor that records the methods called on it and answers [ans]. *)
Definition record_enter (ans : string -> control) (log : list event) (k : string) (v : val)
  : list event * control := (log ++ [Enter k v (ans k)], ans k).
Definition record_leave (log : list event) (k : string) (v : val) : list event :=
  log ++ [Leave k v].
Definition recorded (ans : string -> control) (v : val) : list event :=
  visit _ (record_enter ans) record_leave v [].
Definition entered (log : list event) : list string :=
  flat_map (fun e => match e with Enter k _ _ => [k] | Leave _ _ => [] end) log.

Example C32_ex : exists f, parse_rust_file ascii_xid (str "#[a] use b::c;") = FileOk f /\
  entered (recorded (fun _ => Continue) f) =
    ["File"; "Attributed<Item>"; "Attribute"; "AttributeLiteral"; "Item"; "Use"; "UsePath"; "Ident";
     "UseTail"; "UseTailIdent"; "Ident"; "Whitespace"].
Proof. eexists. split; vm_compute; reflexivity. Qed.

(** Not every node of the AST is reached: the path of [pub(path)] and the
    comments in the whitespace of an [Attributed] node are not, though visitors
    have methods for paths and comments. *)
Theorem C32_every_node_refuted :
  (exists code f, parse_rust_file ascii_xid code = FileOk f /\
     existsb (is_node "Path") (parts f) = true /\ count (fun _ => is_node "Path") f = 0) /\
  (exists code f, parse_rust_file ascii_xid code = FileOk f /\
     existsb (is_node "Comment") (parts f) = true /\ count (fun _ => is_node "Comment") f = 0).
Proof.
  split; [exists (str "pub(a) struct S;")|exists (str "#[a] /**/ use a;")]; eexists;
    (split; [vm_compute; reflexivity|split; vm_compute; reflexivity]).
Qed.

(** ** C33 *)

(** The documented behaviour: a node answered with [Break] is entered and left
    with nothing in between, and the rest of the traversal goes on.  It holds
    of visitors that never answer [Break] to an [Attributed] node. *)
Theorem C33_break_prunes_partial :
  forall (S : Type) enter leave (v : val) (s : S),
    (forall s k v, is_attributed k = true -> snd (enter s k v) = Continue) ->
    exists log,
      traversal (fun _ => true) v log /\
      follows enter leave s log (visit S enter leave v s) /\ well_nested log.
Proof.
  intros S en le v s Hc.
  destruct (visit_ok S en le v s) as (log & Ht & Hf). exists log.
  pose proof (follows_answers en le (fun k c => is_attributed k = true -> c = Continue) s _ log
                (fun s k v H => Hc s k v H) Hf) as Ha.
  assert (Ht' : traversal (fun _ => true) v log).
  { apply (traversal_weaken _ _ _ _ Ht). eapply Forall_impl; [|exact Ha].
    intros [k w c|k w]; auto. intros H. destruct (is_attributed k); auto. }
  split; [exact Ht'|split; [exact Hf|exact (traversal_nested _ _ _ Ht')]].
Qed.

(** What happens for all visitors: the answer for an [Attributed] node makes no
    difference. *)
Theorem C33_all_visitors :
  forall (S : Type) enter leave (v : val) (s : S),
    exists log,
      traversal (fun k => negb (is_attributed k)) v log /\
      follows enter leave s log (visit S enter leave v s) /\ well_nested log.
Proof.
  intros S en le v s. destruct (visit_ok S en le v s) as (log & Ht & Hf). exists log.
  split; [exact Ht|split; [exact Hf|exact (traversal_nested _ _ _ Ht)]].
Qed.

Definition break_at (k : string) (k' : string) : control :=
  if String.eqb k k' then Break else Continue.

Example C33_ex : exists f, parse_rust_file ascii_xid (str "#[a] use b::c; mod d;") = FileOk f /\
  entered (recorded (break_at "Use") f) =
    ["File"; "Attributed<Item>"; "Attribute"; "AttributeLiteral"; "Item"; "Use";
     "Attributed<Item>"; "Item"; "Module"; "Ident"; "Whitespace"; "Whitespace"].
Proof. eexists. split; vm_compute; reflexivity. Qed.

(** Without the restriction it is false: there is a tree and a visitor that
    answers [Break] to an item with its attributes, and still gets to see the
    attributes and the item. *)
Theorem C33_break_attributed_refuted :
  exists code f, parse_rust_file ascii_xid code = FileOk f /\
    ~ exists log, traversal (fun _ => true) f log /\
        follows (record_enter (break_at "Attributed<Item>")) record_leave [] log
          (recorded (break_at "Attributed<Item>") f).
Proof.
  exists (str "#[a] use b;"). eexists. split; [vm_compute; reflexivity|].
  intros (log & Ht & Hf).
  assert (Hr : forall l s s', follows (record_enter (break_at "Attributed<Item>")) record_leave s l s' -> s' = s ++ l).
  { clear. induction 1 as [s|s s1 s2 k v c l He _ IH|s s2 k v l _ IH].
    - symmetry. apply app_nil_r.
    - unfold record_enter in He. injection He as <- <-. rewrite IH, <- app_assoc. reflexivity.
    - rewrite IH. unfold record_leave. rewrite <- app_assoc. reflexivity. }
  specialize (Hr _ _ _ Hf). cbn [app] in Hr. subst log. clear Hf.
  apply traversal_pruned in Ht. vm_compute in Ht. discriminate Ht.
Qed.

Print Assumptions C32_well_nested.
Print Assumptions C32_unique.
Print Assumptions C32_every_node_refuted.
Print Assumptions C33_break_prunes_partial.
Print Assumptions C33_all_visitors.
Print Assumptions C33_break_attributed_refuted.
