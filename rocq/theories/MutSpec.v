(** What a traversal that may change the tree does, independently of how [visit_mut] is
    written. *)

From Coq Require Import String List Bool Arith.
From Verif Require Import Base Peresil Token Schema Value Grammar Visit VisitSpec.
Import ListNotations.
Local Open Scope string_scope.
Local Open Scope list_scope.

(** One call of a visitor's method: the type of the node, the node, what the method
    leaves in its place, and the answer. *)
Inductive change : Type :=
| Entered (k : string) (v v' : val) (c : control)
| Left (k : string) (v v' : val).

(** Which fields are visited. *)
Definition open_fields (k : string) : list bool :=
  map (fun f => negb (skipped k (fst (fst f)))) (match struct_fields k with Some f => f | None => [] end).

(** What is neither a node nor holds one. *)
Definition atomic (v : val) : bool :=
  match v with VSome _ | VList _ | VNode _ _ | VVar _ _ _ => false | _ => true end.

(** [mutation v log v']: visiting [v] as [log] says leaves [v'] in its place.  A node is
    entered; the parts of what is then there are visited one after the other and are
    replaced by what that leaves; the node with those parts is left; and what is then
    there takes the place of the node.  If the answer to entering is [Break] the parts
    are not visited, except those of [Attributed]. *)
Inductive mutation : val -> list change -> val -> Prop :=
| Mu_atom v : atomic v = true -> mutation v [] v
| Mu_some x log x' : mutation x log x' -> mutation (VSome x) log (VSome x')
| Mu_list l log l' : mutations (map (fun _ => true) l) l log l' -> mutation (VList l) log (VList l')
| Mu_struct k fs fs1 c log fs2 v3 : (is_attributed k = false -> c = Continue) -> (exists fields, struct_fields k = Some fields) ->
    mutations (open_fields k) fs1 log fs2 ->
    mutation (VNode k fs) (Entered k (VNode k fs) (VNode k fs1) c :: log ++ [Left k (VNode k fs2) v3]) v3
| Mu_struct_break k fs fs1 v3 : is_attributed k = false ->
    mutation (VNode k fs) [Entered k (VNode k fs) (VNode k fs1) Break; Left k (VNode k fs1) v3] v3
| Mu_enum e x p x1 p1 log p2 v3 : mutation p1 log p2 ->
    mutation (VVar e x p) (Entered e (VVar e x p) (VVar e x1 p1) Continue :: log ++ [Left e (VVar e x1 p2) v3]) v3
| Mu_enum_break e x p x1 p1 v3 :
    mutation (VVar e x p) [Entered e (VVar e x p) (VVar e x1 p1) Break; Left e (VVar e x1 p1) v3] v3
with mutations : list bool -> list val -> list change -> list val -> Prop :=
| Ms_nil : mutations [] [] [] []
| Ms_visit bs x l log x' log' l' : mutation x log x' -> mutations bs l log' l' -> mutations (true :: bs) (x :: l) (log ++ log') (x' :: l')
| Ms_skip bs x l log l' : mutations bs l log l' -> mutations (false :: bs) (x :: l) log (x :: l').

(** A visitor whose methods are called as the log says goes from state [s] to state
    [s'], leaves what the log says and answers as it says. *)
Inductive obeys {S : Type} (enter : S -> string -> val -> bres (S * val * control)) (leave : S -> string -> val -> bres (S * val))
  : S -> list change -> S -> Prop :=
| Ob_nil s : obeys enter leave s [] s
| Ob_enter s s1 s2 k v v' c log : enter s k v = BOk (s1, v', c) -> obeys enter leave s1 log s2 -> obeys enter leave s (Entered k v v' c :: log) s2
| Ob_leave s s1 s2 k v v' log : leave s k v = BOk (s1, v') -> obeys enter leave s1 log s2 -> obeys enter leave s (Left k v v' :: log) s2.

(** Every node that is entered is left, and they nest. *)
Inductive balanced : list change -> Prop :=
| Ba_nil : balanced []
| Ba_node k v v1 c inside v2 v3 rest : balanced inside -> balanced rest -> balanced (Entered k v v1 c :: inside ++ Left k v2 v3 :: rest).

(** How deep a value is. *)
Fixpoint height (v : val) : nat :=
  match v with
  | VSome x | VVar _ _ x => S (height x)
  | VList l | VNode _ l => S (list_max (map height l))
  | _ => 1
  end.

(** A relation between trees that holds of a tree if it holds of its parts. *)
Record compatible (R : val -> val -> Prop) : Prop := {
  co_refl : forall v, R v v;
  co_trans : forall u v w, R u v -> R v w -> R u w;
  co_some : forall x y, R x y -> R (VSome x) (VSome y);
  co_list : forall l l', Forall2 R l l' -> R (VList l) (VList l');
  co_node : forall k fs fs', Forall2 R fs fs' -> R (VNode k fs) (VNode k fs');
  co_var : forall e x p p', R p p' -> R (VVar e x p) (VVar e x p') }.
