(** Model of the external crate peresil 0.4.0-alpha (not part of /repo; the
    behaviour below is the trusted reading of its API).  Points [P] are compared
    with [lt]; [E] is the error type with its [Recoverable] instance; [S] the
    user state of the parse master. *)

From Coq Require Import List Bool.
Import ListNotations.

(** Outcomes of running Rust code that are not a [Progress]: a panic, running
    out of the model's fuel, or a model-level shape error (excluded by Rust's
    type checker; proved impossible for the model). *)
Inductive abort : Type := Panicked | OutOfFuel | IllTyped.

(** [peresil::Progress]: a status together with a point. *)
Inductive progress (P A E : Type) : Type :=
| Success (pt : P) (v : A)
| Failure (pt : P) (e : E)
| Abort (w : abort).
Arguments Success {P A E} pt v.
Arguments Failure {P A E} pt e.
Arguments Abort {P A E} w.

(** [peresil::Failures]: furthest failure point and what was expected there. *)
Record failures (P E : Type) : Type := mkFailures { f_point : P; f_kinds : list E }.
Arguments mkFailures {P E}.
Arguments f_point {P E}.
Arguments f_kinds {P E}.

(** [peresil::ParseMaster]. *)
Record master (P E S : Type) : Type := mkMaster { m_failures : failures P E; m_state : S }.
Arguments mkMaster {P E S}.
Arguments m_failures {P E S}.
Arguments m_state {P E S}.

Section Peresil.
  Context {P E S : Type}.
  Variable lt : P -> P -> bool.
  Variable zero : P.
  Variable recoverable : E -> bool.

  Definition parser (A : Type) : Type := master P E S -> P -> master P E S * progress P A E.

  (** [Failures::new]. *)
  Definition new_failures : failures P E := mkFailures zero [].

  (** [ParseMaster::with_state]. *)
  Definition new_master (s : S) : master P E S := mkMaster new_failures s.

  (** [Failures::add]: keep only the failures at the furthest point. *)
  Definition add_failure (f : failures P E) (pt : P) (e : E) : failures P E :=
    if lt pt (f_point f) then f
    else if lt (f_point f) pt then mkFailures pt [e]
    else mkFailures (f_point f) (f_kinds f ++ [e]).

  Definition record_failure (pm : master P E S) (pt : P) (e : E) : master P E S :=
    mkMaster (add_failure (m_failures pm) pt e) (m_state pm).

  (** [sequence!] / [try_parse!]: run [p], stop on failure. *)
  Definition bind {A B} (p : parser A) (k : A -> parser B) : parser B :=
    fun pm pt =>
      match p pm pt with
      | (pm', Success pt' a) => k a pm' pt'
      | (pm', Failure pt' e) => (pm', Failure pt' e)
      | (pm', Abort w) => (pm', Abort w)
      end.

  Definition ret {A} (a : A) : parser A := fun pm pt => (pm, Success pt a).

  (** [combinators::point]. *)
  Definition point : parser P := fun pm pt => (pm, Success pt pt).

  (** [combinators::map] / [Progress::map]. *)
  Definition map_p {A B} (p : parser A) (f : A -> B) : parser B :=
    fun pm pt =>
      match p pm pt with
      | (pm', Success pt' a) => (pm', Success pt' (f a))
      | (pm', Failure pt' e) => (pm', Failure pt' e)
      | (pm', Abort w) => (pm', Abort w)
      end.

  (** [combinators::optional]. *)
  Definition optional {A} (p : parser A) : parser (option A) :=
    fun pm pt =>
      match p pm pt with
      | (pm', Success pt' a) => (pm', Success pt' (Some a))
      | (pm', Failure pt' e) =>
          if recoverable e then (record_failure pm' pt' e, Success pt None)
          else (pm', Failure pt' e)
      | (pm', Abort w) => (pm', Abort w)
      end.

  (** [combinators::zero_or_more].  The loop is driven by explicit fuel. *)
  Fixpoint zero_or_more {A} (fuel : nat) (p : parser A) : parser (list A) :=
    fun pm pt =>
      match fuel with
      | O => (pm, Abort OutOfFuel)
      | Datatypes.S fuel' =>
          match p pm pt with
          | (pm', Success pt' a) =>
              match zero_or_more fuel' p pm' pt' with
              | (pm'', Success pt'' l) => (pm'', Success pt'' (a :: l))
              | (pm'', Failure pt'' e) => (pm'', Failure pt'' e)
              | (pm'', Abort w) => (pm'', Abort w)
              end
          | (pm', Failure pt' e) =>
              if recoverable e then (record_failure pm' pt' e, Success pt [])
              else (pm', Failure pt' e)
          | (pm', Abort w) => (pm', Abort w)
          end
      end.

  (** [Alternate::one] applied to the remaining alternatives, after [cur] was
      the result of the previous one: the next alternative only runs when the
      previous one failed recoverably, and the previous failure is recorded
      after that run. *)
  Fixpoint alternate_from {A} (cur : progress P A E) (ps : list (parser A))
           (pm : master P E S) (pt : P) : master P E S * progress P A E :=
    match ps with
    | [] => (pm, cur)
    | p :: ps' =>
        match cur with
        | Failure pt0 e0 =>
            if recoverable e0 then
              let (pm', r) := p pm pt in
              alternate_from r ps' (record_failure pm' pt0 e0) pt
            else (pm, cur)
        | _ => (pm, cur)
        end
    end.

  (** [ParseMaster::alternate(pt).one(..)...finish()]; peresil panics when no
      alternative was supplied. *)
  Definition alternate {A} (ps : list (parser A)) : parser A :=
    fun pm pt =>
      match ps with
      | [] => (pm, Abort Panicked)
      | p :: ps' => let (pm', r) := p pm pt in alternate_from r ps' pm' pt
      end.

  (** src/combinators.rs:2-19 [not]. *)
  Definition not {A} (p : parser A) (err : E) : parser unit :=
    fun pm pt =>
      match p pm pt with
      | (pm', Success _ _) => (pm', Failure pt err)
      | (pm', Failure _ _) => (pm', Success pt tt)
      | (pm', Abort w) => (pm', Abort w)
      end.

  (** src/combinators.rs:22-39 [peek]. *)
  Definition peek {A} (p : parser A) : parser A :=
    fun pm pt =>
      match p pm pt with
      | (pm', Success _ a) => (pm', Success pt a)
      | (pm', Failure _ e) => (pm', Failure pt e)
      | (pm', Abort w) => (pm', Abort w)
      end.

  (** [ParseMaster::finish]: on failure the furthest failures are taken out. *)
  Definition finish {A} (pm : master P E S) (r : progress P A E)
    : master P E S * progress P A (list E) :=
    match r with
    | Success pt a => (pm, Success pt a)
    | Failure pt e =>
        let f := add_failure (m_failures pm) pt e in
        (mkMaster new_failures (m_state pm), Failure (f_point f) (f_kinds f))
    | Abort w => (pm, Abort w)
    end.
End Peresil.
