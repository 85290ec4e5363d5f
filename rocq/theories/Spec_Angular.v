(** Vocabulary for property C120. *)
From Coq Require Import Reals List.
From Verif Require Import Model_Push Model_Tracker Model_Run Spec_Sim.
Open Scope R_scope.

(** Angular momentum of a particle about the axis. *)
Definition angular (p : part) : R := x p * py p - y p * px p.
(** Position and momentum lie in the plane through the axis perpendicular to the direction (a, b). *)
Definition in_plane (a b : R) (p : part) : Prop := a * x p + b * y p = 0 /\ a * px p + b * py p = 0.

(** The bunches of a run as it was left, whatever ended it, and all its outputs, as long as no exception was
    raised: [P i r] for the i-th bunch. *)
Definition throughout {F} (n : nat) (o : Model_Tracker.outcome (option tracked) F) (P : nat -> tracked -> Prop) : Prop :=
  let s := match o with Continue s => s | Model_Tracker.Done s => s | Model_Tracker.Raise _ s => s end in
  length (bs s) = n /\
  (forall i r, nth_error (bs s) i = Some (Some r) -> P i r) /\
  (forall i l r, nth_error (out s) i = Some l -> In (Some r) l -> P i r).
