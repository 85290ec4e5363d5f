(** Vocabulary for the properties of plasma elements and numerical fields. *)
From Coq Require Import QArith Qround Reals String List Bool Arith ZArith.
From Verif Require Import Model_Tracker Spec_Tracker Model_Element Model_Stage.
Import ListNotations.

(** The numerical fields [fs] as the tracker sees them. *)
Definition declared (fs : list rzfield) : list (Q * bool) :=
  map (fun f => (rz_dt f, rz_even f)) fs.
(** n updates in a row. *)
Fixpoint updated (n : nat) (f : rzfield) : rzfield :=
  match n with O => f | S k => rz_update (updated k f) end.
Definition nQ (n : nat) : Q := inject_Z (Z.of_nat n).

Open Scope R_scope.

(** The names of the built-in ramps and their shapes: density over top density as a function of
    the distance over the decay length. *)
Definition ramp_shape (s : string) (u : R) : R :=
  if String.eqb s "inverse_square" then 1 / (1 + u) ^ 2
  else if String.eqb s "exponential" then exp (- u)
  else exp (- u ^ 2 / 2).
Definition built_in (s : string) : Prop :=
  s = "inverse_square"%string \/ s = "exponential"%string \/ s = "gaussian"%string.
(** Frequency of the transverse oscillation of a particle of charge q, mass m and Lorentz factor
    g under a restoring force q * gradient * r. *)
Definition oscillation (q m gradient g : R) : R := sqrt (Rabs (q * gradient) / (g * m)).
(** Gradient of the transverse field of a column of ions of density n. *)
Definition ion_gradient (e eps0 n : R) : R := e * n / (2 * eps0).
(** Lorentz factor *)
Definition lorentz (p : R * R * R) : R :=
  let '(a, b, c) := p in sqrt (1 + a ^ 2 + b ^ 2 + c ^ 2).
