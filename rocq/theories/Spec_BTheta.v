(** Vocabulary for the properties of the magnetic field of the plasma electrons: the equations
    that determine it, for electrons that are thin rings (cylinders in xi) of charge [q] at radius
    [r]. Distances in skin depths; [s] is the distance behind the driver. *)
From Coq Require Import Reals List Arith.
From Coquelicot Require Import Coquelicot.
From Verif Require Import Model_BTheta.
Import ListNotations.
Open Scope R_scope.

Definition at_ (l : list R) (i : nat) : R := nth i l 0.
(** Change of the radius of electron [i] with [s]. *)
Definition speed (p : plasma) (i : nat) : R := at_ (e_pr p) i / (1 + at_ (e_psi p) i).
(** Change of its radial momentum if the magnetic field of the other electrons is [b]; [e_b0] is
    the field of the beam and [e_na2] the gradient of the square of the laser envelope. *)
Definition force (p : plasma) (i : nat) (b : R) : R :=
  at_ (e_gamma p) i * at_ (e_dr_psi p) i / (1 + at_ (e_psi p) i)
  - (at_ (e_b0 p) i + b) - at_ (e_na2 p) i / (2 * (1 + at_ (e_psi p) i)).
(** Change of the potential seen by it. *)
Definition potential_change (p : plasma) (i : nat) : R :=
  at_ (e_dr_psi p) i * speed p i + at_ (e_dxi_psi p) i.
(** Its radial current, charge times speed over radius, after a short distance [s]. *)
Definition radial_current (p : plasma) (i : nat) (b s : R) : R :=
  at_ (e_q p) i * ((at_ (e_pr p) i + s * force p i b) / (1 + at_ (e_psi p) i + s * potential_change p i))
  / (at_ (e_r p) i + s * speed p i).
(** The conditions at electron [i]: [field] jumps by the current through the ring as seen from the
    moving electron; [w], the curl of the field, by the change of the radial current. The electron
    feels the mean of the field on both sides. *)
Definition jump (p : plasma) (i : nat) (field w : R -> R) : Prop :=
  let x := at_ (e_r p) i in
  exists f_in f_out w_in w_out,
    filterlim field (at_left x) (locally f_in) /\ filterlim field (at_right x) (locally f_out) /\
    filterlim w (at_left x) (locally w_in) /\ filterlim w (at_right x) (locally w_out) /\
    x * (f_out - f_in) =
      at_ (e_q p) i * (speed p i ^ 2 - (at_ (e_gamma p) i / (1 + at_ (e_psi p) i) - 1)) /\
    is_derive (radial_current p i ((f_in + f_out) / 2)) 0 (- (w_out - w_in)).
(** [field] is the magnetic field and [w] its curl, 1/x d(x field)/dx. *)
Record solves (p : plasma) (field w : R -> R) : Prop := {
  is_curl : forall x, 0 < x -> ~ In x (e_r p) -> is_derive (fun y => y * field y) x (x * w x);
  no_current : forall x, 0 < x -> ~ In x (e_r p) -> is_derive w x 0;
  jumps : forall i, (i < length (e_r p))%nat -> jump p i field w;
  on_axis : filterlim field (at_right 0) (locally 0);
  outside : forall x, 0 < x -> (forall y, In y (e_r p) -> y < x) -> w x = 0
}.
(** Arrays of equal length, electrons at distinct radii off the axis, with 1 + psi > 0. *)
Record regular (p : plasma) : Prop := {
  same_lengths : List.Forall (fun l => length l = length (e_r p))
    [e_pr p; e_q p; e_gamma p; e_psi p; e_dr_psi p; e_dxi_psi p; e_b0 p; e_na2 p];
  off_axis : forall x, In x (e_r p) -> 0 < x;
  distinct : NoDup (e_r p);
  electrons : forall x, In x (e_q p) -> 0 <= x;
  forward : forall x, In x (e_psi p) -> -1 < x
}.
(** Electrons at rest in no field. *)
Definition quiet (p : plasma) : Prop := forall i, (i < length (e_r p))%nat ->
  at_ (e_pr p) i = 0 /\ at_ (e_gamma p) i = 1 + at_ (e_psi p) i /\ at_ (e_dr_psi p) i = 0 /\
  at_ (e_b0 p) i = 0 /\ at_ (e_na2 p) i = 0.
(** The number rounded to itself. *)
Definition exact (x : R) : R := x.
(** The larger and smaller bound. *)
Definition bounded (b x : R) : R := Rmax (- b) (Rmin b x).
(** The sum is at least two thirds of the larger number (or they have the same sign). *)
Definition no_cancellation (x y : R) : Prop := Rabs (x - y) <= 2 * Rabs (x + y).
