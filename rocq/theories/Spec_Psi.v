(** Vocabulary for the properties of the wakefield potential of a plasma column: [r], [q], [pr]
    are the radii, charges and radial momenta of the electrons in the order in which they are
    stored. Units: plasma skin depth; the density of ions on axis is 1. *)
From Coq Require Import Reals List Arith Permutation.
From Coquelicot Require Import Coquelicot.
Import ListNotations.
Open Scope R_scope.

(** [idx] lists the particles from the smallest radius to the largest one: any permutation that
    a sorting algorithm may return. *)
Definition orders (idx : list nat) (r : list R) : Prop :=
  Permutation idx (seq 0 (length r)) /\
  forall i j, (i < j < length r)%nat -> nth (nth i idx 0%nat) r 0 <= nth (nth j idx 0%nat) r 0.
Fixpoint sumR (l : list R) : R := match l with [] => 0 | a :: t => a + sumR t end.
(** Sum of [f i] over the particles with radius below [x]. *)
Definition sum_below (r : list R) (x : R) (f : nat -> R) : R :=
  sumR (map (fun i => if Rlt_dec (nth i r 0) x then f i else 0) (seq 0 (length r))).

(** Density of the ions, their charge within radius [x] (without the factor 2 pi) and their
    potential: the integral of the charge over the radius. *)
Definition ion_density (r_max pc t : R) : R := if Rle_dec t r_max then 1 + pc * t ^ 2 else 0.
Definition ion_charge (r_max pc x : R) : R := RInt (fun t => ion_density r_max pc t * t) 0 x.
Definition ion_potential (r_max pc x : R) : R := RInt (fun t => ion_charge r_max pc t / t) 0 x.
(** Charge of the electrons within radius [x], and their potential. *)
Definition electron_charge (r q : list R) (x : R) : R := sum_below r x (fun i => nth i q 0).
Definition electron_potential (r q : list R) (x : R) : R :=
  sum_below r x (fun i => nth i q 0 * ln (x / nth i r 0)).
Definition potential (r q : list R) (r_max pc x : R) : R :=
  electron_potential r q x - ion_potential r_max pc x.
(** Its slope: enclosed charge over radius. *)
Definition slope (r q : list R) (r_max pc x : R) : R :=
  (electron_charge r q x - ion_charge r_max pc x) / x.

(** The largest radius of a particle. *)
Definition is_largest (r : list R) (m : R) : Prop := In m r /\ forall x, In x r -> x <= m.
(** The value at [x] on the straight line through (a, f a) and (b, f b). *)
Definition chord (f : R -> R) (a b x : R) : R := f a + (f b - f a) * (x - a) / (b - a).
(** Middle points around the k-th smallest radius: with the neighbours; the axis; half a spacing
    behind the last one. *)
Definition mid_left (idx : list nat) (r : list R) (k : nat) : R :=
  match k with
  | O => 0
  | S j => (nth (nth j idx 0%nat) r 0 + nth (nth k idx 0%nat) r 0) / 2
  end.
Definition mid_right (dr_p : R) (idx : list nat) (r : list R) (k : nat) : R :=
  if Nat.ltb (S k) (length r) then (nth (nth k idx 0%nat) r 0 + nth (nth (S k) idx 0%nat) r 0) / 2
  else nth (nth k idx 0%nat) r 0 + dr_p / 2.
(** Radial motion: change of radius per unit of distance behind the driver. *)
Definition velocity (pr psi : list R) (i : nat) : R := nth i pr 0 / (1 + nth i psi 0).
(** The particles after they have moved for a distance [s]. *)
Definition moved (r pr psi : list R) (s : R) : list R :=
  map (fun i => nth i r 0 + s * velocity pr psi i) (seq 0 (length r)).
(** Charge carried outwards below radius [x], each charge divided by its radius. *)
Definition flow (r pr q psi : list R) (x : R) : R :=
  sum_below r x (fun i => nth i q 0 * velocity pr psi i / nth i r 0).
(** The potential at [x] relative to the edge: the plasma boundary or half a spacing behind the
    particle [last], whichever is further out. *)
Definition relative_potential (r q : list R) (r_max dr_p pc : R) (last : nat) (x : R) : R :=
  potential r q r_max pc x - potential r q r_max pc (Rmax (nth last r 0 + dr_p / 2) r_max).
