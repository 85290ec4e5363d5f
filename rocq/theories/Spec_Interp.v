(** Vocabulary for the properties of the interpolation of gridded fields. *)
From Coq Require Import Reals ZArith List.
From Verif Require Import Model_Push Model_Interp.
Import ListNotations.
Open Scope R_scope.

(** Bilinear combination of the values of [f] at the corners (i, j) .. (i+1, j+1)
    of a cell; [lam], [mu] in [0, 1] locate a point in it. *)
Definition bilinear (f : Z -> Z -> R) (i j : Z) (lam mu : R) : R :=
  (1 - lam) * ((1 - mu) * f i j + mu * f i (j + 1)%Z)
  + lam * ((1 - mu) * f (i + 1)%Z j + mu * f (i + 1)%Z (j + 1)%Z).

(** A grid of nz x nr points: z_i = z0 + i dz, r_j = (j + 1/2) dr. *)
Record gridspec := mkgs { gz0 : R; gdz : R; gdr : R; gnz : Z; gnr : Z }.
Definition node_z (g : gridspec) (i : Z) : R := gz0 g + IZR i * gdz g.
Definition node_r (g : gridspec) (j : Z) : R := (IZR j + / 2) * gdr g.
Definition proper (g : gridspec) : Prop :=
  0 < gdz g /\ 0 < gdr g /\ (2 <= gnz g)%Z /\ (2 <= gnr g)%Z.
(** The points covered by the grid, from the axis to the last radial point. *)
Definition covered (g : gridspec) (z r : R) : Prop :=
  node_z g 0 <= z <= node_z g (gnz g - 1) /\ 0 <= r <= node_r g (gnr g - 1).

(** [v] is the value at (z, r) of the interpolation of the values [f]: in a closed
    cell the bilinear combination of its corners; between the axis and the first
    point an even quantity stays constant along r, an odd quantity is linear and
    vanishes on axis.  (Cells are closed: at common points the values agree.) *)
Definition interpolates (g : gridspec) (odd : bool) (f : Z -> Z -> R) (z r v : R) : Prop :=
  forall i, (0 <= i < gnz g - 1)%Z -> node_z g i <= z <= node_z g (i + 1) ->
    let lam := (z - node_z g i) / gdz g in
    (forall j, (0 <= j < gnr g - 1)%Z -> node_r g j <= r <= node_r g (j + 1) ->
       v = bilinear f i j lam ((r - node_r g j) / gdr g)) /\
    (0 <= r <= node_r g 0 ->
       v = (if odd then r / node_r g 0 else 1) * ((1 - lam) * f i 0%Z + lam * f (i + 1)%Z 0%Z)).

(** The grid of a wakefield, its values without guard cells, and the conditions
    under which its arrays are allocated (rz_wakefield.py:69-146). *)
Definition grid_of (w : rz) : gridspec :=
  mkgs (w_ximin w) ((w_ximax w - w_ximin w) / (IZR (w_nxi w) - 1))
       (w_rmax w / IZR (w_nr w)) (w_nxi w) (w_nr w).
Definition inner (a : arr2) (i j : Z) : R := cell a (i + 2) (j + 2).
Definition allocated (w : rz) (a : arr2) : Prop :=
  rows a = (w_nxi w + 4)%Z /\ cols a = (w_nr w + 4)%Z.
Definition well_formed (w : rz) : Prop :=
  w_ximin w < w_ximax w /\ 0 < w_rmax w /\ (2 <= w_nxi w)%Z /\ (2 <= w_nr w)%Z /\
  allocated w (e_r w) /\ allocated w (e_z w) /\ allocated w (b_t w).

Definition radius (p : pos) : R := let '(x, y, _) := p in sqrt (x * x + y * y).
Definition lon (p : pos) : R := snd p.

(** [v] plus the field value [g]. *)
Definition em_plus (v g : em) : em :=
  mke (ex v + ex g) (ey v + ey g) (ez v + ez g) (bx v + bx g) (by_ v + by_ g) (bz v + bz g).
(** Field with radial, longitudinal and azimuthal components at a position. *)
Definition axisymmetric (er ez bt : R) (p : pos) : em :=
  let '(x, y, _) := p in
  mke (er * x / radius p) (er * y / radius p) ez (- bt * y / radius p) (bt * x / radius p) 0.

(** Grid of laser_pulse.py for regridding: same points. *)
Definition laser_grid (ximin ximax rmax : R) (nz nr : Z) : gridspec :=
  mkgs ximin ((ximax - ximin) / (IZR nz - 1)) (rmax / IZR nr) nz nr.

(** [v] is the value at (z, r) of the piecewise bilinear function through the
    values [f]; beyond the first and last radial point the function of the
    neighbouring cell is continued. *)
Definition continues (g : gridspec) (f : Z -> Z -> R) (z r v : R) : Prop :=
  forall i j, (0 <= i < gnz g - 1)%Z -> (0 <= j < gnr g - 1)%Z ->
    node_z g i <= z <= node_z g (i + 1) ->
    (node_r g j <= r \/ j = 0%Z) -> (r <= node_r g (j + 1) \/ j = (gnr g - 2)%Z) ->
    v = bilinear f i j ((z - node_z g i) / gdz g) ((r - node_r g j) / gdr g).

(** Components of a gathered field in cylindrical geometry. *)
Definition e_radial (p : pos) (v : em) : R := (fst (fst p) * ex v + snd (fst p) * ey v) / radius p.
Definition e_azimuthal (p : pos) (v : em) : R := (fst (fst p) * ey v - snd (fst p) * ex v) / radius p.
Definition b_radial (p : pos) (v : em) : R := (fst (fst p) * bx v + snd (fst p) * by_ v) / radius p.
Definition b_azimuthal (p : pos) (v : em) : R := (fst (fst p) * by_ v - snd (fst p) * bx v) / radius p.

(** [v] is what a particle at [p] gets from the wakefield [w] alone. *)
Definition gets (w : rz) (p : pos) (v : em) : Prop := w_gather w [p] [em0] = Ok [v].

(** The values of [a] on the grid are given by a + b z + c r + d z r. *)
Definition bilinear_values (g : gridspec) (f : Z -> Z -> R) (a b c d : R) : Prop :=
  forall i j, (0 <= i < gnz g)%Z -> (0 <= j < gnr g)%Z ->
    f i j = a + b * node_z g i + c * node_r g j + d * node_z g i * node_r g j.
Definition values_within (g : gridspec) (f : Z -> Z -> R) (m M : R) : Prop :=
  forall i j, (0 <= i < gnz g)%Z -> (0 <= j < gnr g)%Z -> m <= f i j <= M.
Definition values_bounded (g : gridspec) (f : Z -> Z -> R) (M : R) : Prop :=
  forall i j, (0 <= i < gnz g)%Z -> (0 <= j < gnr g)%Z -> Rabs (f i j) <= M.

(** The grid [g] as arguments of the gathering functions. *)
Definition args_of (g : gridspec) : geom :=
  mkg (node_z g 0) (node_z g (gnz g - 1)) (node_r g 0) (node_r g (gnr g - 1))
      (gdz g) (gdr g).
(** An array with two guard cells around the grid [g]. *)
Definition guards (g : gridspec) (a : arr2) : Prop :=
  rows a = (gnz g + 4)%Z /\ cols a = (gnr g + 4)%Z.
