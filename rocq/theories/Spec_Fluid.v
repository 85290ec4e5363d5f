(** Vocabulary for the properties of the cold fluid wakefield. *)
From Coq Require Import Reals ZArith String List Bool.
From Coquelicot Require Import Coquelicot.
From Verif Require Import Model_Push Model_Interp Spec_Interp Model_Deposit Spec_Deposit Model_QS Spec_QS Model_Fluid.
Import ListNotations.
Open Scope R_scope.

(** A domain with at least [m] points each way, a plasma, and one of the two shapes. *)
Definition domain (m : Z) (W : fluid) : Prop :=
  c_ximin W < c_ximax W /\ 0 < c_rmax W /\ (m <= c_nxi W)%Z /\ (m <= c_nr W)%Z /\ 0 < c_np W /\ shape_name (c_shape W).
(** Distance of two slices and of two rings, in metres; volume of a ring cell. *)
Definition step_xi (W : fluid) : R := (c_ximax W - c_ximin W) / (IZR (c_nxi W) - 1).
Definition step_r (W : fluid) : R := c_rmax W / IZR (c_nr W).
Definition ring_volume (W : fluid) (j : Z) : R :=
  PI * ((IZR j + 1) * step_r W) ^ 2 * step_xi W - PI * (IZR j * step_r W) ^ 2 * step_xi W.
(** The grid in units of the skin depth [s]. *)
Definition fluid_grid (s : R) (W : fluid) : dgrid :=
  mkd (c_ximin W / s) (step_r W / s / 2) (c_nxi W) (c_nr W) (step_xi W / s) (step_r W / s).
Definition point (W : fluid) (i j : Z) : Prop := (0 <= i < c_nxi W /\ 0 <= j < c_nr W)%Z.

(** Strength of the laser: |a|^2 averaged over a laser period. *)
Definition strength (W : fluid) (a : Z -> Z -> R) : Prop :=
  forall i j, 0 <= a i j /\
    a i j ^ 2 = match c_laser W with
                | None => 0
                | Some (envelope, p) => Cmod (envelope i j) ^ 2 / (if string_dec p "linear" then 2 else 1)
                end.

(** Particle number of the bunches: the deposition of all particles, charge in units of [e]. *)
Definition counted (s e : R) (pq : pos * R) : pos * R :=
  let '((x, y, xi), q) := pq in ((x / s, y / s, xi / s), q / e).
Definition bunch_density (s e : R) (W : fluid) (bunches : list (list (pos * R))) (n : Z -> Z -> R) : Prop :=
  exists N, deposit_3d_distribution (fluid_grid s W) (c_shape W) true (map (counted s e) (concat bunches))
              (zeros (fluid_grid s W)) = Returned (Ok N) /\
    forall i j, point W i j -> n i j * (c_np W * ring_volume W j) = inner N i j.

(** The classical Runge-Kutta method for y' = f(t, y), t running from 0 to 1 during a step [h]. *)
Definition along (c : R) (y d : R * R) : R * R := (fst y + c * fst d, snd y + c * snd d).
Definition rk4 (f : R -> R * R -> R * R) (h : R) (y : R * R) : R * R :=
  let k1 := f 0 y in
  let k2 := f (/ 2) (along (h / 2) y k1) in
  let k3 := f (/ 2) (along (h / 2) y k2) in
  let k4 := f 1 (along h y k3) in
  along (h / 6) y (fst k1 + 2 * fst k2 + 2 * fst k3 + fst k4, snd k1 + 2 * snd k2 + 2 * snd k3 + snd k4).
(** psi'' = (1 + a^2) / (2 (1 + psi)^2) - n - 1/2 as a system of first order. *)
Definition poisson (a n : R) (y : R * R) : R * R :=
  (snd y, (1 + a ^ 2) / (2 * (1 + fst y) ^ 2) - n - / 2).
(** The potential [psi]: zero at the head; from a slice to the one behind one step of the method, with
    the laser linear between the two slices and the bunch density of the front slice. *)
Definition potential (s : R) (W : fluid) (a n psi : Z -> Z -> R) : Prop :=
  exists slope : Z -> Z -> R,
    (forall j, (0 <= j < c_nr W)%Z -> psi (c_nxi W - 1)%Z j = 0 /\ slope (c_nxi W - 1)%Z j = 0) /\
    (forall i j, point W i j -> (1 <= i)%Z ->
       (psi (i - 1)%Z j, slope (i - 1)%Z j) =
       rk4 (fun t y => poisson ((1 - t) * a i j + t * a (i - 1)%Z j) (if c_beam W then n i j else 0) y)
           (step_xi W / s) (psi i j, slope i j)).

(** Longitudinal and radial derivative on the grid, in metres. *)
Definition d_xi (W : fluid) (f : Z -> Z -> R) (i j : Z) : R := gradient2 (fun i => f i j) (c_nxi W) (step_xi W) i.
Definition d_r (W : fluid) (f : Z -> Z -> R) (i j : Z) : R := gradient2 (fun j => f i j) (c_nr W) (step_r W) j.
(** Momentum and energy of the electrons. *)
Definition electron (a psi u gamma : R) : Prop := gamma ^ 2 = 1 + a ^ 2 + u ^ 2 /\ gamma - u = 1 + psi.
(** Current through the disk of radius r_j (per 2 pi), from the density in each ring and its radius; of
    ring [j] itself one half. *)
Definition disk (W : fluid) (current : Z -> R) (j : Z) : R :=
  sum_range j (fun k => current k * ((IZR k + / 2) * step_r W) * step_r W)
  + current j * ((IZR j + / 2) * step_r W) * step_r W / 2.

(** Number of particles of the bunches that are within the domain. *)
Definition particles_inside (s e : R) (W : fluid) (bunches : list (list (pos * R))) : R :=
  charge_inside (fluid_grid s W) (map (counted s e) (concat bunches)).
(** The same wakefield with another laser. *)
Definition with_laser (W : fluid) (l : option ((Z -> Z -> C) * string)) : fluid :=
  mkfl (c_rmax W) (c_ximin W) (c_ximax W) (c_nr W) (c_nxi W) (c_np W) (c_shape W) (c_beam W) l.
Definition with_beam (W : fluid) (b : bool) : fluid :=
  mkfl (c_rmax W) (c_ximin W) (c_ximax W) (c_nr W) (c_nxi W) (c_np W) (c_shape W) b (c_laser W).

(** [F] are the fields of the wakefield [W] for [bunches]: [s] is the skin depth, [E0] the wave breaking
    field, [e] the elementary charge and [light] the speed of light; [a] is the strength of the laser, [n]
    the density of the bunches over that of the plasma, [psi] the potential. *)
Record solution (s E0 e light : R) (W : fluid) (bunches : list (list (pos * R))) (F : fields)
    (a n psi : Z -> Z -> R) : Prop := mksol {
  sol_laser : strength W a;
  sol_bunches : bunch_density s e W bunches n;
  sol_psi : potential s W a n psi;
  sol_arrays : List.Forall (darray (fluid_grid s W)) [h_rho F; h_chi F; h_er F; h_ez F; h_bt F] /\
    (forall i j, ~ inner_cell (fluid_grid s W) i j ->
       List.Forall (fun f => cell f i j = 0) [h_rho F; h_chi F; h_er F; h_ez F; h_bt F]);
  (** Density of electrons and susceptibility: the flux n (1 - v_z) of electrons is that of the plasma. *)
  sol_chi : forall i j, point W i j -> 1 + psi i j <> 0 -> inner (h_chi F) i j * (1 + psi i j) = 1;
  sol_rho : forall i j u gamma, point W i j -> 1 + psi i j <> 0 -> electron (a i j) (psi i j) u gamma ->
    inner (h_rho F) i j * (1 - u / gamma) = 1 /\ inner (h_rho F) i j = gamma * inner (h_chi F) i j;
  sol_ez : forall i j, point W i j -> inner (h_ez F) i j = - (E0 * s) * d_xi W psi i j;
  sol_force : forall i j, point W i j ->
    inner (h_er F) i j - light * inner (h_bt F) i j = - (E0 * s) * d_r W psi i j;
  (** Ampere's law: displacement current, electrons, bunches. *)
  sol_bt : forall i j u gamma, point W i j ->
    (forall k, (0 <= k < c_nr W)%Z -> 1 + psi i k <> 0 /\ electron (a i k) (psi i k) (u k) (gamma k)) ->
    light * inner (h_bt F) i j * ((IZR j + / 2) * step_r W) =
    disk W (fun k => d_xi W (inner (h_ez F)) i k
                     + E0 / s * (n i k - inner (h_rho F) i k * (u k / gamma k))) j
}.

(** No electron is turned around: 1 + psi = 0 would be an infinite momentum. *)
Definition regular (W : fluid) (psi : Z -> Z -> R) : Prop := forall i j, point W i j -> 1 + psi i j <> 0.

(** Lasers of the same strength in slice [m] and ahead of it. *)
Definition same_laser_from (m : Z) (W : fluid) (l' : option ((Z -> Z -> C) * string)) : Prop :=
  forall a a', strength W a -> strength (with_laser W l') a' -> forall i j, point W i j -> (m <= i)%Z -> a i j = a' i j.
(** The same fields at the grid points of slice [i] with radial index [j]. *)
Definition same_fields_at (F F' : fields) (i j : Z) : Prop :=
  inner (h_rho F) i j = inner (h_rho F') i j /\ inner (h_chi F) i j = inner (h_chi F') i j /\
  inner (h_er F) i j = inner (h_er F') i j /\ inner (h_ez F) i j = inner (h_ez F') i j /\
  inner (h_bt F) i j = inner (h_bt F') i j.
