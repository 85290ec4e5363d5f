(** Model of wake_t/physics_models/plasma_wakefields/qs_cold_fluid_1x3p.py.
    Arithmetic is exact (reals). Divisions by zero (1 + u_1 = 0) are not modelled. *)
From Coq Require Import Reals ZArith String List Bool.
From Coquelicot Require Import Coquelicot.
From Verif Require Import Model_Push Model_Interp Model_Deposit Model_QS.
Import ListNotations.
Open Scope R_scope.

(** qs_cold_fluid_1x3p.py:139-144 [__wakefield_ode_system] *)
Definition wakefield_ode_system (beam_wakefields : bool) (u : R * R) (laser_a0 n_beam : R) : R * R :=
  let (u_1, u_2) := u in
  if beam_wakefields then (u_2, (1 + laser_a0 ^ 2) / (2 * (1 + u_1) ^ 2) - n_beam - 1 / 2)
  else (u_2, (1 + laser_a0 ^ 2) / (2 * (1 + u_1) ^ 2) - 1 / 2).
(** qs_cold_fluid_1x3p.py:207-217: one step of the loop for one radius; [y] is beam_hist[-i-1]. *)
Definition runge_kutta_step (beam_wakefields : bool) (dz a0_0 a0_1 a0_2 y : R) (u : R * R) : R * R :=
  let k u a := let d := wakefield_ode_system beam_wakefields u a y in (dz * fst d, dz * snd d) in
  let A := k u a0_0 in
  let B := k (fst u + fst A / 2, snd u + snd A / 2) a0_1 in
  let C := k (fst u + fst B / 2, snd u + snd B / 2) a0_1 in
  let D := k (fst u + fst C, snd u + snd C) a0_2 in
  (fst u + 1 / 6 * (fst A + 2 * fst B + 2 * fst C + fst D),
   snd u + 1 / 6 * (snd A + 2 * snd B + 2 * snd C + snd D)).

(** qs_cold_fluid_1x3p.py:102-137, 148-153: Parameters of the wakefield and its laser: envelope
    (n_xi x n_r values) and polarization. *)
Record fluid := mkfl { c_rmax : R; c_ximin : R; c_ximax : R; c_nr : Z; c_nxi : Z; c_np : R; c_shape : string;
  c_beam : bool; c_laser : option ((Z -> Z -> C) * string) }.
(** rz_wakefield.py:97: dr. *)
Definition c_dr (W : fluid) : R := c_rmax W / IZR (c_nr W).
(** rz_wakefield.py:98: dxi. *)
Definition c_dxi (W : fluid) : R := (c_ximax W - c_ximin W) / (IZR (c_nxi W) - 1).
(** rz_wakefield.py:127: r_fld. *)
Definition c_rfld (W : fluid) (j : Z) : R := linspace (c_dr W / 2) (c_rmax W - c_dr W / 2) (c_nr W) j.
(** rz_wakefield.py:128: xi_fld. *)
Definition c_xifld (W : fluid) (i : Z) : R := linspace (c_ximin W) (c_ximax W) (c_nxi W) i.
(** qs_cold_fluid_1x3p.py:147-155: a_env *)
Definition a_env (W : fluid) (i j : Z) : R :=
  match c_laser W with
  | Some (envelope, polarization) =>
      if String.eqb polarization "linear" then Cmod (envelope i j) / sqrt 2 else Cmod (envelope i j)
  | None => 0
  end.

Section Wakefield.
  (** ge.plasma_skin_depth, ge.plasma_cold_non_relativisct_wave_breaking_field, ct.e, ct.c *)
  Variables (skin_depth wave_breaking : R -> R) (charge_e light : R).
  (** qs_cold_fluid_1x3p.py:161: s_d, the skin depth. *)
  Definition p_sd (W : fluid) : R := skin_depth (c_np W * 1e-6).
  (** qs_cold_fluid_1x3p.py:162: dxi in units of the skin depth. *)
  Definition p_dz (W : fluid) : R := c_dxi W / p_sd W.
  (** qs_cold_fluid_1x3p.py:163: dr in units of the skin depth. *)
  Definition p_dr (W : fluid) : R := c_dr W / p_sd W.
  (** qs_cold_fluid_1x3p.py:164: r_fld in units of the skin depth. *)
  Definition p_r (W : fluid) (j : Z) : R := c_rfld W j / p_sd W.
  (** qs_cold_fluid_1x3p.py:185: xi_fld in units of the skin depth. *)
  Definition p_z (W : fluid) (i : Z) : R := c_xifld W i / p_sd W.

  (** qs_cold_fluid_1x3p.py:173-176: the grid of the deposition. *)
  Definition p_grid (W : fluid) : dgrid :=
    mkd (c_ximin W / p_sd W) (p_r W 0) (c_nxi W) (c_nr W) (p_dz W) (p_dr W).
  (** qs_cold_fluid_1x3p.py:169-174: a particle ((x, y, xi), q) with q = w * q_species. *)
  Definition in_plasma_units (W : fluid) (pq : pos * R) : pos * R :=
    let '((x, y, xi), q) := pq in ((x / p_sd W, y / p_sd W, xi / p_sd W), q / charge_e).
  (** qs_cold_fluid_1x3p.py:167-176: the bunches, lists of ((x, y, xi), q). *)
  Fixpoint deposit_bunches (W : fluid) (bunches : list (list (pos * R))) (a : arr2) : called arr2 :=
    match bunches with
    | [] => Returned (Ok a)
    | b :: l => cbind (deposit_3d_distribution (p_grid W) (c_shape W) true (map (in_plasma_units W) b) a)
                  (deposit_bunches W l)
    end.
  (** qs_cold_fluid_1x3p.py:177-181: beam_hist without guard cells, normalized. *)
  Definition beam_hist (W : fluid) (a : arr2) (i j : Z) : R :=
    let disc_area := PI * p_dr W ^ 2 * (1 + 2 * IZR j) in
    cell a (i + 2)%Z (j + 2)%Z * (1 / (disc_area * p_dz W * c_np W) / p_sd W ^ 3).

  (** qs_cold_fluid_1x3p.py:158-159: the laser with guard cells. *)
  Definition a_rz (W : fluid) : arr2 := inner_part (c_nxi W) (c_nr W) (a_env W).
  (** qs_cold_fluid_1x3p.py:194-196: the grid of the gathering. *)
  Definition p_geom (W : fluid) : geom :=
    mkg (c_ximin W / p_sd W) (c_ximax W / p_sd W) (p_r W 0) (p_r W (c_nr W - 1)) (p_dz W) (p_dr W).
  (** qs_cold_fluid_1x3p.py:191: the radial indices. *)
  Definition radii (W : fluid) : list Z := map Z.of_nat (seq 0 (Z.to_nat (c_nr W))).
  (** qs_cold_fluid_1x3p.py:190-206: laser at all radii and position [z]. *)
  Definition laser_at (W : fluid) (z : R) : result (list R) :=
    match c_laser W with
    | Some _ => gather_field_cyl_linear (a_rz W) (p_geom W) (map (fun j => (p_r W j, 0, z)) (radii W))
    | None => Ok (map (fun _ => 0) (radii W))
    end.
  (** qs_cold_fluid_1x3p.py:187-217: one iteration, from slice [i] to slice i - 1. *)
  Definition fluid_step (W : fluid) (n_beam : Z -> Z -> R) (i : Z) (u : list (R * R)) : result (list (R * R)) :=
    let z_i := p_z W i in
    do a0_0 <- laser_at W z_i;
    do a0_1 <- laser_at W (z_i - p_dz W / 2);
    do a0_2 <- laser_at W (z_i - p_dz W);
    Ok (map (fun j => let k := Z.to_nat j in
          runge_kutta_step (c_beam W) (p_dz W) (nth k a0_0 0) (nth k a0_1 0) (nth k a0_2 0) (n_beam i j)
            (nth k u (0, 0))) (radii W)).
  (** qs_cold_fluid_1x3p.py:182-217: the slices from [i] on backwards, [k] steps. *)
  Fixpoint fluid_slices (W : fluid) (n_beam : Z -> Z -> R) (k : nat) (i : Z) (u : list (R * R))
      : result (list (list (R * R))) :=
    match k with
    | O => Ok [u]
    | S k' => do u' <- fluid_step W n_beam i u;
              do l <- fluid_slices W n_beam k' (i - 1) u';
              Ok (u :: l)
    end.
  (** qs_cold_fluid_1x3p.py:183, 216: u_1 as an array. *)
  Definition u_1 (W : fluid) (l : list (list (R * R))) (i j : Z) : R :=
    fst (nth (Z.to_nat j) (nth (Z.to_nat (c_nxi W - 1 - i)) l []) (0, 0)).

  (** qs_cold_fluid_1x3p.py:224: gamma_fl. *)
  Definition fluid_gamma (a psi : R) : R := (1 + a ^ 2 + (1 + psi) ^ 2) / (2 * (1 + psi)).
  (** qs_cold_fluid_1x3p.py:230: u_z. *)
  Definition fluid_uz (a psi : R) : R := (1 + a ^ 2 - (1 + psi) ^ 2) / (2 * (1 + psi)).
  (** qs_cold_fluid_1x3p.py:218-242: the fields from u_1; numpy.gradient raises ValueError for
      less than three points. *)
  Definition fluid_fields (W : fluid) (n_beam psi : Z -> Z -> R) : called fields :=
    if orb (Z.ltb (c_nxi W) 3) (Z.ltb (c_nr W) 3) then ValueError
    else
      let E_0 := wave_breaking (c_np W * 1e-6) in
      let E_z i j := - gradient2 (fun i => psi i j) (c_nxi W) (p_dz W) i in
      let W_r i j := - gradient2 (fun j => psi i j) (c_nr W) (p_dr W) j in
      let gamma i j := fluid_gamma (a_env W i j) (psi i j) in
      let rho i j := gamma i j / (1 + psi i j) in
      let nv_z i j := rho i j * (fluid_uz (a_env W i j) (psi i j) / gamma i j) in
      let dE_z i j := gradient2 (fun i => E_z i j) (c_nxi W) (p_dz W) i in
      let integrand i j := (dE_z i j - nv_z i j + n_beam i j) * p_r W j in
      let B_theta i j := (cumsum (fun k => integrand i (Z.of_nat k)) (Z.to_nat j) - integrand i j / 2)
                         * p_dr W / Rabs (p_r W j) in
      let E_r i j := W_r i j + B_theta i j in
      let store v := inner_part (c_nxi W) (c_nr W) v in
      Returned (Ok (mkfld (store rho) (store (fun i j => rho i j / gamma i j)) (store (fun i j => E_r i j * E_0))
        (store (fun i j => E_z i j * E_0)) (store (fun i j => B_theta i j * E_0 / light)))).
  (** qs_cold_fluid_1x3p.py:146-242 [_calculate_wakefield]; the arrays are zero before
      (rz_wakefield.py:138-142). *)
  Definition fluid_wakefield (W : fluid) (bunches : list (list (pos * R))) : called fields :=
    cbind (deposit_bunches W bunches (zeros2 (c_nxi W) (c_nr W))) (fun a =>
    let n_beam := beam_hist W a in
    cbind (Returned (fluid_slices W n_beam (Z.to_nat (c_nxi W - 1)) (c_nxi W - 1) (map (fun _ => (0, 0)) (radii W))))
      (fun l => fluid_fields W n_beam (u_1 W l))).
End Wakefield.
