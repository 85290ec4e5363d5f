(** Model of the quasi-static plasma model: the pushers ab5.py and rk4.py, solver.py (all in
    wake_t/physics_models/plasma_wakefields/qs_rz_baxevanis) and [radial_gradient] of
    wake_t/utilities/other.py. Arithmetic is exact (reals); divisions by zero are not
    modelled. Arrays of particles are lists; loops over particles in which each iteration
    writes its own entry are maps over the indices. [argsort] stands for np.argsort and is a
    parameter, as are the functions of aptools. *)
From Coq Require Import Reals ZArith String List Bool Arith.
From Verif Require Import Model_Push Model_Interp Model_Deposit Model_Psi Model_BTheta.
Import ListNotations.
Open Scope R_scope.

(** ** Derivatives and steps of one particle *)
(** ab5.py:104-110, rk4.py:202-208 [calculate_derivatives]: derivatives of r and pr. *)
Definition derivative (pr gamma b_theta_0 nabla_a2 b_theta_bar psi dr_psi : R) : R * R :=
  (pr / (1 + psi),
   gamma * dr_psi / (1 + psi) - b_theta_bar - b_theta_0 - nabla_a2 / (2 * (1 + psi))).
(** ab5.py:49-56, 129-130: the arrays dx_2, ..., dx_5 at one particle. dx_1 is not kept: each
    call assigns it before it is read *)
Record memory := mkm { m2 : R; m3 : R; m4 : R; m5 : R }.
(** ab5.py:126-130 [apply_ab5] *)
Definition apply_ab5 (x dt dx_1 : R) (m : memory) : R :=
  x + dt * (1901 * dx_1 - 2774 * m2 m + 2616 * m3 m - 1274 * m4 m + 251 * m5 m) * (1 / 720).
(** ab5.py:49-56 *)
Definition shift (dx_1 : R) (m : memory) : memory := mkm dx_1 (m2 m) (m3 m) (m4 m).
(** ab5.py:64-72 *)
Definition flip (m : memory) : memory := mkm (m2 m * -1) (m3 m * -1) (m4 m * -1) (m5 m * -1).
(** ab5.py:42-45: one particle and its entries of the arrays dr_2, ..., dr_5 and dpr_2, ...,
    dpr_5 *)
Record electron := mkel { l_r : R; l_pr : R; l_dr : memory; l_dpr : memory }.
(** ab5.py:36-72 for one particle with the derivatives [d]. *)
Definition push_ab5 (dxi : R) (d : R * R) (e : electron) : electron :=
  let r := apply_ab5 (l_r e) dxi (fst d) (l_dr e) in
  let pr := apply_ab5 (l_pr e) dxi (snd d) (l_dpr e) in
  let dr := shift (fst d) (l_dr e) in
  let dpr := shift (snd d) (l_dpr e) in
  if Rlt_dec r 0 then mkel (r * -1) (pr * -1) (flip dr) (flip dpr) else mkel r pr dr dpr.
(** rk4.py:224-226 [apply_rk4] *)
Definition apply_rk4 (x dt kx_1 kx_2 kx_3 kx_4 : R) : R :=
  x + dt * (kx_1 + 2 * (kx_2 + kx_3) + kx_4) * (1 / 6).
(** solver.py:464-465 [update_gamma_and_pz] (gamma also in rk4.py:150-151) *)
Definition new_gamma (pr a2 psi : R) : R := (1 + pr ^ 2 + a2 + (1 + psi) ^ 2) / (2 * (1 + psi)).
(** solver.py:464-466 [update_gamma_and_pz] *)
Definition new_pz (pr a2 psi : R) : R := (1 + pr ^ 2 + a2 - (1 + psi) ^ 2) / (2 * (1 + psi)).

(** ** The column of particles *)
(** solver.py:95-126: what does not change while the column is evolved: charges and extent of
    the plasma, sources, grid and parameters *)
Record setup := mkset { u_q : list R; u_rmax : R; u_drp : R; u_pc : R;
  u_a2 : arr2; u_na2 : arr2; u_b0 : arr2;
  u_xi : list R; u_r : list R; u_dxi : R; u_dr : R; u_nxi : Z; u_nr : Z;
  u_maxg : R; u_shape : string }.
(** solver.py:402-405: the grid on which the sources are gathered *)
Definition u_geom (U : setup) : geom :=
  mkg (nth 0 (u_xi U) 0) (last (u_xi U) 0) (nth 0 (u_r U) 0) (last (u_r U) 0) (u_dxi U) (u_dr U).
(** solver.py:443-446: the grid on which rho and chi are deposited *)
Definition u_dgrid (U : setup) : dgrid :=
  mkd (nth 0 (u_xi U) 0) (nth 0 (u_r U) 0) (u_nxi U) (u_nr U) (u_dxi U) (u_dr U).
(** plasma_particles.py:79-89: the arrays a2_pp, nabla_a2_pp, b_t_0_pp (as triples), b_t_pp,
    psi_pp, dr_psi_pp, dxi_psi_pp *)
Record felt := mkf { f_src : list (R * R * R); f_bt : list R; f_psi : list R; f_drpsi : list R;
  f_dxipsi : list R }.
(** plasma_particles.py:79: the array a2_pp *)
Definition a2_of (l : list (R * R * R)) : list R := map (fun s => fst (fst s)) l.
(** plasma_particles.py:80: the array nabla_a2_pp *)
Definition na2_of (l : list (R * R * R)) : list R := map (fun s => snd (fst s)) l.
(** plasma_particles.py:81: the array b_t_0_pp *)
Definition b0_of (l : list (R * R * R)) : list R := map snd l.
(** solver.py:465-466 [a[i]] *)
Definition entry (l : list R) (i : nat) : R := nth i l 0.
(** solver.py:464: the array with the entries [f i], one for each particle of [l] *)
Definition each (l : list R) (f : nat -> R) : list R := map f (seq 0 (List.length l)).
(** solver.py:420-422, 436-438: the arguments of the functions of b_theta.py *)
Definition as_plasma (U : setup) (r pr gamma : list R) (f : felt) : plasma :=
  mkpl r pr (u_q U) gamma (f_psi f) (f_drpsi f) (f_dxipsi f) (b0_of (f_src f)) (na2_of (f_src f)).

(** plasma_particles.py:52-62, 79-89, 102-116, 153-183: state of the column: r, pr, pz, gamma,
    the fields of the last call, the arrays of the ab5 pusher and the sources at the three
    substeps of the rk4 pusher (which keep their values at particles outside of the grid) *)
Record state := mkst { t_r : list R; t_pr : list R; t_pz : list R; t_gamma : list R; t_felt : felt;
  t_mem : list (memory * memory); t_sub2 : list (R * R * R); t_sub3 : list (R * R * R);
  t_sub4 : list (R * R * R) }.
(** solver.py:102-104, 123-126: psi, b_t_bar, rho, chi on the grid *)
Record grids := mkgr { g_psi : arr2; g_bt : arr2; g_rho : arr2; g_chi : arr2 }.

Section Column.
  Variable argsort : list R -> list nat.

  (** solver.py:402-422 and rk4.py:136-157: the fields at the particles and gamma. The number of
      passes in [b_theta_at_particles] is at most the number of particles (C46_terminates), so the
      second case of the match does not occur. *)
  Definition at_particles (U : setup) (xi : R) (r pr : list R) (old : list (R * R * R))
      : result (felt * list R) :=
    do src <- gather_sources_qs_baxevanis (u_a2 U) (u_na2 U) (u_b0 U) (u_geom U) xi r old;
    let idx := argsort r in
    let '(psi, dr_psi, dxi_psi) := psi_at_particles r pr (u_q U) idx (u_rmax U) (u_drp U) (u_pc U) in
    let gamma := each pr (fun i => new_gamma (entry pr i) (entry (a2_of src) i) (entry psi i)) in
    let f := mkf src [] psi dr_psi dxi_psi in
    let bt := match b_theta_at_particles (fun x => x) (List.length r) (as_plasma U r pr gamma f) idx
                      (u_drp U) with Some v => v | None => [] end in
    Ok (mkf src bt psi dr_psi dxi_psi, gamma).
  (** ab5.py:103-110, rk4.py:201-208 [calculate_derivatives] *)
  Definition derivatives (pr gamma : list R) (f : felt) : list (R * R) :=
    map (fun i => derivative (entry pr i) (entry gamma i) (entry (b0_of (f_src f)) i)
                    (entry (na2_of (f_src f)) i) (entry (f_bt f) i) (entry (f_psi f) i)
                    (entry (f_drpsi f) i)) (seq 0 (List.length pr)).

  (** ab5.py:10-72 [evolve_plasma_ab5] *)
  Definition evolve_plasma_ab5 (U : setup) (st : state) : state :=
    let d := derivatives (t_pr st) (t_gamma st) (t_felt st) in
    let new := map (fun i =>
        let m := nth i (t_mem st) (mkm 0 0 0 0, mkm 0 0 0 0) in
        push_ab5 (u_dxi U) (nth i d (0, 0))
          (mkel (entry (t_r st) i) (entry (t_pr st) i) (fst m) (snd m)))
      (seq 0 (List.length (t_r st))) in
    mkst (map l_r new) (map l_pr new) (t_pz st) (t_gamma st) (t_felt st)
      (map (fun e => (l_dr e, l_dpr e)) new) (t_sub2 st) (t_sub3 st) (t_sub4 st).

  (** rk4.py:130-133, 166-170: -1. for the particles that have crossed the axis. *)
  Definition side (x : R) : R := if Rlt_dec x 0 then -1 else 1.
  (** rk4.py:89-170 [derivatives_substep]: the sources and the derivatives. *)
  Definition derivatives_substep (U : setup) (xi : R) (r pr : list R) (old : list (R * R * R))
      : result (list (R * R * R) * list (R * R)) :=
    let s := map side r in
    let r' := map2 Rmult r s in
    let pr' := map2 Rmult pr s in
    do (f, gamma) <- at_particles U xi r' pr' old;
    Ok (f_src f, map2 (fun d s => (fst d * s, snd d * s)) (derivatives pr' gamma f) s).
  (** rk4.py:59, 65, 71: the arguments r and pr of the substeps. *)
  Definition moved (dxi w : R) (x dx : list R) : list R := map2 (fun x d => x + dxi * d * w) x dx.
  (** rk4.py:10-85 [evolve_plasma_rk4] *)
  Definition evolve_plasma_rk4 (U : setup) (xi : R) (st : state) : result state :=
    let r := t_r st in let pr := t_pr st in let dxi := u_dxi U in
    let k1 := derivatives pr (t_gamma st) (t_felt st) in
    do (src2, k2) <- derivatives_substep U (xi - dxi * 0.5)
         (moved dxi 0.5 r (map fst k1)) (moved dxi 0.5 pr (map snd k1)) (t_sub2 st);
    do (src3, k3) <- derivatives_substep U (xi - dxi * 0.5)
         (moved dxi 0.5 r (map fst k2)) (moved dxi 0.5 pr (map snd k2)) (t_sub3 st);
    do (src4, k4) <- derivatives_substep U (xi - dxi)
         (moved dxi 1 r (map fst k3)) (moved dxi 1 pr (map snd k3)) (t_sub4 st);
    let k part l i := part (nth i l (0, 0)) in
    let r' := each r (fun i => apply_rk4 (entry r i) dxi (k fst k1 i) (k fst k2 i) (k fst k3 i) (k fst k4 i)) in
    let pr' := each pr (fun i => apply_rk4 (entry pr i) dxi (k snd k1 i) (k snd k2 i) (k snd k3 i) (k snd k4 i)) in
    let s := map side r' in
    Ok (mkst (map2 Rmult r' s) (map2 Rmult pr' s) (t_pz st) (t_gamma st) (t_felt st)
          (t_mem st) src2 src3 src4).

  (** solver.py:427: does the particle violate the quasi-static condition. *)
  Definition too_fast (max_gamma gamma : R) : bool := if Rle_dec max_gamma gamma then true else false.
  (** solver.py:356-446 [calculate_and_deposit_plasma_column] *)
  Definition calculate_and_deposit_plasma_column (U : setup) (i : nat) (xi : R) (st : state)
      (g : grids) : result (state * grids) :=
    let r := t_r st in
    do (f, gamma) <- at_particles U xi r (t_pr st) (f_src (t_felt st));
    let pz := each (t_pr st) (fun k => new_pz (entry (t_pr st) k) (entry (a2_of (f_src f)) k) (entry (f_psi f) k)) in
    let stop := map (too_fast (u_maxg U)) gamma in
    let reset v l := map2 (fun (b : bool) x => if b then v else x) stop l in
    let pz := reset 0 pz in
    let gamma := reset 1 gamma in
    let pr := reset 0 (t_pr st) in
    let idx := argsort r in
    let psi := calculate_psi (u_r U) r (u_q U) idx (u_rmax U) (u_pc U) (g_psi g) (Z.of_nat i) in
    let bt := match calculate_b_theta (fun x => x) (List.length r) (u_r U) (as_plasma U r pr gamma f) idx
                      (g_bt g) (Z.of_nat i) with Some v => v | None => g_bt g end in
    let w_rho := each r (fun k => entry (u_q U) k / (u_dr U * entry r k * (1 - entry pz k / entry gamma k))) in
    let w_chi := each r (fun k => entry w_rho k / entry gamma k) in
    do rho <- deposit_plasma_particles (u_dgrid U) (u_shape U) (Z.of_nat i) (combine r w_rho) (g_rho g);
    do chi <- deposit_plasma_particles (u_dgrid U) (u_shape U) (Z.of_nat i) (combine r w_chi) (g_chi g);
    Ok (mkst r pr pz gamma f (t_mem st) (t_sub2 st) (t_sub3 st) (t_sub4 st), mkgr psi bt rho chi).

  (** solver.py:170, 183: the two pushers *)
  Inductive pusher := RK4 | AB5.
  (** solver.py:267-273, 342-352: evolve the plasma to the next xi step *)
  Definition evolve (U : setup) (p : pusher) (xi : R) (st : state) : result state :=
    match p with RK4 => evolve_plasma_rk4 U xi st | AB5 => Ok (evolve_plasma_ab5 U st) end.
  (** solver.py:250-273 and 325-352 [calculate_with_ab5], [calculate_with_rk4]: the slices
      [k] - 1, ..., 0. *)
  Fixpoint sweep (U : setup) (p : pusher) (k : nat) (st : state) (g : grids) : result (state * grids) :=
    match k with
    | O => Ok (st, g)
    | S i =>
        let xi := nth i (u_xi U) 0 in
        do (st, g) <- calculate_and_deposit_plasma_column U i xi st g;
        do st <- (match i with O => Ok st | S _ => evolve U p xi st end);
        sweep U p i st g
    end.
  (** plasma_particles.py:48-183: the column and its arrays before the first slice. *)
  Definition start (c : column) : state :=
    let n := List.length (p_r c) in
    let zero := repeat 0 n in let zeros := repeat (0, 0, 0) n in
    mkst (p_r c) (p_pr c) (p_pz c) (p_gamma c) (mkf zeros zero zero zero zero)
      (repeat (mkm 0 0 0 0, mkm 0 0 0 0) n) zeros zeros zeros.

  (** solver.py:137-201 [evolve_plasma_and_calculate_fields]: psi, b_t_bar, rho, chi. *)
  Definition evolve_plasma_and_calculate_fields (U : setup) (plasma_pusher : string) (c : column)
      (g : grids) : called grids :=
    let run p := Returned (do (_, g') <- sweep U p (Z.to_nat (u_nxi U)) (start c) g; Ok g') in
    if String.eqb plasma_pusher "ab5" then run AB5
    else if String.eqb plasma_pusher "rk4" then run RK4
    else ValueError.
End Column.

(** ** Sources *)
(** other.py:76: numpy.gradient of N equidistant values, edge_order = 1 *)
Definition gradient1 (f : Z -> R) (N : Z) (d : R) (j : Z) : R :=
  if Z.eqb j 0 then (f 1%Z - f 0%Z) / d
  else if Z.eqb j (N - 1) then (f j - f (j - 1)%Z) / d
  else (f (j + 1)%Z - f (j - 1)%Z) / (2 * d).
(** solver.py:130: numpy.gradient of N equidistant values, edge_order = 2 *)
Definition gradient2 (f : Z -> R) (N : Z) (d : R) (j : Z) : R :=
  if Z.eqb j 0 then -1.5 / d * f 0%Z + 2 / d * f 1%Z + -0.5 / d * f 2%Z
  else if Z.eqb j (N - 1) then 0.5 / d * f (j - 2)%Z + -2 / d * f (j - 1)%Z + 1.5 / d * f j
  else (f (j + 1)%Z - f (j - 1)%Z) / (2 * d).
(** utilities/other.py:58-76 [radial_gradient], entry (i, j). *)
Definition radial_gradient (fld : arr2) (dr : R) (i j : Z) : R :=
  let n_r := cols fld in
  let fld_with_mirror k := if Z.ltb k n_r then cell fld i (n_r - 1 - k)%Z else cell fld i (k - n_r)%Z in
  gradient1 fld_with_mirror (2 * n_r) dr (j + n_r).
(** solver.py:111-112, 131-132 [a[2:-2, 2:-2] = v] for an array [a] of (n_xi + 4) x (n_r + 4)
    zeros *)
Definition inner_part (n_xi n_r : Z) (v : Z -> Z -> R) : arr2 :=
  mka (n_xi + 4) (n_r + 4) (fun i j =>
    if andb (andb (Z.leb 2 i) (Z.ltb i (n_xi + 2))) (andb (Z.leb 2 j) (Z.ltb j (n_r + 2)))
    then v (i - 2)%Z (j - 2)%Z else 0).
(** solver.py:100-104, 116: np.zeros((n_xi+4, n_r+4)) *)
Definition zeros2 (n_xi n_r : Z) : arr2 := mka (n_xi + 4) (n_r + 4) (fun _ _ => 0).
(** solver.py:133-134, 508: sum of two arrays *)
Definition plus2d (a b : arr2) : arr2 := mka (rows a) (cols a) (fun i j => cell a i j + cell b i j).

(** solver.py:117-119: the next statement, reached when the call before it did not raise *)
Definition cbind {A B} (m : called A) (k : A -> called B) : called B :=
  match m with Returned (Ok v) => k v | Returned (Fault f) => Returned (Fault f) | ValueError => ValueError end.

Section Wakefields.
  Variable argsort : list R -> list nat.
  (** ge.plasma_skin_depth, ge.plasma_cold_non_relativisct_wave_breaking_field (of the density in
      1/cm^3), ct.e, ct.c *)
  Variables (skin_depth wave_breaking : R -> R) (charge_e light : R).

  (** solver.py:495-509 (r_grid_g, subs and the integral): the field in cell (i, j). *)
  Definition beam_integral (q_dist : arr2) (dr : R) (i j : Z) : R :=
    let q k := cell q_dist (i + 2)%Z (Z.of_nat k + 2)%Z in
    let n := Z.to_nat j in
    let subs := q n / 2 + (if Z.eqb j 0 then q n / 4 else 0) in
    (cumsum q n - subs) * dr / Rabs ((0.5 + IZR j) * dr).
  (** solver.py:469-511 [calculate_beam_source]; a bunch is the list of ((x, y, xi), q). *)
  Definition calculate_beam_source (n_p : R) (g : dgrid) (p_shape : string) (bunch : list (pos * R))
      (b_t : arr2) : called arr2 :=
    let s_d := skin_depth (n_p / 1e6) in
    let scaled pq := let '((x, y, xi), q) := pq in
      ((x / s_d, y / s_d, xi / s_d),
       q / charge_e / (2 * PI * dg_dr g * dg_dz g * s_d ^ 3 * n_p)) in
    cbind (deposit_3d_distribution g p_shape true (map scaled bunch) (zeros2 (dg_nz g) (dg_nr g)))
      (fun q_dist => Returned (Ok (plus2d b_t
         (inner_part (dg_nz g) (dg_nr g) (beam_integral q_dist (dg_dr g)))))).
  (** solver.py:116-119 *)
  Fixpoint beam_sources (n_p : R) (g : dgrid) (p_shape : string) (bunches : list (list (pos * R)))
      (b_t : arr2) : called arr2 :=
    match bunches with
    | [] => Returned (Ok b_t)
    | b :: l => cbind (calculate_beam_source n_p g p_shape b b_t) (beam_sources n_p g p_shape l)
    end.

  (** solver.py:26-29: arguments r_max, xi_min, xi_max, n_r, n_xi, ppc, n_p, r_max_plasma,
      parabolic_coefficient, p_shape, max_gamma, plasma_pusher and the coordinates r_fld, xi_fld
      *)
  Record args := mkargs { a_rmax : R; a_ximin : R; a_ximax : R; a_nr : Z; a_nxi : Z; a_ppc : R; a_np : R;
    a_rplasma : option R; a_pc : R; a_shape : string; a_maxg : R; a_pusher : string;
    a_rfld : list R; a_xifld : list R }.
  (** solver.py:80 *)
  Definition s_d (A : args) : R := skin_depth (a_np A * 1e-6).
  (** solver.py:81, 84: dr *)
  Definition n_dr (A : args) : R := a_rmax A / s_d A / IZR (a_nr A).
  (** solver.py:82-83, 85: dxi *)
  Definition n_dxi (A : args) : R := (a_ximax A / s_d A - a_ximin A / s_d A) / (IZR (a_nxi A) - 1).
  (** solver.py:86: parabolic_coefficient *)
  Definition n_pc (A : args) : R := a_pc A * s_d A ^ 2.
  (** solver.py:89-92: r_max_plasma *)
  Definition n_rplasma (A : args) : R :=
    match a_rplasma A with None => a_rmax A / s_d A | Some x => x / s_d A end.
  (** solver.py:107-108: r_fld and xi_fld *)
  Definition n_coords (A : args) (l : list R) : list R := map (fun x => x / s_d A) l.
  (** solver.py:95-97: the plasma particles *)
  Definition the_column (A : args) : column := initialize (n_rplasma A) (n_pc A) (n_dr A) (a_ppc A).
  (** solver.py:80-126: the arguments of [evolve_plasma_and_calculate_fields] *)
  Definition the_setup (A : args) (laser_a2 b_t_beam : arr2) : setup :=
    mkset (p_q (the_column A)) (adjusted_radius (n_rplasma A) (n_dr A) (a_ppc A)) (n_dr A / a_ppc A) (n_pc A)
      (inner_part (a_nxi A) (a_nr A) (cell laser_a2))
      (inner_part (a_nxi A) (a_nr A) (radial_gradient laser_a2 (n_dr A))) b_t_beam
      (n_coords A (a_xifld A)) (n_coords A (a_rfld A)) (n_dxi A) (n_dr A) (a_nxi A) (a_nr A)
      (a_maxg A) (a_shape A).
  (** solver.py:118-119, 488-490: the grid on which the bunches are deposited *)
  Definition beam_grid (A : args) : dgrid :=
    mkd (nth 0 (n_coords A (a_xifld A)) 0) (nth 0 (n_coords A (a_rfld A)) 0) (a_nxi A) (a_nr A)
      (n_dxi A) (n_dr A).
  (** solver.py:78: rho, chi, E_r, E_z, B_t *)
  Record fields := mkfld { h_rho : arr2; h_chi : arr2; h_er : arr2; h_ez : arr2; h_bt : arr2 }.
  (** solver.py:128-134. np.gradient raises ValueError for less than three points. E_z is
      given as a new array: the caller has zeroed it. *)
  Definition derived_fields (A : args) (b_t_beam : arr2) (g : grids) : called fields :=
    if orb (Z.ltb (a_nxi A) 3) (Z.ltb (a_nr A) 3) then ValueError
    else
      let E_0 := wave_breaking (a_np A * 1e-6) in
      let psi i j := cell (g_psi g) (i + 2)%Z (j + 2)%Z in
      let dxi_psi i j := gradient2 (fun i => psi i j) (a_nxi A) (n_dxi A) i in
      let dr_psi i j := gradient2 (fun j => psi i j) (a_nr A) (n_dr A) j in
      let E_z := inner_part (a_nxi A) (a_nr A) (fun i j => - dxi_psi i j * E_0) in
      let W_r := inner_part (a_nxi A) (a_nr A) (fun i j => - dr_psi i j * E_0) in
      let B_t := mka (rows (g_bt g)) (cols (g_bt g))
                   (fun i j => (cell (g_bt g) i j + cell b_t_beam i j) * E_0 / light) in
      let E_r := mka (rows W_r) (cols W_r) (fun i j => cell W_r i j + cell B_t i j * light) in
      Returned (Ok (mkfld (g_rho g) (g_chi g) E_r E_z B_t)).
  (** solver.py:26-134 [calculate_wakefields]; rho and chi are zero before the call
      (rz_wakefield.py:138-142). *)
  Definition calculate_wakefields (A : args) (laser_a2 : arr2) (bunches : list (list (pos * R)))
      : called fields :=
    let z := zeros2 (a_nxi A) (a_nr A) in
    cbind (beam_sources (a_np A) (beam_grid A) (a_shape A) bunches z) (fun b_t_beam =>
    cbind (evolve_plasma_and_calculate_fields argsort (the_setup A laser_a2 b_t_beam) (a_pusher A)
             (the_column A) (mkgr z z z z)) (fun g =>
    derived_fields A b_t_beam g)).
End Wakefields.
