(** Properties C28-C31, C63-C65: deposition of particles on the r-z grid. *)
From Coq Require Import Reals ZArith String List Lra Lia Permutation.
From Coquelicot Require Import Coquelicot.
From Verif Require Import Model_Push Model_Interp Spec_Interp Proofs_Interp
  Model_Deposit Spec_Deposit Proofs_Deposit Proofs_Ruyten.
Import ListNotations.
Open Scope R_scope.

(** C28: the deposit changes the total charge of the array by exactly the charge of the
    particles inside the domain; so for both shapes, with and without the correction.
    (Also: the call returns, writing only within the array.) *)
Theorem C28_beam : forall g s ruyten l a, shape_name s -> dgrid_ok g -> darray g a ->
  exists b, deposit_3d_distribution g s ruyten l a = Returned (Ok b) /\ darray g b /\
    total_charge b = total_charge a + charge_inside g l.
Proof. exact conserve_lemma. Qed.
Theorem C28_plasma : forall g s zc l a, shape_name s -> dgrid_ok g -> darray g a ->
  (0 <= zc < dg_nz g)%Z -> List.Forall (fun rw => 0 <= fst rw) l ->
  exists b, deposit_plasma_particles g s zc l a = Ok b /\ darray g b /\
    total_charge b = total_charge a + plasma_inside g l.
Proof. exact conserve_plasma_lemma. Qed.

(** C29: no index leaves the array (an access outside would be [Fault]). *)
Theorem C29_in_bounds : forall g s ruyten l a, shape_name s -> dgrid_ok g -> darray g a ->
  exists b, deposit_3d_distribution g s ruyten l a = Returned (Ok b).
Proof. intros. destruct (conserve_lemma g s ruyten l a) as (b & E & _); eauto. Qed.
Theorem C29_plasma_in_bounds : forall g s zc l a, shape_name s -> dgrid_ok g -> darray g a ->
  (0 <= zc < dg_nz g)%Z -> List.Forall (fun rw => 0 <= fst rw) l ->
  exists b, deposit_plasma_particles g s zc l a = Ok b.
Proof. intros. destruct (conserve_plasma_lemma g s zc l a) as (b & E & _); eauto. Qed.
(** Particles outside of the domain write nothing. *)
Theorem C29_outside : forall g s ruyten l a, shape_name s ->
  List.Forall (fun pw => ~ inside g (fst pw)) l ->
  deposit_3d_distribution g s ruyten l a = Returned (Ok a).
Proof. exact outside_lemma. Qed.
(** The guard cells keep their value: on large enough grids (see [guarded_grid]). *)
Theorem C29_guards_partial : forall g s ruyten l a b,
  shape_name s -> dgrid_ok g -> guarded_grid g s -> darray g a ->
  deposit_3d_distribution g s ruyten l a = Returned (Ok b) ->
  forall i j, ~ inner_cell g i j -> cell b i j = cell a i j.
Proof. exact guards_lemma. Qed.
Theorem C29_plasma_guards_partial : forall g s zc l a b,
  shape_name s -> dgrid_ok g -> guarded_grid g s -> darray g a ->
  (0 <= zc < dg_nz g)%Z -> List.Forall (fun rw => 0 <= fst rw) l ->
  deposit_plasma_particles g s zc l a = Ok b ->
  forall i j, ~ inner_cell g i j -> cell b i j = cell a i j.
Proof. exact plasma_guards_lemma. Qed.
(** With the linear shape, on every grid with as many radial as longitudinal cells there
    is a particle inside the domain whose whole charge ends in guard cells. *)
Theorem C29_linear_refuted : forall g ruyten, dgrid_ok g -> (dg_nz g <= dg_nr g)%Z ->
  exists p b, inside g p /\
    deposit_3d_distribution g "linear" ruyten [(p, 1)] (zeros g) = Returned (Ok b) /\
    (forall i j, inner_cell g i j -> cell b i j = 0) /\ total_charge b = 1.
Proof.
  intros g ruyten Hg Hn. destruct (linear_leak_lemma g ruyten Hg Hn) as (b & E & I & T & _).
  exists (leaky g), b. split; [apply leaky_inside; assumption|]. auto.
Qed.
(** With the cubic shape a grid of two radial cells leaks. *)
Theorem C29_cubic_refuted : forall g ruyten, dgrid_ok g -> dg_nr g = 2%Z ->
  exists p b i j, inside g p /\
    deposit_3d_distribution g "cubic" ruyten [(p, 1)] (zeros g) = Returned (Ok b) /\
    ~ inner_cell g i j /\ 0 < cell b i j.
Proof.
  intros g ruyten Hg Hn. destruct (cubic_leak_lemma g ruyten Hg Hn) as (b & E & I & T & C).
  exists (leaky_cubic g), b, 2%Z, 4%Z. auto.
Qed.

(** C30: order, concatenation, scaling. *)
Theorem C30_order : forall g s ruyten l l' a, shape_name s -> dgrid_ok g -> darray g a ->
  Permutation l l' ->
  exists b b', deposit_3d_distribution g s ruyten l a = Returned (Ok b) /\
    deposit_3d_distribution g s ruyten l' a = Returned (Ok b') /\ same_array b b'.
Proof. exact order_lemma. Qed.
Theorem C30_plasma_order : forall g s zc l l' a, shape_name s -> dgrid_ok g -> darray g a ->
  (0 <= zc < dg_nz g)%Z -> List.Forall (fun rw => 0 <= fst rw) l -> Permutation l l' ->
  exists b b', deposit_plasma_particles g s zc l a = Ok b /\
    deposit_plasma_particles g s zc l' a = Ok b' /\ same_array b b'.
Proof. exact plasma_order_lemma. Qed.
Theorem C30_append : forall g s ruyten l l' a b, shape_name s ->
  deposit_3d_distribution g s ruyten l a = Returned (Ok b) ->
  deposit_3d_distribution g s ruyten (l ++ l') a = deposit_3d_distribution g s ruyten l' b.
Proof. exact app_lemma. Qed.
Theorem C30_scaling : forall g s ruyten c l, shape_name s -> dgrid_ok g ->
  exists b b', deposit_3d_distribution g s ruyten l (zeros g) = Returned (Ok b) /\
    deposit_3d_distribution g s ruyten (map (fun pw => (fst pw, c * snd pw)) l) (zeros g)
      = Returned (Ok b') /\
    rows b' = rows b /\ cols b' = cols b /\ forall i j, cell b' i j = c * cell b i j.
Proof. exact scale_lemma. Qed.

(** C31: the deposit has the mean z of the particles. *)
Theorem C31_longitudinal : forall g s ruyten l a b, shape_name s -> dgrid_ok g -> darray g a ->
  List.Forall (fun pw => inside g (fst pw) -> away_z g s (fst pw)) l ->
  deposit_3d_distribution g s ruyten l a = Returned (Ok b) ->
  moment (fun i _ => row_z g i) b = moment (fun i _ => row_z g i) a + weighted g lon l.
Proof.
  intros g s ruyten l a b Hs Hg Ha Hl. apply z_moment_lemma; try assumption.
  eapply List.Forall_impl; [|exact Hl]. intros pw H I. apply away_z_interior; auto.
Qed.
(** Without the Ruyten correction also the mean radius. *)
Theorem C31_radial : forall g s l a b, shape_name s -> dgrid_ok g -> darray g a ->
  List.Forall (fun pw => inside g (fst pw) -> away_r g s (fst pw)) l ->
  deposit_3d_distribution g s false l a = Returned (Ok b) ->
  moment (fun _ j => col_r g j) b = moment (fun _ j => col_r g j) a + weighted g radius l.
Proof.
  intros g s l a b Hs Hg Ha Hl. apply r_moment_lemma; try assumption.
  eapply List.Forall_impl; [|exact Hl]. intros pw H I. apply away_r_interior; auto.
Qed.
(** The plasma deposit is centred on the slice and on the radii of the particles. *)
Theorem C31_plasma_longitudinal : forall g s zc l a b, shape_name s -> dgrid_ok g -> darray g a ->
  (0 <= zc < dg_nz g)%Z -> List.Forall (fun rw => 0 <= fst rw) l ->
  List.Forall (fun rw => fst rw <= r_edge g -> plasma_away_z g s zc (fst rw)) l ->
  deposit_plasma_particles g s zc l a = Ok b ->
  moment (fun i _ => row_z g i) b
  = moment (fun i _ => row_z g i) a + plasma_weighted g (fun _ => dg_zmin g + IZR zc * dg_dz g) l.
Proof. exact plasma_z_moment_lemma. Qed.
Theorem C31_plasma_radial : forall g s zc l a b, shape_name s -> dgrid_ok g -> darray g a ->
  (0 <= zc < dg_nz g)%Z -> List.Forall (fun rw => 0 <= fst rw) l ->
  List.Forall (fun rw => fst rw <= r_edge g -> plasma_away_r g s (fst rw)) l ->
  deposit_plasma_particles g s zc l a = Ok b ->
  moment (fun _ j => col_r g j) b
  = moment (fun _ j => col_r g j) a + plasma_weighted g (fun r => r) l.
Proof. exact plasma_r_moment_lemma. Qed.
(** On wide grids the linear shape shifts charge backwards by a cell. *)
Theorem C31_linear_refuted : forall g ruyten, dgrid_ok g -> (dg_nz g <= dg_nr g)%Z ->
  exists p b, inside g p /\ lon p = dg_zmin g /\
    deposit_3d_distribution g "linear" ruyten [(p, 1)] (zeros g) = Returned (Ok b) /\
    moment (fun i _ => row_z g i) b = dg_zmin g - dg_dz g.
Proof.
  intros g ruyten Hg Hn. destruct (linear_leak_lemma g ruyten Hg Hn) as (b & E & _ & _ & M).
  exists (leaky g), b. split; [apply leaky_inside; assumption|]. split; [reflexivity|]. auto.
Qed.

(** C63: with the correction, a uniform density (the charge between r and r + dr being
    proportional to r) puts on every radial cell a charge proportional to its area. *)
Theorem C63_linear : forall g z j, dgrid_ok g -> dg_zmin g <= z <= z_last g ->
  (0 <= j < dg_nr g)%Z ->
  is_RInt (fun r => radial_share g "linear" true z r j * (2 * PI * r)) 0 (r_edge g) (ring_area g j).
Proof.
  intros g z j Hg Hz Hj.
  replace (ring_area g j) with (2 * PI * dg_dr g ^ 2 * (IZR j + / 2)) by (unfold ring_area; field).
  apply to_radius; try assumption; [left; reflexivity|]. apply linear_integral; assumption.
Qed.
Theorem C63_cubic_partial : forall g z j, dgrid_ok g -> dg_zmin g <= z <= z_last g ->
  (0 <= j < dg_nr g - 2)%Z ->
  is_RInt (fun r => radial_share g "cubic" true z r j * (2 * PI * r)) 0 (r_edge g) (ring_area g j).
Proof.
  intros g z j Hg Hz Hj.
  replace (ring_area g j) with (2 * PI * dg_dr g ^ 2 * (IZR j + / 2)) by (unfold ring_area; field).
  apply to_radius; try assumption; [right; reflexivity|]. apply cubic_integral; try assumption; lia.
Qed.
(** In the last two cells the cubic shape is off by 1/960 of pi dr^2. *)
Theorem C63_cubic_edge_refuted : forall g z, dgrid_ok g -> dg_zmin g <= z <= z_last g ->
  (4 <= dg_nr g)%Z ->
  is_RInt (fun r => radial_share g "cubic" true z r (dg_nr g - 2) * (2 * PI * r)) 0 (r_edge g)
    (ring_area g (dg_nr g - 2) - PI * dg_dr g ^ 2 / 960) /\
  is_RInt (fun r => radial_share g "cubic" true z r (dg_nr g - 1) * (2 * PI * r)) 0 (r_edge g)
    (ring_area g (dg_nr g - 1) + PI * dg_dr g ^ 2 / 960).
Proof.
  intros g z Hg Hz Hn. destruct (cubic_integral_last g Hg Hn) as [H1 H2]. split.
  - replace (_ - _) with (2 * PI * dg_dr g ^ 2 * (IZR (dg_nr g - 2) + / 2 - / 1920))
      by (unfold ring_area; field).
    apply to_radius; try assumption. right; reflexivity.
  - replace (ring_area g (dg_nr g - 1) + PI * dg_dr g ^ 2 / 960) with (2 * PI * dg_dr g ^ 2 * (IZR (dg_nr g - 1) + / 2 + / 1920))
      by (unfold ring_area; field).
    apply to_radius; try assumption. right; reflexivity.
Qed.

(** C64: non-negative weights never lower a cell. *)
Theorem C64_beam : forall g s ruyten l a b, shape_name s -> dgrid_ok g -> darray g a ->
  List.Forall (fun pw => 0 <= snd pw) l ->
  deposit_3d_distribution g s ruyten l a = Returned (Ok b) ->
  forall i j, cell a i j <= cell b i j.
Proof. exact nonneg_lemma. Qed.
Theorem C64_plasma : forall g s zc l a b, shape_name s -> dgrid_ok g -> darray g a ->
  (0 <= zc < dg_nz g)%Z -> List.Forall (fun rw => 0 <= fst rw /\ 0 <= snd rw) l ->
  deposit_plasma_particles g s zc l a = Ok b ->
  forall i j, cell a i j <= cell b i j.
Proof. exact plasma_nonneg_lemma. Qed.

(** C65: unknown shapes.  Rejected for beams, silently ignored for the plasma. *)
Theorem C65_beam : forall g s ruyten l a,
  deposit_3d_distribution g s ruyten l a = ValueError <-> ~ shape_name s.
Proof.
  intros. unfold deposit_3d_distribution, shape_name.
  destruct (String.eqb_spec s "linear"); [split; [discriminate|tauto]|].
  destruct (String.eqb_spec s "cubic"); [split; [discriminate|tauto]|]. tauto.
Qed.
Theorem C65_plasma_refuted : forall g s zc l a, ~ shape_name s ->
  deposit_plasma_particles g s zc l a = Ok a.
Proof.
  intros g s zc l a H. unfold deposit_plasma_particles, shape_name in *.
  destruct (String.eqb_spec s "linear"); [tauto|]. destruct (String.eqb_spec s "cubic"); tauto.
Qed.

(** ** Non-vacuity *)
Definition ex_g : dgrid := mkd 0 (1 / 2) 6 5 1 1.
Example ex_C28_grid : dgrid_ok ex_g /\ darray ex_g (zeros ex_g) /\
  guarded_grid ex_g "linear" /\ guarded_grid ex_g "cubic".
Proof. repeat split; cbn; try lra; try lia. Qed.
Lemma ex_radius2 x z : 0 <= x -> radius (x, 0, z) = x.
Proof. intros. cbn. replace (x * x + 0 * 0) with (x * x) by ring. apply sqrt_square. assumption. Qed.
(** A charge of 3 inside and one outside: the total rises by 3. *)
Example ex_C28 : exists b,
  deposit_3d_distribution ex_g "cubic" true [((9 / 4, 0, 5 / 2), 3); ((9, 0, 1), 7)] (zeros ex_g)
    = Returned (Ok b) /\ total_charge b = 3.
Proof.
  destruct ex_C28_grid as (Hg & Ha & _).
  destruct (C28_beam ex_g "cubic" true [((9 / 4, 0, 5 / 2), 3); ((9, 0, 1), 7)] (zeros ex_g)
              (or_intror eq_refl) Hg Ha) as (b & E & _ & T).
  exists b. split; [exact E|]. rewrite T.
  assert (Z0 : total_charge (zeros ex_g) = 0).
  { unfold total_charge, zeros; cbn [rows cols cell].
    apply sum_range_zero. intros. apply sum_range_zero. reflexivity. }
  rewrite Z0. cbn [charge_inside fold_right fst snd].
  destruct (inside_dec ex_g (9 / 4, 0, 5 / 2)) as [|N].
  - destruct (inside_dec ex_g (9, 0, 1)) as [[_ I]|]; [|ring].
    rewrite ex_radius2 in I by lra. unfold r_edge in I. cbn in I. lra.
  - exfalso. apply N. split; [unfold z_last; cbn; lra|]. rewrite ex_radius2 by lra. unfold r_edge; cbn. lra.
Qed.
(** Moments of a particle at z = 5/2, r = 9/4. *)
Example ex_C31 : forall s, shape_name s ->
  inside ex_g (9 / 4, 0, 5 / 2) /\ away_z ex_g s (9 / 4, 0, 5 / 2) /\ away_r ex_g s (9 / 4, 0, 5 / 2).
Proof.
  intros s Hs. unfold inside, away_z, away_r. rewrite ex_radius2 by lra.
  destruct Hs as [-> | ->]; cbn; unfold z_last, r_edge; cbn; repeat split; lra.
Qed.
Example ex_C31_plasma : forall s, shape_name s ->
  9 / 4 <= r_edge ex_g /\ plasma_away_z ex_g s 2 (9 / 4) /\ plasma_away_r ex_g s (9 / 4).
Proof.
  intros s Hs. unfold plasma_away_z, plasma_away_r, r_edge.
  destruct Hs as [-> | ->]; cbn; repeat split; try lra; lia.
Qed.
Example ex_C29_wide : dgrid_ok (mkd 0 (1 / 2) 3 3 1 1) /\ dgrid_ok (mkd 0 (1 / 2) 3 2 1 1).
Proof. repeat split; cbn; try lra; lia. Qed.
(** Share of radial cell 1 from a particle at r = 2 (half way): the correction moves
    charge outwards, from 1/2 to 1/2 - 1/32. *)
Example ex_C63 : radial_share ex_g "linear" true 0 2 1 = 1 / 2 - 1 / 32.
Proof.
  destruct ex_C28_grid as (Hg & _).
  rewrite radial_share_eq; [|left; reflexivity|exact Hg|unfold z_last; cbn; lra|unfold r_edge; cbn; lra].
  cbn [is_cubic String.eqb Ascii.eqb Bool.eqb]. cbn [dg_dr ex_g].
  replace (2 / 1) with (IZR 2 - / 2 + / 2) by lra.
  rewrite linear_piece by (try exact Hg; try lra; cbn; lia).
  cbn. unfold at_, lin_u, lin_coef; cbn. lra.
Qed.
Example ex_C65 : ~ shape_name "quadratic".
Proof. intros [H|H]; discriminate. Qed.

Print Assumptions C28_beam.
Print Assumptions C28_plasma.
Print Assumptions C29_in_bounds.
Print Assumptions C29_plasma_in_bounds.
Print Assumptions C29_outside.
Print Assumptions C29_guards_partial.
Print Assumptions C29_plasma_guards_partial.
Print Assumptions C29_linear_refuted.
Print Assumptions C29_cubic_refuted.
Print Assumptions C30_order.
Print Assumptions C30_plasma_order.
Print Assumptions C30_append.
Print Assumptions C30_scaling.
Print Assumptions C31_longitudinal.
Print Assumptions C31_radial.
Print Assumptions C31_plasma_longitudinal.
Print Assumptions C31_plasma_radial.
Print Assumptions C31_linear_refuted.
Print Assumptions C63_linear.
Print Assumptions C63_cubic_partial.
Print Assumptions C63_cubic_edge_refuted.
Print Assumptions C64_beam.
Print Assumptions C64_plasma.
Print Assumptions C65_beam.
Print Assumptions C65_plasma_refuted.
