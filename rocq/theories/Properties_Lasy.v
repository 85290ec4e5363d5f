(** Property C103: laser pulses read from an openPMD file. *)
From Coq Require Import Reals String List Lra Lia.
From Coquelicot Require Import Complex.
From Verif Require Import Model_Push Model_CSR Model_Laser Model_Lasy Spec_Lasy Proofs_Lasy.
Import ListNotations.
Open Scope R_scope.

(** The initial envelope is the pulse of the file: its time t = 0 is at the front of the grid, and
    a node a distance d behind the front gets the value at time d / c, at the radius of the
    node. *)
Theorem C103_values : forall prof r_axis_max vp gf (a : prof -> R -> R -> C) o p sp i k,
  on_grid vp a -> valid_grid sp -> o_filter o = false -> o_smooth o = false ->
  (i < sp_nz sp)%nat -> (k < sp_nr sp)%nat ->
  initial_from_file prof r_axis_max vp gf o p sp i k =
  a p (r_at sp k) ((sp_zmax sp - xi_at sp i) / c_SI).
Proof.
  intros prof rm vp gf a o p sp i k Ha V Hf Hs Hi Hk. rewrite file_eq by exact V.
  cbv zeta. rewrite Hf, Hs. apply sampled_value; assumption.
Qed.
(** With smooth edges it is multiplied by a super-Gaussian of the radius, whose width is 0.85
    times the smaller one of the largest radius in the file and the last node. *)
Theorem C103_smooth_edges : forall prof r_axis_max vp gf (a : prof -> R -> R -> C) o p sp i k,
  on_grid vp a -> valid_grid sp -> o_filter o = false -> o_smooth o = true ->
  (i < sp_nz sp)%nat -> (k < sp_nr sp)%nat ->
  let w := 0.85 * Rmin (r_axis_max p) (sp_rmax sp - sp_rmax sp / INR (sp_nr sp) / 2) in
  initial_from_file prof r_axis_max vp gf o p sp i k =
  Cmult (a p (r_at sp k) ((sp_zmax sp - xi_at sp i) / c_SI)) (RtoC (exp (- 2 * (r_at sp k / w) ^ 8))).
Proof.
  intros prof rm vp gf a o p sp i k Ha V Hf Hs Hi Hk w. rewrite file_eq by exact V.
  cbv zeta. rewrite Hf, Hs, (sampled_value prof vp a p sp i k) by assumption.
  assert (E : r_at sp (sp_nr sp - 1) = sp_rmax sp - sp_rmax sp / INR (sp_nr sp) / 2).
  { pose proof (nr1 sp V) as R1. destruct V as (_ & _ & _ & V). unfold r_at.
    rewrite minus_INR by lia. cbn [INR]. field. lra. }
  rewrite node_rad_at, E by exact V. unfold w.
  rewrite (Rmult_comm 0.85). reflexivity.
Qed.
(** This keeps the phase, increases nothing, and leaves less than 1 % at the edge. *)
Theorem C103_edge_factor : forall w0 r, 0 < w0 -> 0 <= r ->
  0 < exp (- 2 * (r / (0.85 * w0)) ^ 8) <= 1 /\
  (w0 <= r -> exp (- 2 * (r / (0.85 * w0)) ^ 8) < / 100).
Proof.
  intros w0 r Hw Hr. assert (Q : 0 <= r / (0.85 * w0)) by (apply Rmult_le_pos; [lra|left; apply Rinv_0_lt_compat; lra]).
  split; [split; [apply exp_pos|]|].
  - rewrite <- exp_0. pose proof (pow_le _ 8 Q) as P.
    destruct (Req_dec ((r / (0.85 * w0)) ^ 8) 0) as [E|E].
    + rewrite E. right. f_equal. ring.
    + left. apply exp_increasing. lra.
  - intros H. assert (Q1 : 1 / 0.85 <= r / (0.85 * w0)).
    { replace (r / (0.85 * w0)) with (r / w0 / 0.85) by (field; lra).
      unfold Rdiv. apply Rmult_le_compat_r; [lra|].
      apply (Rmult_le_reg_r w0); [exact Hw|]. rewrite Rmult_assoc, Rinv_l by lra. lra. }
    assert (P : 7 / 2 < (r / (0.85 * w0)) ^ 8).
    { apply Rlt_le_trans with ((1 / 0.85) ^ 8); [lra|]. apply pow_incr. lra. }
    apply Rlt_trans with (exp (- 7)); [apply exp_increasing; lra|].
    assert (E8 : exp 7 = exp (7 / 8) ^ 8).
    { cbn [pow]. rewrite Rmult_1_r, <- !exp_plus. f_equal. field. }
    assert (L : 15 / 8 < exp (7 / 8)) by (pose proof (exp_ineq1 (7 / 8) ltac:(lra)); lra).
    assert (L8 : 100 < exp 7).
    { rewrite E8. apply Rlt_le_trans with ((15 / 8) ^ 8); [lra|]. apply pow_incr. lra. }
    replace (-7) with (- (7)) by ring. rewrite exp_Ropp. apply Rinv_lt_contravar; [|exact L8]. apply Rmult_lt_0_compat; [lra|apply exp_pos].
Qed.
(** The Gaussian filter is applied to the array of all nodes, before the edges are smoothed. *)
Theorem C103_filter : forall prof r_axis_max vp gf o p sp i k, valid_grid sp ->
  let plain := initial_from_file prof r_axis_max vp gf (mkfo false false (o_sigma o)) p sp in
  let filtered := gf (o_sigma o) (sp_nz sp, sp_nr sp) plain in
  (o_filter o = true -> o_smooth o = false ->
   initial_from_file prof r_axis_max vp gf o p sp = filtered) /\
  (o_filter o = true -> o_smooth o = true ->
   initial_from_file prof r_axis_max vp gf o p sp i k =
   Cmult (filtered i k) (RtoC (exp (- 2 *
     (r_at sp k / (0.85 * Rmin (r_axis_max p) (r_at sp (sp_nr sp - 1)))) ^ 8)))).
Proof.
  intros prof rm vp gf o p sp i k V plain filtered. unfold filtered, plain.
  rewrite !file_eq by exact V. cbv zeta. cbn [o_filter o_smooth]. split; intros Hf Hs; rewrite Hf, Hs.
  - reflexivity.
  - rewrite node_rad_at by exact V. rewrite (Rmult_comm 0.85). reflexivity.
Qed.
(** Where the grid is does not matter: the pulse moves with it. *)
Theorem C103_moves_with_the_grid : forall prof r_axis_max vp gf o p sp d, valid_grid sp ->
  initial_from_file prof r_axis_max vp gf o p (moved_grid d sp) =
  initial_from_file prof r_axis_max vp gf o p sp.
Proof.
  intros prof rm vp gf o p sp d V.
  assert (V' : valid_grid (moved_grid d sp)) by (unfold valid_grid, moved_grid in *; cbn; lra || (destruct V as (A & B & C & D); repeat split; lra || lia)).
  rewrite !file_eq by assumption.
  assert (E : sampled prof vp p (moved_grid d sp) = sampled prof vp p sp).
  { unfold sampled, r_at. cbn [moved_grid sp_zmin sp_zmax sp_rmax sp_nz sp_nr].
    replace (sp_zmax sp + d - (sp_zmin sp + d)) with (sp_zmax sp - sp_zmin sp) by ring. reflexivity. }
  rewrite E. reflexivity.
Qed.
(** The wavelength is that of the file; the polarisation is always linear; without lasy there is
    no pulse. *)
Theorem C103_constructor : forall prof lambda0 p,
  (exists q, new_openpmd_pulse prof lambda0 true p = Some q /\ p_l0 q = lambda0 p /\
     p_pol q = "linear"%string /\ p_a_env q = None) /\
  new_openpmd_pulse prof lambda0 false p = None.
Proof.
  intros prof l0 p. split; [|reflexivity]. eexists. split; [reflexivity|]. repeat split.
Qed.

(** ** Non-vacuity *)
Definition ex_sp : sparams := mksp (- 3) 1 2 5 4 1 1 true.
Definition ex_a (p : unit) (r t : R) : C := (r, t).
Definition ex_vp (p : unit) (lo hi : R * R) (n : nat * nat) (m i j : nat) : C :=
  ex_a p (fst lo + INR i * ((fst hi - fst lo) / (INR (fst n) - 1)))
         (snd lo + INR j * ((snd hi - snd lo) / (INR (snd n) - 1))).
Example C103_example : valid_grid ex_sp /\ on_grid ex_vp ex_a /\
  initial_from_file unit (fun _ => 1) ex_vp (fun _ _ a => a) (mkfo false false (5, 0)) tt ex_sp 3%nat 1%nat
    = (3 / 4, 1 / c_SI).
Proof.
  assert (V : valid_grid ex_sp) by (unfold valid_grid, ex_sp; cbn; repeat split; lra || lia).
  assert (A : on_grid ex_vp ex_a) by (intros p r0 t0 r1 t1 nr nt i j _ _ _ _; reflexivity).
  split; [exact V|]. split; [exact A|].
  rewrite (C103_values unit _ ex_vp _ ex_a) by (try assumption; try reflexivity; cbn; lia).
  unfold ex_a, r_at, xi_at, ex_sp. cbn [sp_zmin sp_zmax sp_rmax sp_nz sp_nr].
  assert (c_SI <> 0) by (pose proof c_SI_pos'; lra). f_equal; cbn [INR]; field; assumption.
Qed.

Print Assumptions C103_values.
Print Assumptions C103_smooth_edges.
Print Assumptions C103_edge_factor.
Print Assumptions C103_filter.
Print Assumptions C103_moves_with_the_grid.
Print Assumptions C103_constructor.
