(** Proofs: the solution of the cold fluid model. *)
From Coq Require Import Reals ZArith String List Bool Arith Lia Lra.
From Coquelicot Require Import Coquelicot.
From Verif Require Import Model_Push Model_Interp Spec_Interp Proofs_Interp Model_Deposit Spec_Deposit Proofs_Deposit
  Model_QS Spec_QS Proofs_QS4 Proofs_QS6 Proofs_QS7 Model_Fluid Spec_Fluid.
Import ListNotations.
Open Scope R_scope.

Lemma micro x : x * 1e-6 = x / 1000000.
Proof. replace 1e-6 with (/ 1000000) by lra. reflexivity. Qed.

Section Run.
  Variables (skin_depth wave_breaking : R -> R) (e light : R) (W : fluid).
  Hypothesis D : domain 2 W.
  Let s := skin_depth (c_np W / 1000000).
  Hypothesis S : 0 < s.

  Lemma sd_eq : p_sd skin_depth W = s.
  Proof. unfold p_sd, s. rewrite micro. reflexivity. Qed.
  Lemma steps_pos : 0 < step_xi W /\ 0 < step_r W.
  Proof.
    destruct D as (X & R & Nx & Nr & _). apply IZR_le in Nr, Nx. unfold step_xi, step_r. split; apply Rdiv_lt_0_compat; lra.
  Qed.
  Lemma dz_eq : p_dz skin_depth W = step_xi W / s.
  Proof. unfold p_dz, c_dxi, step_xi. rewrite sd_eq. reflexivity. Qed.
  Lemma dr_eq : p_dr skin_depth W = step_r W / s.
  Proof. unfold p_dr, c_dr, step_r. rewrite sd_eq. reflexivity. Qed.
  Lemma r_eq j : p_r skin_depth W j = (IZR j + / 2) * (step_r W / s).
  Proof.
    unfold p_r, c_rfld, linspace, c_dr, step_r. rewrite sd_eq. destruct D as (_ & _ & _ & Nr & _). apply IZR_le in Nr. field. lra.
  Qed.
  Lemma z_eq i : p_z skin_depth W i = c_ximin W / s + IZR i * (step_xi W / s).
  Proof. unfold p_z, c_xifld, linspace, step_xi. rewrite sd_eq. destruct D as (_ & _ & Nx & _). apply IZR_le in Nx. field. lra. Qed.
  Lemma grid_eq : p_grid skin_depth W = fluid_grid s W.
  Proof. unfold p_grid, fluid_grid. rewrite dz_eq, dr_eq, r_eq, sd_eq. f_equal. replace (0 + / 2) with (/ 2) by ring. unfold Rdiv. ring. Qed.
  Lemma grid_good : dgrid_ok (fluid_grid s W).
  Proof.
    pose proof steps_pos as [P1 P2]. destruct D as (_ & _ & Nx & Nr & _). unfold dgrid_ok, fluid_grid; cbn.
    repeat split; try lia; try apply Rdiv_lt_0_compat; assumption.
  Qed.

  (** *** Bunches *)
  Lemma counted_eq l : map (in_plasma_units skin_depth e W) l = map (counted s e) l.
  Proof. apply map_ext. intros [[[x y] z] q]. unfold in_plasma_units, counted. rewrite sd_eq. reflexivity. Qed.
  Lemma deposit_concat : forall bunches a, darray (fluid_grid s W) a ->
    deposit_bunches skin_depth e W bunches a =
    deposit_3d_distribution (fluid_grid s W) (c_shape W) true (map (counted s e) (concat bunches)) a.
  Proof.
    assert (Hs : shape_name (c_shape W)) by (destruct D as (_ & _ & _ & _ & _ & Hs); exact Hs).
    induction bunches as [|b l IH]; intros a A.
    - cbn [deposit_bunches concat map]. unfold deposit_3d_distribution. destruct Hs as [-> | ->]; reflexivity.
    - cbn [deposit_bunches concat]. rewrite map_app, grid_eq, counted_eq.
      destruct (deposit_3d_lemma (fluid_grid s W) (c_shape W) true (map (counted s e) b) a Hs grid_good A) as (c & E & P).
      rewrite (app_lemma _ _ _ _ _ _ _ Hs E). unfold pos in *. rewrite E. cbn [cbind]. apply IH. destruct P as (P1 & P2 & _). destruct A. split; congruence.
  Qed.
  Lemma bunches_lemma bunches : exists N,
    deposit_bunches skin_depth e W bunches (zeros2 (c_nxi W) (c_nr W)) = Returned (Ok N) /\
    bunch_density s e W bunches (beam_hist skin_depth W N).
  Proof.
    assert (Hs : shape_name (c_shape W)) by (destruct D as (_ & _ & _ & _ & _ & Hs); exact Hs).
    assert (A : darray (fluid_grid s W) (zeros (fluid_grid s W))) by (split; reflexivity).
    destruct (deposit_3d_lemma (fluid_grid s W) (c_shape W) true (map (counted s e) (concat bunches)) _ Hs grid_good A) as (N & E & P).
    exists N. change (zeros2 (c_nxi W) (c_nr W)) with (zeros (fluid_grid s W)). rewrite (deposit_concat _ _ A). split; [exact E|].
    exists N. split; [exact E|]. intros i j [I J]. unfold beam_hist, inner, ring_volume. rewrite dr_eq, dz_eq, sd_eq.
    pose proof steps_pos as [P1 P2]. destruct D as (_ & _ & _ & _ & Np & _). pose proof PI_RGT_0.
    assert (0 <= IZR j) by (apply IZR_le; lia). field. repeat split; try lra.
  Qed.

  (** *** Laser *)
  Lemma strength_lemma : strength W (a_env W).
  Proof.
    intros i j. unfold a_env. destruct (c_laser W) as [[env p]|]; [|split; [lra|ring]].
    pose proof (Cmod_ge_0 (env i j)) as H. destruct (String.eqb_spec p "linear") as [E|E]; destruct (string_dec p "linear"); try congruence.
    - pose proof (sqrt_lt_R0 2 ltac:(lra)). split; [apply Rmult_le_pos; [exact H|left; apply Rinv_0_lt_compat; assumption]|].
      unfold Rdiv. rewrite Rpow_mult_distr, pow_inv. replace (sqrt 2 ^ 2) with 2; [reflexivity|]. cbn [pow]. rewrite Rmult_1_r, sqrt_sqrt; lra.
    - split; [exact H|]. field.
  Qed.
  Let g := mkgs (c_ximin W / s) (step_xi W / s) (step_r W / s) (c_nxi W) (c_nr W).
  Lemma g_proper : proper g.
  Proof.
    pose proof steps_pos as [P1 P2]. destruct D as (_ & _ & Nx & Nr & _). unfold proper, g; cbn.
    repeat split; try lia; apply Rdiv_lt_0_compat; assumption.
  Qed.
  Lemma geom_eq : p_geom skin_depth W = args_of g.
  Proof.
    unfold p_geom, args_of, node_z, node_r, g; cbn [gz0 gdz gdr gnz gnr]. rewrite !r_eq, dz_eq, dr_eq, sd_eq.
    destruct D as (_ & _ & Nx & _). apply IZR_le in Nx. f_equal; rewrite ?minus_IZR; unfold step_xi; field; lra.
  Qed.
  Lemma radii_nth {A} (f : Z -> A) j d : (0 <= j < c_nr W)%Z -> nth (Z.to_nat j) (map f (radii W)) d = f j.
  Proof.
    intros J. unfold radii. rewrite map_map, (nth_indep _ d (f (Z.of_nat 0))) by (rewrite map_length, seq_length; lia).
    rewrite (map_nth (fun x => f (Z.of_nat x))), seq_nth by lia. cbn. rewrite Z2Nat.id by lia. reflexivity.
  Qed.
  (** [t] in [0, 1]: between slice [i] and the one behind. *)
  Lemma laser_lemma i t : (1 <= i < c_nxi W)%Z -> 0 <= t <= 1 ->
    exists l, laser_at skin_depth W (p_z skin_depth W i - t * p_dz skin_depth W) = Ok l /\
      forall j, (0 <= j < c_nr W)%Z -> nth (Z.to_nat j) l 0 = (1 - t) * a_env W i j + t * a_env W (i - 1) j.
  Proof.
    intros I T. unfold laser_at. destruct (c_laser W) eqn:El.
    2:{ eexists. split; [reflexivity|]. intros j J. rewrite radii_nth by exact J. unfold a_env. rewrite El. ring. }
    rewrite geom_eq. pose proof g_proper as G.
    destruct (gather_field_lemma g (a_rz W) (map (fun j => (p_r skin_depth W j, 0, p_z skin_depth W i - t * p_dz skin_depth W)) (radii W)) G) as (V & EV & HV).
    { split; reflexivity. }
    eexists. split; [exact EV|]. intros j J. rewrite map_map, radii_nth by exact J.
    destruct (HV (p_r skin_depth W j, 0, p_z skin_depth W i - t * p_dz skin_depth W)) as [HV' _].
    assert (Er : radius (p_r skin_depth W j, 0, p_z skin_depth W i - t * p_dz skin_depth W) = node_r g j).
    { unfold radius. rewrite r_eq. change (node_r g j) with ((IZR j + / 2) * (step_r W / s)).
      assert (0 <= IZR j) by (apply IZR_le; lia). destruct G as (_ & G2 & _). change (gdr g) with (step_r W / s) in G2.
      replace (_ + 0 * 0) with (Rsqr ((IZR j + / 2) * (step_r W / s))) by (unfold Rsqr; ring). apply sqrt_Rsqr. nra. }
    assert (Ez : lon (p_r skin_depth W j, 0, p_z skin_depth W i - t * p_dz skin_depth W) = node_z g (i - 1) + (1 - t) * gdz g).
    { unfold lon; cbn [snd]. rewrite z_eq, dz_eq. unfold node_z, g; cbn [gz0 gdz]. rewrite minus_IZR. ring. }
    rewrite Er, Ez in HV'. destruct G as (G1 & G2 & G3 & G4). change (gnr g) with (c_nr W) in G4.
    assert (Nz : forall k, node_z g (k + 1) = node_z g k + gdz g) by (intros; unfold node_z; rewrite plus_IZR; ring).
    assert (Nr : forall k, node_r g (k + 1) = node_r g k + gdr g) by (intros; unfold node_r; rewrite plus_IZR; ring).
    assert (Mz : forall k k', (k <= k')%Z -> node_z g k <= node_z g k') by (intros k k' Hk; unfold node_z; apply IZR_le in Hk; apply Rplus_le_compat_l, Rmult_le_compat_r; lra).
    assert (Mr : forall k k', (k <= k')%Z -> node_r g k <= node_r g k') by (intros k k' Hk; unfold node_r; apply IZR_le in Hk; apply Rmult_le_compat_r; lra).
    assert (Cz : node_z g (i - 1) <= node_z g (i - 1) + (1 - t) * gdz g <= node_z g (i - 1 + 1)) by (rewrite Nz; revert G1 T; generalize (gdz g); clear; intros d; nra).
    assert (Cv : covered g (node_z g (i - 1) + (1 - t) * gdz g) (node_r g j)).
    { split.
      - pose proof (Mz 0%Z (i - 1)%Z ltac:(lia)). pose proof (Mz (i - 1 + 1)%Z (gnz g - 1)%Z ltac:(cbn; lia)). lra.
      - split; [|apply Mr; cbn; lia]. unfold node_r. assert (0 <= IZR j) by (apply IZR_le; lia). apply Rmult_le_pos; lra. }
    specialize (HV' Cv). destruct (HV' (i - 1)%Z ltac:(cbn; lia) Cz) as [HB _].
    assert (L : (node_z g (i - 1) + (1 - t) * gdz g - node_z g (i - 1)) / gdz g = 1 - t) by (field; lra).
    assert (V0 : forall k l, point W k l -> inner (a_rz W) k l = a_env W k l) by (intros k l [K L']; apply inner_part_inner; assumption).
    destruct (Z.eq_dec j (c_nr W - 1)) as [Ej|Ej].
    - assert (Cj : node_r g (j - 1) <= node_r g j <= node_r g (j - 1 + 1)).
      { replace (j - 1 + 1)%Z with j by lia. split; [apply Mr; lia|lra]. }
      rewrite (HB (j - 1)%Z ltac:(cbn; lia) Cj).
      rewrite L. unfold bilinear. replace (j - 1 + 1)%Z with j by lia. replace (i - 1 + 1)%Z with i by lia.
      assert (Lm : (node_r g j - node_r g (j - 1)) / gdr g = 1).
      { replace j with (j - 1 + 1)%Z at 1 by lia. rewrite Nr. field. lra. }
      rewrite Lm, !V0 by (split; lia). ring.
    - assert (Cj : node_r g j <= node_r g j <= node_r g (j + 1)) by (split; [lra|apply Mr; lia]).
      rewrite (HB j ltac:(cbn; lia) Cj).
      rewrite L. unfold bilinear. replace (i - 1 + 1)%Z with i by lia.
      replace ((node_r g j - node_r g j) / gdr g) with 0 by (field; lra). rewrite !V0 by (split; lia). ring.
  Qed.

  (** *** Slices *)
  Section Slices.
    Variable nb : Z -> Z -> R.
    Let next (i j : Z) (y : R * R) : R * R :=
      rk4 (fun t y => poisson ((1 - t) * a_env W i j + t * a_env W (i - 1)%Z j) (if c_beam W then nb i j else 0) y)
        (step_xi W / s) y.
    Lemma rk_lemma i j y a0 a1 a2 : a0 = a_env W i j -> a1 = (a_env W i j + a_env W (i - 1) j) / 2 -> a2 = a_env W (i - 1)%Z j ->
      runge_kutta_step (c_beam W) (p_dz skin_depth W) a0 a1 a2 (nb i j) y = next i j y.
    Proof.
      intros -> -> ->. unfold next, runge_kutta_step, rk4, wakefield_ode_system. rewrite dz_eq. cbv zeta. unfold along, poisson.
      replace ((1 - 0) * a_env W i j + 0 * a_env W (i - 1) j) with (a_env W i j) by ring.
      replace ((1 - / 2) * a_env W i j + / 2 * a_env W (i - 1) j) with ((a_env W i j + a_env W (i - 1) j) / 2) by field.
      replace ((1 - 1) * a_env W i j + 1 * a_env W (i - 1) j) with (a_env W (i - 1) j) by ring.
      set (h := step_xi W / s). generalize ((a_env W i j + a_env W (i - 1) j) / 2) as am. intros am.
      destruct y as [y1 y2]. cbn [fst snd].
      assert (Q : forall x, h * x / 2 = h / 2 * x) by (intros; unfold Rdiv; ring).
      destruct (c_beam W); cbn [fst snd]; rewrite !Q, ?Rminus_0_r; replace (1 / 2) with (/ 2) by lra; f_equal; unfold Rdiv; ring.
    Qed.
    Lemma step_lemma i u : (1 <= i < c_nxi W)%Z ->
      fluid_step skin_depth W nb i u = Ok (map (fun j => next i j (nth (Z.to_nat j) u (0, 0))) (radii W)).
    Proof.
      intros I. unfold fluid_step.
      destruct (laser_lemma i 0 I ltac:(lra)) as (l0 & E0 & V0). destruct (laser_lemma i (/ 2) I ltac:(lra)) as (l1 & E1 & V1).
      destruct (laser_lemma i 1 I ltac:(lra)) as (l2 & E2 & V2).
      replace (p_z skin_depth W i - 0 * p_dz skin_depth W) with (p_z skin_depth W i) in E0 by ring.
      replace (p_z skin_depth W i - / 2 * p_dz skin_depth W) with (p_z skin_depth W i - p_dz skin_depth W / 2) in E1 by field.
      replace (p_z skin_depth W i - 1 * p_dz skin_depth W) with (p_z skin_depth W i - p_dz skin_depth W) in E2 by ring.
      cbv zeta. rewrite E0, E1, E2. cbn [bind]. f_equal. apply map_ext_in. intros j Hj.
      assert (J : (0 <= j < c_nr W)%Z). { unfold radii in Hj. apply in_map_iff in Hj as (k & <- & Hk). apply in_seq in Hk. lia. }
      apply rk_lemma.
      - rewrite V0 by exact J. ring.
      - rewrite V1 by exact J. field.
      - rewrite V2 by exact J. ring.
    Qed.
    Lemma slices_lemma : forall k i u, (Z.of_nat k <= i < c_nxi W)%Z ->
      exists l, fluid_slices skin_depth W nb k i u = Ok l /\ nth 0 l [] = u /\
        forall m, (m < k)%nat -> nth (Datatypes.S m) l [] =
          map (fun j => next (i - Z.of_nat m) j (nth (Z.to_nat j) (nth m l []) (0, 0))) (radii W).
    Proof.
      induction k as [|k IH]; intros i u I.
      - exists [u]. split; [reflexivity|]. split; [reflexivity|]. intros; lia.
      - cbn [fluid_slices]. rewrite step_lemma by lia. cbn [bind].
        destruct (IH (i - 1)%Z (map (fun j => next i j (nth (Z.to_nat j) u (0, 0))) (radii W)) ltac:(lia)) as (l & E & E0 & Es).
        rewrite E. cbn [bind]. eexists. split; [reflexivity|]. split; [reflexivity|]. intros [|m] Hm; cbn [nth].
        + rewrite E0. replace (i - Z.of_nat 0)%Z with i by lia. reflexivity.
        + rewrite Es by lia. replace (i - Z.of_nat (Datatypes.S m))%Z with (i - 1 - Z.of_nat m)%Z by lia. reflexivity.
    Qed.
    Lemma potential_lemma : exists l,
      fluid_slices skin_depth W nb (Z.to_nat (c_nxi W - 1)) (c_nxi W - 1) (map (fun _ => (0, 0)) (radii W)) = Ok l /\
      potential s W (a_env W) nb (u_1 W l).
    Proof.
      destruct (slices_lemma (Z.to_nat (c_nxi W - 1)) (c_nxi W - 1) (map (fun _ => (0, 0)) (radii W))) as (l & E & E0 & Es).
      { destruct D as (_ & _ & Nx & _). lia. }
      exists l. split; [exact E|]. set (y i j := nth (Z.to_nat j) (nth (Z.to_nat (c_nxi W - 1 - i)) l []) (0, 0)).
      exists (fun i j => snd (y i j)). split.
      - intros j J. unfold u_1, y. replace (c_nxi W - 1 - (c_nxi W - 1))%Z with 0%Z by lia. change (Z.to_nat 0) with 0%nat.
        rewrite E0, radii_nth by exact J. split; reflexivity.
      - intros i j [I J] I1. fold (next i j (u_1 W l i j, snd (y i j))). change (u_1 W l i j) with (fst (y i j)).
        change (u_1 W l (i - 1) j) with (fst (y (i - 1)%Z j)). rewrite <- !surjective_pairing.
        unfold y at 1. replace (Z.to_nat (c_nxi W - 1 - (i - 1))) with (Datatypes.S (Z.to_nat (c_nxi W - 1 - i))) by lia.
        rewrite Es by lia. rewrite radii_nth by exact J. f_equal. lia.
    Qed.
  End Slices.
End Run.
