(** C45, C47, C77: plasma column and wakefield potential. *)
From Coq Require Import Reals Lra ZArith Lia List Bool Arith Permutation.
From Coquelicot Require Import Coquelicot.
From Verif Require Import Model_Push Model_Interp Model_Psi Spec_Psi Proofs_Psi Proofs_Psi2 Proofs_Psi3 Proofs_Psi4 Proofs_Psi5 Proofs_Psi6.
Import ListNotations.
Open Scope R_scope.

(** C45: on the grid the potential is that of all particles with a smaller radius and of the
    ions, minus its value at the plasma edge or at the outermost particle. *)
Theorem C45_grid : forall r_fld r q idx r_max pc psi k j m,
  orders idx r -> length q = length r -> (forall x, In x r -> 0 < x) -> r <> [] -> 0 < r_max ->
  (forall x, In x r_fld -> 0 < x) ->
  (forall a b, (a < b < length r_fld)%nat -> nth a r_fld 0 <= nth b r_fld 0) ->
  is_largest r m -> (0 <= j < Z.of_nat (length r_fld))%Z ->
  cell (calculate_psi r_fld r q idx r_max pc psi k) (k + 2) (2 + j) =
  potential r q r_max pc (nth (Z.to_nat j) r_fld 0) - potential r q r_max pc (Rmax m r_max).
Proof. exact grid_value. Qed.
Print Assumptions C45_grid.
(** Slices of other positions are not touched; the guard cells of the slice are shifted. *)
Theorem C45_other_slices : forall r_fld r q idx r_max pc psi k i j, i <> (k + 2)%Z ->
  cell (calculate_psi r_fld r q idx r_max pc psi k) i j = cell psi i j.
Proof. exact grid_other. Qed.
Theorem C45_guards : forall r_fld r q idx r_max pc psi k j m,
  orders idx r -> length q = length r -> (forall x, In x r -> 0 < x) -> r <> [] -> 0 < r_max ->
  is_largest r m -> (j < 2 \/ 2 + Z.of_nat (length r_fld) <= j)%Z ->
  cell (calculate_psi r_fld r q idx r_max pc psi k) (k + 2) j =
  cell psi (k + 2) j - potential r q r_max pc (Rmax m r_max).
Proof. exact grid_guards. Qed.
(** The order in which the particles are stored does not matter. *)
Theorem C45_storage : forall r_fld r q idx r' q' idx' r_max pc psi k j m,
  orders idx r -> orders idx' r' -> length q = length r -> length q' = length r' ->
  Permutation (combine r q) (combine r' q') ->
  (forall x, In x r -> 0 < x) -> r <> [] -> 0 < r_max -> (forall x, In x r_fld -> 0 < x) ->
  (forall a b, (a < b < length r_fld)%nat -> nth a r_fld 0 <= nth b r_fld 0) ->
  is_largest r m -> (0 <= j < Z.of_nat (length r_fld))%Z ->
  cell (calculate_psi r_fld r q idx r_max pc psi k) (k + 2) (2 + j) =
  cell (calculate_psi r_fld r' q' idx' r_max pc psi k) (k + 2) (2 + j).
Proof. exact grid_storage. Qed.
Print Assumptions C45_storage.
(** The potential obeys Gauss's law: its slope is the enclosed net charge over the radius. *)
Theorem C45_gauss : forall r q r_max pc x, (forall y, In y r -> 0 < y) -> 0 < r_max -> 0 < x ->
  ~ In x r ->
  is_derive (potential r q r_max pc) x ((electron_charge r q x - ion_charge r_max pc x) / x).
Proof. exact potential_derive. Qed.
Print Assumptions C45_gauss.
(** It is continuous, also at the particles and at the plasma edge. *)
Theorem C45_continuous : forall r q r_max pc x, (forall y, In y r -> 0 < y) -> 0 < r_max -> 0 < x ->
  continuous (potential r q r_max pc) x.
Proof. exact potential_continuous. Qed.
(** Outside of the plasma it is that of the net charge; zero everywhere if the plasma is neutral. *)
Theorem C45_outside : forall r q r_max pc m x, (forall y, In y r -> 0 < y) -> length q = length r ->
  0 < r_max -> is_largest r m -> Rmax m r_max <= x ->
  potential r q r_max pc x - potential r q r_max pc (Rmax m r_max)
  = (sumR q - ion_charge r_max pc x) * ln (x / Rmax m r_max).
Proof. exact potential_outside. Qed.
(** At the particles: values on the chord between the middle points to the neighbours, with the
    lower bound -0.90; the slope likewise. *)
Theorem C45_particles : forall r pr q idx r_max dr_p pc k,
  orders idx r -> NoDup r -> (forall x, In x r -> 0 < x) -> length q = length r ->
  length pr = length r -> 0 < r_max -> 0 < dr_p -> (k < length r)%nat ->
  let i := nth k idx 0%nat in
  let far := Rmax (mid_right dr_p idx r (length r - 1)) r_max in
  let '(psi, dr_psi, _) := psi_at_particles r pr q idx r_max dr_p pc in
  nth i psi 0 = Rmax (-0.90)
    (chord (potential r q r_max pc) (mid_left idx r k) (mid_right dr_p idx r k) (nth i r 0)
     - potential r q r_max pc far) /\
  nth i dr_psi 0 = chord (slope r q r_max pc) (mid_left idx r k) (mid_right dr_p idx r k) (nth i r 0).
Proof.
  intros r pr q idx r_max dr_p pc k H ND P LQ LP RM DP K i far.
  pose proof (psi_value r pr q idx r_max dr_p pc H ND P LQ LP RM DP k K) as A.
  pose proof (dr_psi_value r pr q idx r_max dr_p pc H ND P LQ LP RM DP k K) as B.
  destruct (psi_at_particles r pr q idx r_max dr_p pc) as [[psi dr_psi] dxi]. split; [exact A|exact B].
Qed.
Print Assumptions C45_particles.
(** Every particle is left with 1 + psi >= 0.1 and a bounded longitudinal field. *)
Theorem C45_bounds : forall r pr q idx r_max dr_p pc,
  let '(psi, dr_psi, dxi_psi) := psi_at_particles r pr q idx r_max dr_p pc in
  (forall x, In x psi -> -0.90 <= x) /\ (forall x, In x dxi_psi -> -3 <= x <= 3).
Proof. exact particle_bounds. Qed.
(** Two particles, stored with the larger radius first. *)
Example C45_example : orders [1%nat; 0%nat] [2; 1] /\ NoDup [2; 1] /\ is_largest [2; 1] 2 /\
  electron_charge [2; 1] [5; 7] 1.5 = 7 /\ mid_right 1 [1%nat; 0%nat] [2; 1] 0 = 1.5.
Proof.
  split; [split|].
  - apply perm_swap.
  - simpl. intros i j IJ. destruct i as [|[|i]], j as [|[|j]]; simpl; try lia; lra.
  - split; [|split; [|split]].
    + constructor; [intros [F|[]]; lra|constructor; [intros []|constructor]].
    + split; [left; reflexivity|]. intros x [<-|[<-|[]]]; lra.
    + unfold electron_charge, sum_below. simpl. destruct (Rlt_dec 2 1.5); [lra|]. destruct (Rlt_dec 1 1.5); lra.
    + unfold mid_right. simpl. lra.
Qed.

(** C47: the initial column. *)
Theorem C47_column : forall r_max_plasma pc dr ppc, 0 <= r_max_plasma -> 0 < dr -> 0 < ppc ->
  let n := n_part r_max_plasma dr ppc in
  let d := dr / ppc in
  let c := initialize r_max_plasma pc dr ppc in
  length (p_r c) = n /\ length (p_pr c) = n /\ length (p_pz c) = n /\ length (p_gamma c) = n /\
  length (p_q c) = n /\
  forall i, (i < n)%nat ->
    nth i (p_r c) 0 = (INR i + / 2) * d /\
    nth i (p_pr c) 0 = 0 /\ nth i (p_pz c) 0 = 0 /\ nth i (p_gamma c) 0 = 1 /\
    nth i (p_q c) 0 = d * nth i (p_r c) 0 * (1 + pc * nth i (p_r c) 0 ^ 2).
Proof.
  intros R pc dr ppc RP DR PP n d c. pose proof (col_length R pc dr ppc) as (A & B & C & D & E).
  repeat (split; [assumption|]). intros i I.
  pose proof (col_rest R pc dr ppc i I) as (F1 & F2 & F3).
  split; [apply col_r; auto|]. split; [exact F1|]. split; [exact F2|]. split; [exact F3|]. apply col_q; auto.
Qed.
Print Assumptions C47_column.
(** The radius of the column is the requested one up to half the distance of particles; at
    exactly half the number of particles is even. *)
Theorem C47_extent : forall r_max_plasma dr ppc, 0 <= r_max_plasma -> 0 < dr -> 0 < ppc ->
  adjusted_radius r_max_plasma dr ppc = INR (n_part r_max_plasma dr ppc) * (dr / ppc) /\
  Rabs (adjusted_radius r_max_plasma dr ppc - r_max_plasma) <= dr / ppc / 2 /\
  (Rabs (adjusted_radius r_max_plasma dr ppc - r_max_plasma) = dr / ppc / 2 ->
   Nat.Even (n_part r_max_plasma dr ppc)).
Proof. intros R dr ppc RP DR PP. split; [reflexivity|]. exact (radius_near R dr ppc RP DR PP). Qed.
(** A uniform column is neutral: within every cell boundary the electrons carry exactly the
    charge of the ions. *)
Theorem C47_neutral : forall r_max_plasma dr ppc m, 0 <= r_max_plasma -> 0 < dr -> 0 < ppc ->
  let n := n_part r_max_plasma dr ppc in
  let c := initialize r_max_plasma 0 dr ppc in
  let x := INR m * (dr / ppc) in
  (0 < m <= n)%nat ->
  electron_charge (p_r c) (p_q c) x = ion_charge (adjusted_radius r_max_plasma dr ppc) 0 x.
Proof.
  intros R dr ppc m RP DR PP n c x M. unfold x, c. rewrite (col_charge R 0 dr ppc DR PP) by (fold n; lia).
  pose proof (dr_p_pos dr ppc DR PP) as D.
  assert (RM : 0 < adjusted_radius R dr ppc) by (apply Rmult_lt_0_compat; auto; apply lt_0_INR; fold n; lia).
  assert (0 <= INR m * (dr / ppc)) by (apply Rmult_le_pos; [apply pos_INR|lra]).
  rewrite ion_charge_closed by assumption. unfold charge_in. rewrite Rmin_left.
  1: { set (y := INR m * (dr / ppc)). clearbody y. set (w := dr / ppc). clearbody w. cbv zeta. field. }
  apply Rmult_le_compat_r; [lra|]. apply le_INR. fold n. lia.
Qed.
Print Assumptions C47_neutral.
(** With a parabolic profile it is not: charge is missing in proportion to the square of the
    distance of particles. *)
Theorem C47_neutral_refuted : forall r_max_plasma pc dr ppc, 0 <= r_max_plasma -> 0 < dr -> 0 < ppc ->
  let n := n_part r_max_plasma dr ppc in
  let c := initialize r_max_plasma pc dr ppc in
  let x := adjusted_radius r_max_plasma dr ppc in
  (0 < n)%nat ->
  electron_charge (p_r c) (p_q c) x = ion_charge x pc x - pc * x ^ 2 * (dr / ppc) ^ 2 / 8.
Proof.
  intros R pc dr ppc RP DR PP n c x N. pose proof (dr_p_pos dr ppc DR PP) as D.
  assert (RM : 0 < x) by (apply Rmult_lt_0_compat; auto; apply lt_0_INR; assumption).
  rewrite ion_charge_closed by (auto; lra). unfold charge_in. rewrite Rmin_left by lra.
  unfold x, c, adjusted_radius. rewrite (col_charge R pc dr ppc DR PP) by lia. set (y := INR _ * (dr / ppc)). clearbody y. set (w := dr / ppc). clearbody w. field.
Qed.
(** Without a driver no radial force acts on a particle of a uniform column. *)
Theorem C47_quiet : forall r_max_plasma dr ppc idx i, 0 < dr -> 0 < ppc ->
  let c := initialize r_max_plasma 0 dr ppc in
  orders idx (p_r c) -> (i < n_part r_max_plasma dr ppc)%nat ->
  let '(_, dr_psi, _) := psi_at_particles (p_r c) (p_pr c) (p_q c) idx
    (adjusted_radius r_max_plasma dr ppc) (dr / ppc) 0 in
  nth i dr_psi 0 = 0.
Proof.
  intros R dr ppc idx i DR PP c H I.
  pose proof (col_quiet R 0 dr ppc DR PP idx i H eq_refl I) as Q. fold c in Q.
  destruct (psi_at_particles (p_r c) (p_pr c) (p_q c) idx (adjusted_radius R dr ppc) (dr / ppc) 0) as [[a b] d].
  exact Q.
Qed.
Print Assumptions C47_quiet.
(** Two cells with two particles each. *)
Example C47_example : n_part 2 1 2 = 4%nat.
Proof.
  unfold n_part. replace (2 / 1 * 2) with 4 by field. unfold round_even.
  assert (E : Int_part 4 = 4%Z) by (unfold Int_part; rewrite <- (tech_up 4 5) by (simpl; lra); reflexivity).
  unfold frac_part. rewrite E. destruct (Rlt_dec (4 - IZR 4) (/ 2)); [reflexivity|lra].
Qed.

(** C77: the longitudinal derivative at a particle is that of the potential relative to the edge
    while all particles move with their radial velocities, on the chord between the middle
    points and bounded by 3. *)
Theorem C77_longitudinal : forall r pr q idx r_max dr_p pc,
  orders idx r -> NoDup r -> (forall x, In x r -> 0 < x) -> length q = length r ->
  length pr = length r -> 0 < r_max -> 0 < dr_p -> r <> [] ->
  let psi := fst (fst (psi_at_particles r pr q idx r_max dr_p pc)) in
  let last := nth (length r - 1) idx 0%nat in
  let edge := mid_right dr_p idx r (length r - 1) in
  forall k,
  pc = 0 \/ edge <= r_max -> edge <> r_max \/ velocity pr psi last = 0 -> (k < length r)%nat ->
  exists D,
    (forall x, 0 <= x -> ~ In x r ->
       is_derive (fun s => relative_potential (moved r pr psi s) q r_max dr_p pc last x) 0 (D x)) /\
    nth (nth k idx 0%nat) (snd (psi_at_particles r pr q idx r_max dr_p pc)) 0 =
    Rmax (-3) (Rmin 3 (chord D (mid_left idx r k) (mid_right dr_p idx r k) (nth (nth k idx 0%nat) r 0))).
Proof. exact longitudinal. Qed.
Print Assumptions C77_longitudinal.
(** With a parabolic profile and electrons beyond the plasma edge it is not. *)
Theorem C77_longitudinal_refuted :
  let r := [3] in let pr := [/ 1000] in let q := [1] in let idx := [0%nat] in
  let psi := fst (fst (psi_at_particles r pr q idx 2 2 1)) in
  orders idx r /\ NoDup r /\ (forall x, In x r -> 0 < x) /\ mid_right 2 idx r 0 <> 2 /\
  ~ exists D,
      (forall x, 0 <= x -> ~ In x r ->
         is_derive (fun s => relative_potential (moved r pr psi s) q 2 2 1 0 x) 0 (D x)) /\
      nth 0 (snd (psi_at_particles r pr q idx 2 2 1)) 0 =
      Rmax (-3) (Rmin 3 (chord D (mid_left idx r 0) (mid_right 2 idx r 0) 3)).
Proof. exact longitudinal_counterexample. Qed.
Print Assumptions C77_longitudinal_refuted.
Example C77_example : mid_right 1 [1%nat; 0%nat] [2; 1] 1 <= 5 /\ mid_right 1 [1%nat; 0%nat] [2; 1] 1 <> 5.
Proof. unfold mid_right. simpl. split; lra. Qed.
