(** Properties C37, C52, C53, C70, C71: transfer maps and coordinate conversions. *)
From Coq Require Import Reals List Arith Lra Lia.
From Coquelicot Require Import Coquelicot.
From Verif Require Import Model_Push Model_Bunch Model_Optics Spec_Optics Proofs_Optics
  Proofs_Optics2 Proofs_Optics3.
Import ListNotations.
Open Scope R_scope.

(** C37: first-order matrices.  [first_order_matrix z L theta k1 gamma]. *)
Theorem C37_identity : forall L theta k1 gamma,
  first_order_matrix 0 L theta k1 gamma = identity6.
Proof. exact first_identity. Qed.
Theorem C37_compose : forall L theta k1 gamma z1 z2 v, 1 < gamma -> is_col v ->
  mat_vec (first_order_matrix (z1 + z2) L theta k1 gamma) v =
  mat_vec (first_order_matrix z2 L theta k1 gamma)
    (mat_vec (first_order_matrix z1 L theta k1 gamma) v).
Proof. intros. apply first_compose; [apply beta_of_neq|]; assumption. Qed.
Theorem C37_determinant : forall L theta k1 gamma z,
  let m := first_order_matrix z L theta k1 gamma in
  entry m 0 0 * entry m 1 1 - entry m 0 1 * entry m 1 0 = 1 /\
  entry m 2 2 * entry m 3 3 - entry m 2 3 * entry m 3 2 = 1.
Proof. intros. apply first_det. Qed.
(** Tracking to first order through two pieces of an element is tracking through both at
    once; every order other than 2 means first order. *)
Theorem C37_track : forall z1 z2 L theta k1 k2 gamma order beam, 1 < gamma ->
  List.Forall is_col beam -> order <> 2%nat ->
  track_with_transfer_map (track_with_transfer_map beam z1 L theta k1 k2 gamma order)
    z2 L theta k1 k2 gamma order =
  track_with_transfer_map beam (z1 + z2) L theta k1 k2 gamma order.
Proof.
  intros z1 z2 L theta k1 k2 gamma order beam Hg HC Ho. unfold track_with_transfer_map.
  rewrite map_map. induction HC as [|v beam Hv HC IH]; [reflexivity|]. cbn [map].
  rewrite track_compose by assumption. f_equal. exact IH.
Qed.
(** What tracking does to each particle. *)
Theorem C37_particles : forall beam z L theta k1 k2 gamma order i,
  length (track_with_transfer_map beam z L theta k1 k2 gamma order) = length beam /\
  ((i < length beam)%nat ->
   nth i (track_with_transfer_map beam z L theta k1 k2 gamma order) [] =
   let v := nth i beam [] in
   let lin := mat_vec (first_order_matrix z L theta k1 gamma) v in
   if Nat.eq_dec order 2
   then map2 Rplus lin (quad_form (second_order_matrix z L theta k1 k2 gamma) v)
   else lin).
Proof.
  intros. unfold track_with_transfer_map. split; [apply map_length|]. intros H.
  rewrite (nth_indep _ [] (track_col z L theta k1 k2 gamma order [])) by (rewrite map_length; exact H).
  rewrite map_nth. unfold track_col. cbv zeta.
  destruct (Nat.eq_dec order 2) as [->|N]; [reflexivity|].
  rewrite (proj2 (Nat.eqb_neq order 2) N). reflexivity.
Qed.
Example C37_example : 1 < 1000 /\ is_col [1; 2; 3; 4; 5; 6] /\
  first_order_matrix 0 2 0 0 1000 = identity6.
Proof. repeat split; [lra|apply first_identity]. Qed.

(** C71: the first-order map is the solution of the linear equations of motion, with
    curvature theta/L, and is symplectic. *)
Theorem C71_equations : forall L theta k1 gamma z v i, 1 < gamma -> (i < 6)%nat ->
  is_derive (fun z => nth i (mat_vec (first_order_matrix z L theta k1 gamma) v) 0) z
    (nth i (lin (theta / L) k1 (rel_beta gamma) (/ gamma ^ 2)
       (mat_vec (first_order_matrix z L theta k1 gamma) v)) 0).
Proof. exact first_ode'. Qed.
Theorem C71_symplectic : forall L theta k1 gamma z u v, 1 < gamma -> is_col u -> is_col v ->
  omega (mat_vec (first_order_matrix z L theta k1 gamma) u)
        (mat_vec (first_order_matrix z L theta k1 gamma) v) = omega u v.
Proof. intros. apply first_symplectic; [apply beta_of_neq| |]; assumption. Qed.
Example C71_example : 1 < 2 /\ omega [1;0;0;0;0;0] [0;1;0;0;0;0] = 1.
Proof. split; [lra|]. unfold omega. cbn [nth]. ring. Qed.

(** C70: the second-order terms. *)
(** [lin] and [quad] are Hamilton's equations for H2 and H3. *)
Theorem C70_hamilton : forall h k1 k2 b g x px y py t d, b <> 0 ->
  let v := [x; px; y; py; t; d] in
  is_derive (fun u => H2 h k1 b g x u y py t d) px (nth 0 (lin h k1 b g v) 0) /\
  is_derive (fun u => H2 h k1 b g u px y py t d) x (- nth 1 (lin h k1 b g v) 0) /\
  is_derive (fun u => H2 h k1 b g x px y u t d) py (nth 2 (lin h k1 b g v) 0) /\
  is_derive (fun u => H2 h k1 b g x px u py t d) y (- nth 3 (lin h k1 b g v) 0) /\
  is_derive (fun u => H2 h k1 b g x px y py t u) d (- nth 4 (lin h k1 b g v) 0) /\
  is_derive (fun u => H2 h k1 b g x px y py u d) t (nth 5 (lin h k1 b g v) 0) /\
  is_derive (fun u => H3 h k1 k2 b g x u y py t d) px (nth 0 (quad h k1 k2 b g v) 0) /\
  is_derive (fun u => H3 h k1 k2 b g u px y py t d) x (- nth 1 (quad h k1 k2 b g v) 0) /\
  is_derive (fun u => H3 h k1 k2 b g x px y u t d) py (nth 2 (quad h k1 k2 b g v) 0) /\
  is_derive (fun u => H3 h k1 k2 b g x px u py t d) y (- nth 3 (quad h k1 k2 b g v) 0) /\
  is_derive (fun u => H3 h k1 k2 b g x px y py t u) d (- nth 4 (quad h k1 k2 b g v) 0) /\
  is_derive (fun u => H3 h k1 k2 b g x px y py u d) t (nth 5 (quad h k1 k2 b g v) 0).
Proof.
  intros h k1 k2 b g x px y py t d Hb v. unfold v, lin, quad, H2, H3. cbn [nth].
  do 11 (split; [auto_derive; [exact I | field; exact Hb]|]).
  auto_derive; [exact I | ring].
Qed.
(** The second-order part of the map vanishes at z = 0 and solves the second-order
    variational equations of the Hamiltonian: T' = lin T + quad (R v). *)
Theorem C70_initial : forall L theta k1 k2 gamma v, is_col v ->
  quad_form (second_order_matrix 0 L theta k1 k2 gamma) v = [0; 0; 0; 0; 0; 0].
Proof. exact second_zero. Qed.
(** Full for elements without bending (drifts, quadrupoles, sextupoles) and for plain
    dipoles; for combined-function dipoles without sextupole component all coordinates but
    the longitudinal one; with sextupole component x and x' away from the resonance. *)
Theorem C70_equations_partial : forall L theta k1 k2 gamma z v i,
  1 < gamma -> is_col v -> (i < 6)%nat ->
  theta / L = 0 \/ k1 = 0 /\ k2 = 0 \/ k2 = 0 /\ i <> 4%nat \/
    (i < 2)%nat /\ 5 * k1 + (theta / L) ^ 2 <> 0 ->
  is_derive (fun z => nth i (quad_form (second_order_matrix z L theta k1 k2 gamma) v) 0) z
    (nth i (lin (theta / L) k1 (rel_beta gamma) (/ gamma ^ 2)
              (quad_form (second_order_matrix z L theta k1 k2 gamma) v)) 0
     + nth i (quad (theta / L) k1 k2 (rel_beta gamma) (/ gamma ^ 2)
              (mat_vec (first_order_matrix z L theta k1 gamma) v)) 0).
Proof. exact second_ode'. Qed.
(** To second order, two pieces of a straight element or of a dipole are the whole. *)
Theorem C70_compose : forall L theta k1 k2 gamma z1 z2 v, 1 < gamma -> is_col v ->
  theta / L = 0 \/ k1 = 0 /\ k2 = 0 ->
  quad_form (second_order_matrix (z1 + z2) L theta k1 k2 gamma) v =
  map2 Rplus
    (mat_vec (first_order_matrix z2 L theta k1 gamma)
       (quad_form (second_order_matrix z1 L theta k1 k2 gamma) v))
    (quad_form (second_order_matrix z2 L theta k1 k2 gamma)
       (mat_vec (first_order_matrix z1 L theta k1 gamma) v)).
Proof. intros. apply second_compose; [apply beta_of_neq| |]; assumption. Qed.
(** Combined-function dipoles: the longitudinal coordinate is off by a known amount. *)
Theorem C70_combined_error : forall L theta k1 gamma z v, 1 < gamma -> is_col v ->
  let h := theta / L in let k := k1 + h ^ 2 in k <> 0 ->
  is_derive (fun z => nth 4 (quad_form (second_order_matrix z L theta k1 0 gamma) v) 0) z
    (nth 4 (lin h k1 (rel_beta gamma) (/ gamma ^ 2)
              (quad_form (second_order_matrix z L theta k1 0 gamma) v)) 0
     + nth 4 (quad h k1 0 (rel_beta gamma) (/ gamma ^ 2)
              (mat_vec (first_order_matrix z L theta k1 gamma) v)) 0
     - h ^ 4 * k1 / rel_beta gamma ^ 3
       * (entry (first_order_matrix z L theta k1 gamma) 0 0
          * entry (first_order_matrix z L theta k1 gamma) 0 1 ^ 2 / (4 * k ^ 2)) * nth 5 v 0 ^ 2).
Proof.
  intros L theta k1 gamma z v Hg Hv h k Hk. rewrite <- beta_of_eq, <- inv_gamma2_eq by exact Hg.
  apply second_error; [apply beta_of_neq; exact Hg|exact Hv|exact Hk].
Qed.
(** The general case with a sextupole component, away from the resonance: the errors of the
    longitudinal and vertical coordinates. *)
Theorem C70_sextupole_error : forall L theta k1 k2 gamma z v, 1 < gamma -> is_col v ->
  let h := theta / L in let k := k1 + h ^ 2 in let m := 5 * k1 + h ^ 2 in
  let b := rel_beta gamma in
  k <> 0 -> k1 <> 0 -> m <> 0 ->
  let M := first_order_matrix z L theta k1 gamma in
  let ode i := nth i (lin h k1 b (/ gamma ^ 2)
                        (quad_form (second_order_matrix z L theta k1 k2 gamma) v)) 0
               + nth i (quad h k1 k2 b (/ gamma ^ 2) (mat_vec M v)) 0 in
  is_derive (fun z => nth 4 (quad_form (second_order_matrix z L theta k1 k2 gamma) v) 0) z
    (ode 4%nat - h ^ 3 * (k2 + 2 * h * k1) / b ^ 3
         * (entry M 0 0 * entry M 0 1 ^ 2 / (8 * k ^ 2)) * nth 5 v 0 ^ 2
     + h * k2 / b * (k1 * nth 2 v 0 ^ 2 + nth 3 v 0 ^ 2) * (3 / 2 * entry M 2 3 ^ 2 / m)) /\
  is_derive (fun z => nth 2 (quad_form (second_order_matrix z L theta k1 k2 gamma) v) 0) z
    (ode 2%nat - 3 * h * k2 / (b * m) * nth 5 v 0 *
       (nth 2 v 0 * (entry M 2 3 ^ 3 * k1 - entry M 2 2 * (z - entry M 2 2 * entry M 2 3))
        + nth 3 v 0 * (entry M 2 2 * entry M 2 3 ^ 2
                       - entry M 2 3 * (z - entry M 2 2 * entry M 2 3)))).
Proof.
  intros L theta k1 k2 gamma z v Hg Hv h k m b Hk Hk1 Hm M ode.
  unfold ode, b. rewrite <- beta_of_eq, <- inv_gamma2_eq by exact Hg.
  apply second_error_full; try assumption. apply beta_of_neq; exact Hg.
Qed.
(** Hence the equations do not hold for every element. *)
Theorem C70_combined_refuted : exists L theta k1 gamma z v, 1 < gamma /\ is_col v /\
  ~ is_derive (fun z => nth 4 (quad_form (second_order_matrix z L theta k1 0 gamma) v) 0) z
      (nth 4 (lin (theta / L) k1 (rel_beta gamma) (/ gamma ^ 2)
                (quad_form (second_order_matrix z L theta k1 0 gamma) v)) 0
       + nth 4 (quad (theta / L) k1 0 (rel_beta gamma) (/ gamma ^ 2)
                (mat_vec (first_order_matrix z L theta k1 gamma) v)) 0).
Proof.
  exists 1, 1, (-2), 2, 1, [0; 0; 0; 0; 0; 1]. split; [lra|]. split; [reflexivity|].
  rewrite <- beta_of_eq, <- inv_gamma2_eq by lra. replace (1 / 1) with 1 by field.
  apply combined_refuted.
Qed.
Theorem C70_resonant_refuted : exists L theta k1 k2 gamma z, 1 < gamma /\
  ~ (forall v, is_col v ->
     is_derive (fun z => nth 1 (quad_form (second_order_matrix z L theta k1 k2 gamma) v) 0) z
      (nth 1 (lin (theta / L) k1 (rel_beta gamma) (/ gamma ^ 2)
                (quad_form (second_order_matrix z L theta k1 k2 gamma) v)) 0
       + nth 1 (quad (theta / L) k1 k2 (rel_beta gamma) (/ gamma ^ 2)
                (mat_vec (first_order_matrix z L theta k1 gamma) v)) 0)).
Proof.
  exists 1, 1, (-1/5), 1, 2, 1. split; [lra|].
  rewrite <- beta_of_eq, <- inv_gamma2_eq by lra. replace (1 / 1) with 1 by field.
  apply resonant_refuted.
Qed.
Theorem C70_sextupole_dipole_refuted : exists L theta k1 k2 gamma z v, 1 < gamma /\ is_col v /\
  5 * k1 + (theta / L) ^ 2 <> 0 /\
  ~ is_derive (fun z => nth 2 (quad_form (second_order_matrix z L theta k1 k2 gamma) v) 0) z
      (nth 2 (lin (theta / L) k1 (rel_beta gamma) (/ gamma ^ 2)
                (quad_form (second_order_matrix z L theta k1 k2 gamma) v)) 0
       + nth 2 (quad (theta / L) k1 k2 (rel_beta gamma) (/ gamma ^ 2)
                (mat_vec (first_order_matrix z L theta k1 gamma) v)) 0).
Proof.
  exists 1, 1, (-1), 1, 2, (PI / 2), [0; 0; 0; 1; 0; 1]. split; [lra|]. split; [reflexivity|].
  split; [lra|].
  rewrite <- beta_of_eq, <- inv_gamma2_eq by lra. replace (1 / 1) with 1 by field.
  apply sextupole_dipole_refuted.
Qed.
(** Cases of all kinds of elements meet the hypotheses of [C70_equations_partial]. *)
Example C70_example : 0 / 2 = 0 /\ (0 = 0 /\ 0 = 0) /\ (5 * 1 + (1 / 1) ^ 2 <> 0) /\
  is_col [1; 2; 3; 4; 5; 6].
Proof. repeat split; lra. Qed.

(** C52: coordinate conversion.  Columns (x, px, y, py, xi, pz). *)
Theorem C52_round_trip : forall m w gamma_ref,
  List.Forall is_col m -> List.Forall (fun v => 0 <= nth 5 v 0) m ->
  1 < snd (convert_to_ocelot_matrix m w gamma_ref) ->
  convert_from_ocelot_matrix (fst (convert_to_ocelot_matrix m w gamma_ref))
    (snd (convert_to_ocelot_matrix m w gamma_ref)) = m.
Proof. exact ocelot_matrix. Qed.
(** Particles moving backwards come back moving forwards. *)
Theorem C52_backward : forall gamma_ref v, 1 < gamma_ref -> is_col v ->
  from_ocelot_col gamma_ref (to_ocelot_col gamma_ref v) =
  [nth 0 v 0; nth 1 v 0; nth 2 v 0; nth 3 v 0; nth 4 v 0; Rabs (nth 5 v 0)].
Proof. exact ocelot_round_trip. Qed.
(** The other direction, for columns that describe a particle. *)
Theorem C52_back : forall g u, 1 < g -> is_col u ->
  let gamma := g + nth 5 u 0 * g * rel_beta g in
  0 <= gamma ->
  1 + (nth 1 u 0 * sqrt (g ^ 2 - 1)) ^ 2 + (nth 3 u 0 * sqrt (g ^ 2 - 1)) ^ 2 <= gamma ^ 2 ->
  to_ocelot_col g (from_ocelot_col g u) = u.
Proof. exact ocelot_round_trip_back. Qed.
(** The meaning of the coordinates. *)
Theorem C52_coordinates : forall m w gamma_ref i, (i < length m)%nat ->
  let v := nth i m [] in let u := nth i (fst (convert_to_ocelot_matrix m w gamma_ref)) [] in
  let g := snd (convert_to_ocelot_matrix m w gamma_ref) in
  g = match gamma_ref with
      | Some g => g
      | None => sum (map2 Rmult (map (fun v => sqrt (1 + nth 1 v 0 ^ 2 + nth 3 v 0 ^ 2
                                                     + nth 5 v 0 ^ 2)) m) w) / sum w end /\
  nth 0 u 0 = nth 0 v 0 /\ nth 1 u 0 = nth 1 v 0 / sqrt (g ^ 2 - 1) /\
  nth 2 u 0 = nth 2 v 0 /\ nth 3 u 0 = nth 3 v 0 / sqrt (g ^ 2 - 1) /\
  nth 4 u 0 = - nth 4 v 0 /\
  nth 5 u 0 = (sqrt (1 + nth 1 v 0 ^ 2 + nth 3 v 0 ^ 2 + nth 5 v 0 ^ 2) - g)
              / (g * rel_beta g).
Proof.
  intros m w gr i Hi. cbv zeta. unfold convert_to_ocelot_matrix. cbn [fst snd].
  set (g := match gr with Some g => g | None => _ end).
  rewrite (nth_indep _ [] (to_ocelot_col g [])) by (rewrite map_length; exact Hi).
  rewrite map_nth. split; [destruct gr; reflexivity|]. repeat split; reflexivity.
Qed.
(** Without a reference energy the mean relative deviation is zero. *)
Theorem C52_mean : forall m w, length m = length w -> sum w <> 0 ->
  1 < snd (convert_to_ocelot_matrix m w None) ->
  sum (map2 Rmult (map (fun v => nth 5 v 0) (fst (convert_to_ocelot_matrix m w None))) w) = 0.
Proof. intros m w H Hs Hg. apply (ocelot_mean m w H Hs Hg). Qed.
Example C52_example : List.Forall is_col [[1; 2; 3; 4; 5; 6]] /\
  List.Forall (fun v => 0 <= nth 5 v 0) [[1; 2; 3; 4; 5; 6]] /\
  1 < snd (convert_to_ocelot_matrix [[1; 2; 3; 4; 5; 6]] [1] None).
Proof.
  split; [constructor; [reflexivity|constructor]|]. split; [constructor; [cbn; lra|constructor]|].
  unfold convert_to_ocelot_matrix, average, col_gamma, sum. cbn [snd map map2 fold_right nth].
  replace (1 + 0) with 1 by ring. apply Rlt_le_trans with (sqrt 57).
  - rewrite <- sqrt_1. apply sqrt_lt_1; lra.
  - replace (1 + 2 ^ 2 + 4 ^ 2 + 6 ^ 2) with 57 by ring.
    right. field.
Qed.

(** C53: rotations in the x-z plane. *)
Theorem C53_compose : forall a b v, is_col v ->
  mat_vec (rotation_matrix_xz a) (mat_vec (rotation_matrix_xz b) v) =
  mat_vec (rotation_matrix_xz (a + b)) v.
Proof. exact rotation_compose. Qed.
Theorem C53_inverse : forall a v, is_col v ->
  mat_vec (rotation_matrix_xz (- a)) (mat_vec (rotation_matrix_xz a) v) = v.
Proof.
  intros a v Hv. rewrite rotation_compose by exact Hv. rewrite Rplus_opp_l.
  apply rotation_0. exact Hv.
Qed.
Theorem C53_lengths : forall a v, is_col v ->
  let u := mat_vec (rotation_matrix_xz a) v in
  nth 0 u 0 ^ 2 + nth 4 u 0 ^ 2 = nth 0 v 0 ^ 2 + nth 4 v 0 ^ 2 /\
  nth 1 u 0 ^ 2 + nth 5 u 0 ^ 2 = nth 1 v 0 ^ 2 + nth 5 v 0 ^ 2 /\
  nth 2 u 0 = nth 2 v 0 /\ nth 3 u 0 = nth 3 v 0 /\ col_gamma u = col_gamma v.
Proof. exact rotation_lengths. Qed.
Theorem C53_direction : forall a v, is_col v ->
  nth 0 (mat_vec (rotation_matrix_xz a) v) 0 = cos a * nth 0 v 0 + sin a * nth 4 v 0 /\
  nth 1 (mat_vec (rotation_matrix_xz a) v) 0 = cos a * nth 1 v 0 + sin a * nth 5 v 0 /\
  nth 4 (mat_vec (rotation_matrix_xz a) v) 0 = cos a * nth 4 v 0 - sin a * nth 0 v 0 /\
  nth 5 (mat_vec (rotation_matrix_xz a) v) 0 = cos a * nth 5 v 0 - sin a * nth 1 v 0.
Proof. exact rotation_direction. Qed.
Example C53_example : nth 0 (mat_vec (rotation_matrix_xz (PI / 2)) [1; 2; 3; 4; 5; 6]) 0 = 5.
Proof.
  destruct (rotation_direction (PI / 2) [1; 2; 3; 4; 5; 6] eq_refl) as [-> _].
  rewrite cos_PI2, sin_PI2. cbn [nth]. ring.
Qed.

Print Assumptions C37_identity. Print Assumptions C37_compose.
Print Assumptions C37_determinant. Print Assumptions C37_track. Print Assumptions C37_particles.
Print Assumptions C71_equations. Print Assumptions C71_symplectic.
Print Assumptions C70_hamilton. Print Assumptions C70_initial.
Print Assumptions C70_equations_partial. Print Assumptions C70_compose.
Print Assumptions C70_combined_error. Print Assumptions C70_sextupole_error. Print Assumptions C70_combined_refuted.
Print Assumptions C70_resonant_refuted. Print Assumptions C70_sextupole_dipole_refuted.
Print Assumptions C52_round_trip. Print Assumptions C52_backward. Print Assumptions C52_back.
Print Assumptions C52_coordinates. Print Assumptions C52_mean.
Print Assumptions C53_compose. Print Assumptions C53_inverse. Print Assumptions C53_lengths.
Print Assumptions C53_direction.
