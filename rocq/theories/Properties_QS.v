(** C42, C43, C44, C48, C78-C82: the quasi-static plasma model. *)
From Coq Require Import Reals ZArith String List Bool Arith Lia Lra Permutation.
From Coquelicot Require Import Coquelicot.
From Verif Require Import Model_Push Model_Interp Spec_Interp Model_Deposit Spec_Deposit Model_Psi Model_BTheta Model_QS Spec_QS Spec_QS2
  Proofs_QS Proofs_QS2 Proofs_QS3 Proofs_QS4 Proofs_QS5 Proofs_QS6 Proofs_QS7 Proofs_QS8 Proofs_QS9.
Import ListNotations.
Open Scope R_scope.

(** ** C42 *)
(** Every slice of a plasma: the electrons are on the mass shell (those that would be too fast are
    put at rest), with 1 + psi >= 0.1, and the densities are those of the electrons. *)
Theorem C42_column : forall g argsort U i xi st G n, set_on g U -> column_of n st -> outside_axis st -> grids_on g G ->
  (Z.of_nat i < gnz g)%Z ->
  exists st' G', calculate_and_deposit_plasma_column argsort U i xi st G = Ok (st', G') /\
    t_r st' = t_r st /\ length (t_pr st') = n /\ length (t_pz st') = n /\ length (t_gamma st') = n /\
    (forall k, (k < n)%nat -> - (9 / 10) <= electron_psi st' k /\
       limited (u_maxg U) (electron_a2 st' k) (electron_psi st' k) (nth k (t_pr st) 0)
         (nth k (t_pr st') 0) (nth k (t_pz st') 0) (nth k (t_gamma st') 0)) /\
    let density k := nth k (u_q U) 0 / (u_dr U * nth k (t_r st') 0 * (1 - nth k (t_pz st') 0 / nth k (t_gamma st') 0)) in
    total_charge (g_rho G') = total_charge (g_rho G) +
      plasma_inside (u_dgrid U) (combine (t_r st) (map density (seq 0 n))) /\
    total_charge (g_chi G') = total_charge (g_chi G) +
      plasma_inside (u_dgrid U) (combine (t_r st) (map (fun k => density k / nth k (t_gamma st') 0) (seq 0 n))).
Proof.
  intros g argsort U i xi st G n H C O D I.
  destruct (column_ok g argsort U i xi st G n H C O D I) as (st' & G' & E & C' & R & _ & L1 & L2 & L3 & B & Lm & _).
  exists st', G'. split; [exact E|]. split; [exact R|]. split; [apply C'|]. split; [exact L2|]. split; [exact L3|]. split.
  - intros k K. split; [apply B; apply nth_In; lia|apply Lm; exact K].
  - cbv zeta. exact (column_charge g argsort U i xi st G n st' G' H C O D I E).
Qed.
Print Assumptions C42_column.
(** In all slices behind each other: no electron moves with or ahead of the driver. *)
Theorem C42_slices : forall g argsort U p st0 G0 n i st G, set_on g U -> column_of n st0 -> outside_axis st0 -> grids_on g G0 ->
  (forall i j, (0 <= i < gnz g)%Z -> (0 <= j < gnr g)%Z -> 0 <= inner (u_a2 U) i j) ->
  (forall s, In s (f_src (t_felt st0)) -> 0 <= fst (fst s)) -> 1 < u_maxg U ->
  at_slice argsort U p st0 G0 i st G ->
  forall k, (k < n)%nat ->
    let pr := nth k (t_pr st) 0 in let pz := nth k (t_pz st) 0 in let gamma := nth k (t_gamma st) 0 in
    1 <= gamma < u_maxg U /\ pr ^ 2 + pz ^ 2 < gamma ^ 2 /\ 0 < 1 - pz / gamma.
Proof.
  intros g argsort U p st0 G0 n i st G H C O D Pa Ps Mg A k K. cbv zeta.
  destruct (slice_ok g argsort U p st0 G0 n i st G H C O D A) as (I & C1 & _ & _ & L & _ & _ & P).
  destruct (slice_last g argsort U p st0 G0 n i st G H C O D A) as (before & G1 & Cb & Ob & Gb & _ & E).
  destruct (column_ok g argsort U i (nth i (u_xi U) 0) before G1 n H Cb Ob Gb I) as (st' & G' & E' & _ & _ & _ & _ & _ & _ & B & Lm & _).
  rewrite E in E'. injection E' as <- <-.
  assert (S : 0 <= electron_a2 st k). { unfold electron_a2. apply (P Pa Ps). apply nth_In. destruct C1 as (_ & _ & _ & X & _). lia. }
  assert (Bp : - (9 / 10) <= electron_psi st k) by (apply B; apply nth_In; lia).
  destruct (limited_range _ _ _ _ _ _ _ S Bp Mg (Lm k K)) as (A1 & _ & A2 & A3). auto.
Qed.
Print Assumptions C42_slices.
(** The densities that are calculated are positive, and the susceptibility is below the density. *)
Theorem C42_positive : forall argsort skin_depth wave_breaking charge_e light A laser bunches F, valid skin_depth A ->
  (forall i j, (0 <= i < a_nxi A)%Z -> (0 <= j < a_nr A)%Z -> 0 <= cell laser i j) -> 1 < a_maxg A -> 0 <= a_pc A ->
  calculate_wakefields argsort skin_depth wave_breaking charge_e light A laser bunches = Returned (Ok F) ->
  forall i j, 0 <= cell (h_chi F) i j <= cell (h_rho F) i j.
Proof. intros argsort sd wb e c A laser bunches F V. apply dense_lemma; exact V. Qed.
Print Assumptions C42_positive.
(** An electron that is put at rest in a laser pulse or a potential is not on the mass shell. *)
Theorem C42_at_rest_refuted : forall a2 psi, on_shell a2 psi 0 0 1 -> a2 = 0 /\ psi = 0.
Proof. intros a2 psi [E1 E2]. split; lra. Qed.
Example C42_example : on_shell (/ 4) (- (/ 2)) 1 2 (5 / 2) /\ limited 3 (/ 4) (- (/ 2)) 1 1 2 (5 / 2) /\ limited 2 (/ 4) (- (/ 2)) 1 0 0 1.
Proof.
  assert (O : on_shell (/ 4) (- (/ 2)) 1 2 (5 / 2)) by (split; lra).
  split; [exact O|]. split; exists 2, (5 / 2); (split; [exact O|]); [left|right]; repeat split; lra.
Qed.

(** ** C43 *)
(** ab5: an electron that is reflected at the axis any number of times is the mirror image of one that
    passes the axis. *)
Theorem C43_ab5 : forall U st i l, length (t_r st) = length (t_pr st) -> (i < length (t_r st))%nat -> 0 <= nth i (t_r st) 0 ->
  List.Forall (event_of (length (t_r st))) l ->
  exists s e, (s = 1 \/ s = -1) /\ passes_axis (u_dxi U) i (electron_at st i) l s e /\
    electron_at (history U l st) i = image s e /\ 0 <= nth i (t_r (history U l st)) 0.
Proof. exact ab5_reflects. Qed.
Print Assumptions C43_ab5.
(** rk4: a step is the step of the electrons on both sides, reflected. *)
Theorem C43_rk4 : forall argsort U xi st st' n, length (t_r st) = n -> length (t_pr st) = n -> length (f_psi (t_felt st)) = n ->
  evolve_plasma_rk4 argsort U xi st = Ok st' ->
  exists x u, runge_kutta (u_dxi U) (rates_now st)
      (signed_rates argsort U (xi - u_dxi U / 2) (t_sub2 st)) (signed_rates argsort U (xi - u_dxi U / 2) (t_sub3 st))
      (signed_rates argsort U (xi - u_dxi U) (t_sub4 st)) (t_r st) (t_pr st) = Ok (x, u) /\
    length x = n /\ length u = n /\ t_r st' = map Rabs x /\ t_pr st' = flipped (map sign_of x) u.
Proof. exact rk4_reflects. Qed.
Print Assumptions C43_rk4.
(** Electrons on the other side of the axis move as their mirror images do. *)
Theorem C43_symmetric : forall argsort U xi old s r pr, (forall y, In y s -> y = 1 \/ y = -1) -> (forall y, In y r -> y <> 0) ->
  length s = length r -> length pr = length r ->
  derivatives_substep argsort U xi (flipped s r) (flipped s pr) old =
  do (src, k) <- derivatives_substep argsort U xi r pr old; Ok (src, map2 (fun d s => (fst d * s, snd d * s)) k s).
Proof. exact mirrored_substep. Qed.
(** Radii are never negative, in any slice and with any pusher. *)
Theorem C43_nonneg : forall argsort U p xi st st', evolve argsort U p xi st = Ok st' -> outside_axis st'.
Proof.
  intros argsort U p xi st st' E x X. destruct p; cbn [evolve] in E.
  - exact (rk4_nonneg argsort U xi st st' E x X).
  - injection E as <-. exact (ab5_nonneg U st x X).
Qed.
Theorem C43_slices : forall g argsort U p st0 G0 n i st G, set_on g U -> column_of n st0 -> outside_axis st0 -> grids_on g G0 ->
  at_slice argsort U p st0 G0 i st G -> outside_axis st /\ length (t_r st) = n.
Proof.
  intros g argsort U p st0 G0 n i st G H C O D A.
  destruct (slice_ok g argsort U p st0 G0 n i st G H C O D A) as (_ & C1 & O1 & _). split; [exact O1|apply C1].
Qed.
(** ab5, from the first column to any slice: the electron is where one without reflections gets to, by
    the fields in the slices that it has passed. *)
Theorem C43_path : forall g argsort U st0 G0 n i st G k, set_on g U -> (forall l, length (argsort l) = length l) ->
  column_of n st0 -> outside_axis st0 -> grids_on g G0 -> at_slice argsort U AB5 st0 G0 i st G -> (k < n)%nat ->
  exists l v s e, Z.of_nat (length l) = (u_nxi U - 1 - Z.of_nat i)%Z /\
    (forall j, (j < length (l ++ [v]))%nat -> exists i' st' G', Z.of_nat i' = (u_nxi U - 1 - Z.of_nat j)%Z /\
       at_slice argsort U AB5 st0 G0 i' st' G' /\ event_in st' (nth j (l ++ [v]) v)) /\
    (s = 1 \/ s = -1) /\ passes_axis (u_dxi U) k (electron_at st0 k) l s e /\
    nth k (t_r st) 0 = s * l_r e /\ nth k (t_pr st) 0 = (if nth k (v_stop v) false then 0 else s * l_pr e) /\ 0 <= nth k (t_r st) 0.
Proof. exact path_of. Qed.
Print Assumptions C43_path.
(** An electron on its way through the axis. *)
Example C43_example :
  let e := push_ab5 1 (-720 / 1901, 0) (mkel (/ 2) (- (1)) (mkm 0 0 0 0) (mkm 0 0 0 0)) in
  l_r e = / 2 /\ l_pr e = 1 /\ m2 (l_dr e) = 720 / 1901.
Proof.
  cbv zeta. unfold push_ab5, apply_ab5. cbn [l_r l_pr l_dr l_dpr m2 m3 m4 m5 fst snd]. destruct (Rlt_dec _ 0) as [L|L]; [|exfalso; apply L; lra].
  cbn [l_r l_pr l_dr m2 flip shift]. repeat split; lra.
Qed.

(** ** C44 *)
(** ab5 integrates polynomials of degree 4 exactly, rk4 those of degree 3. *)
Theorem C44_ab5 : forall c t h x, (length c <= 5)%nat ->
  is_RInt (poly c) t (t + h)
    (apply_ab5 x h (poly c t) (mkm (poly c (t - h)) (poly c (t - 2 * h)) (poly c (t - 3 * h)) (poly c (t - 4 * h))) - x).
Proof. exact ab5_exact. Qed.
Print Assumptions C44_ab5.
Theorem C44_rk4 : forall c t h x, (length c <= 4)%nat ->
  is_RInt (poly c) t (t + h)
    (apply_rk4 x h (poly c t) (poly c (t + h / 2)) (poly c (t + h / 2)) (poly c (t + h)) - x).
Proof. exact rk4_exact. Qed.
Print Assumptions C44_rk4.
Example C44_example : apply_ab5 0 1 (poly [0; 0; 0; 0; 1] 4)
  (mkm (poly [0; 0; 0; 0; 1] 3) (poly [0; 0; 0; 0; 1] 2) (poly [0; 0; 0; 0; 1] 1) (poly [0; 0; 0; 0; 1] 0)) = (5 ^ 5 - 4 ^ 5) / 5.
Proof. unfold apply_ab5; cbn [m2 m3 m4 m5 poly]. lra. Qed.

(** ** C48 *)
(** The field of the bunches: that of the charge within the radius, added to what is there; outside of
    all charges that of the whole charge of the slice and, summed over slices, of all the charge. *)
Theorem C48_field : forall skin_depth charge_e n_p g shape bunches b b', shape_name shape -> dgrid_ok g -> darray g b ->
  beam_sources skin_depth charge_e n_p g shape bunches b = Returned (Ok b') ->
  let units := normalized (skin_depth (n_p / 1000000)) n_p charge_e g in
  exists rho, deposit_3d_distribution g shape true (map units (concat bunches)) (zeros g) = Returned (Ok rho) /\
  (forall i j, in_grid g i j -> inner b' i j = inner b i j + enclosed rho i j * dg_dr g / cell_radius g j) /\
  forall j, (0 <= j < dg_nr g)%Z ->
  (forall p w, In (p, w) (map units (concat bunches)) -> radius p + 2 * dg_dr g <= cell_radius g j) ->
  (forall i, (0 <= i < dg_nz g)%Z ->
     inner b' i j - inner b i j = sum_range (dg_nr g) (inner rho i) * dg_dr g / cell_radius g j) /\
  (guarded_grid g shape ->
   sum_range (dg_nz g) (fun i => inner b' i j - inner b i j) =
   charge_inside g (map units (concat bunches)) * dg_dr g / cell_radius g j).
Proof.
  intros sd e n_p g shape bunches b b' Hs Hg Db E.
  pose proof (outside_lemma sd e n_p g shape Hs Hg bunches b b' Db E) as Q.
  replace 1e6 with 1000000 in Q by lra. exact Q.
Qed.
Print Assumptions C48_field.
(** The calculation succeeds for all bunches. *)
Theorem C48_total : forall skin_depth charge_e n_p g shape bunches b, shape_name shape -> dgrid_ok g -> darray g b ->
  exists b', beam_sources skin_depth charge_e n_p g shape bunches b = Returned (Ok b') /\ darray g b' /\
    (forall i j, ~ inner_cell g i j -> cell b' i j = cell b i j).
Proof.
  intros sd e n_p g shape bunches b Hs Hg Db.
  destruct (sources_lemma sd e n_p g shape Hs Hg bunches b Db) as (b' & E & D & _ & Q). exists b'. auto.
Qed.
(** Neither the order of bunches and particles matters nor how the particles are distributed over
    bunches. *)
Theorem C48_order : forall skin_depth charge_e n_p g shape bunches bunches' b b1 b2, shape_name shape -> dgrid_ok g -> darray g b ->
  Permutation (concat bunches) (concat bunches') ->
  beam_sources skin_depth charge_e n_p g shape bunches b = Returned (Ok b1) ->
  beam_sources skin_depth charge_e n_p g shape bunches' b = Returned (Ok b2) -> same_array b1 b2.
Proof. intros sd e n_p g shape bs bs' b b1 b2 Hs Hg. apply order_of_bunches; assumption. Qed.
(** The field is linear in the charge. *)
Theorem C48_linear : forall skin_depth charge_e n_p g shape c bunches b b1 b2, shape_name shape -> dgrid_ok g -> darray g b ->
  beam_sources skin_depth charge_e n_p g shape bunches b = Returned (Ok b1) ->
  beam_sources skin_depth charge_e n_p g shape (map (map (times_charge c)) bunches) b = Returned (Ok b2) ->
  forall i j, cell b2 i j - cell b i j = c * (cell b1 i j - cell b i j).
Proof. intros sd e n_p g shape c bs b b1 b2 Hs Hg. apply scale_bunches; assumption. Qed.
(** Turning particles around the axis changes nothing. *)
Theorem C48_rotation : forall skin_depth charge_e n_p g shape bunches bunches' b b1 b2, shape_name shape -> dgrid_ok g -> darray g b ->
  List.Forall2 rotated (concat bunches) (concat bunches') ->
  beam_sources skin_depth charge_e n_p g shape bunches b = Returned (Ok b1) ->
  beam_sources skin_depth charge_e n_p g shape bunches' b = Returned (Ok b2) -> same_array b1 b2.
Proof. intros sd e n_p g shape bs bs' b b1 b2 Hs Hg. apply rotated_concat; assumption. Qed.
Print Assumptions C48_linear.
Example C48_example : rotated ((3, 4, 1), 2) ((0, 5, 1), 2) /\ dgrid_ok (mkd 0 (1 / 2) 5 4 1 1) /\ guarded_grid (mkd 0 (1 / 2) 5 4 1 1) "linear" /\
  enclosed (mka 9 8 (fun _ _ => 2)) 0 2 = 5.
Proof.
  split; [|split; [|split]].
  - unfold rotated, radius, lon; cbn [fst snd]. split; [f_equal; lra|]. split; reflexivity.
  - unfold dgrid_ok; cbn. repeat split; try lra; lia.
  - unfold guarded_grid; cbn. lia.
  - unfold enclosed, inner, sum_range; change (Z.to_nat 2) with 2%nat; cbn [seq map fold_right cell Z.eqb]. lra.
Qed.

(** ** C78: nothing behind a slice has an effect on the fields in it. Bunch particles are felt up to two
    slices ahead of them; with the cubic shape plasma densities reach one slice forward. *)
Theorem C78_causal : forall argsort skin_depth wave_breaking charge_e light A laser laser' bunches bunches' m F F', valid skin_depth A ->
  laser_array A laser -> laser_array A laser' -> (0 <= m < a_nxi A)%Z ->
  (forall i j, (m <= i < a_nxi A)%Z -> (0 <= j < a_nr A)%Z -> cell laser i j = cell laser' i j) ->
  List.Forall2 (fun l l' => filter (ahead (slice_at A m - 2 * slice_width A)) l = filter (ahead (slice_at A m - 2 * slice_width A)) l') bunches bunches' ->
  calculate_wakefields argsort skin_depth wave_breaking charge_e light A laser bunches = Returned (Ok F) ->
  calculate_wakefields argsort skin_depth wave_breaking charge_e light A laser' bunches' = Returned (Ok F') ->
  agree_from A m (h_er F) (h_er F') /\ agree_from A m (h_bt F) (h_bt F') /\
  ((m <= a_nxi A - 3)%Z -> agree_from A (m + 1) (h_ez F) (h_ez F')) /\
  agree_from A (m + reach (a_shape A)) (h_rho F) (h_rho F') /\ agree_from A (m + reach (a_shape A)) (h_chi F) (h_chi F').
Proof. intros argsort sd wb e c A laser laser' bs bs' m F F' V. apply causal_lemma; exact V. Qed.
Print Assumptions C78_causal.
Example C78_example : filter (ahead 1) [((0, 0, 2), 5); ((0, 0, 0), 6)] = filter (ahead 1) [((0, 0, 2), 5); ((3, 0, - (1)), 7)].
Proof. unfold ahead, lon; cbn. repeat (destruct (Rle_dec _ _); try lra); reflexivity. Qed.

(** ** C79: a plasma without laser and bunches does have fields. *)
Theorem C79_undriven_refuted : exists A, valid (fun _ => 1) A /\ a_pc A = 0 /\
  forall argsort wave_breaking charge_e light, (forall x, argsort [x] = [0%nat]) ->
  wave_breaking (a_np A / 1000000) <> 0 -> light <> 0 ->
  exists F, calculate_wakefields argsort (fun _ => 1) wave_breaking charge_e light A (mka (a_nxi A) (a_nr A) (fun _ _ => 0)) [] = Returned (Ok F) /\
    exists i j, (0 <= i < a_nxi A)%Z /\ (0 <= j < a_nr A)%Z /\ inner (h_bt F) i j <> 0.
Proof.
  exists still. split; [exact still_valid|]. split; [reflexivity|]. intros argsort wb e c Ha Hw Hc.
  destruct (still_refutes argsort wb e c Ha Hw Hc) as (F & E & N). exists F. split; [exact E|].
  exists 2%Z, 0%Z. split; [cbn; lia|]. split; [cbn; lia|exact N].
Qed.
Print Assumptions C79_undriven_refuted.

(** ** C80: with valid arguments the calculation succeeds, for all bunches, lasers and any order in which
    equal radii are sorted; all arrays have guard cells. *)
Theorem C80_total : forall argsort skin_depth wave_breaking charge_e light A laser bunches, valid skin_depth A ->
  exists F, calculate_wakefields argsort skin_depth wave_breaking charge_e light A laser bunches = Returned (Ok F) /\
    field_array A (h_rho F) /\ field_array A (h_chi F) /\ field_array A (h_er F) /\ field_array A (h_ez F) /\ field_array A (h_bt F).
Proof.
  intros argsort sd wb e c A laser bunches V.
  destruct (wakefields_ok argsort sd wb e c A V laser bunches) as (b & p & st & G & F & _ & _ & _ & _ & _ & E & L). exists F. auto.
Qed.
Print Assumptions C80_total.
(** An unknown pusher, less than three points or (with bunches) an unknown shape raise ValueError. *)
Theorem C80_pusher : forall argsort skin_depth wave_breaking charge_e light A laser bunches P, valid skin_depth A ->
  P <> "rk4"%string -> P <> "ab5"%string ->
  calculate_wakefields argsort skin_depth wave_breaking charge_e light (with_pusher A P) laser bunches = ValueError.
Proof.
  intros argsort sd wb e c A laser bunches P V N1 N2.
  destruct (wakefields_ok argsort sd wb e c A V laser bunches) as (b & p & st & G & F & (Eb & _) & _). cbv zeta in Eb.
  unfold calculate_wakefields. cbv zeta.
  change (beam_sources sd e (a_np (with_pusher A P)) (beam_grid sd (with_pusher A P)) (a_shape (with_pusher A P)) bunches
    (zeros2 (a_nxi (with_pusher A P)) (a_nr (with_pusher A P)))) with
   (beam_sources sd e (a_np A) (beam_grid sd A) (a_shape A) bunches (zeros2 (a_nxi A) (a_nr A))). rewrite Eb. cbn [cbind].
  unfold evolve_plasma_and_calculate_fields. cbn [a_pusher with_pusher].
  apply String.eqb_neq in N1, N2. rewrite N1, N2. reflexivity.
Qed.
Theorem C80_shape : forall argsort skin_depth wave_breaking charge_e light A laser bunch bunches, ~ shape_name (a_shape A) ->
  calculate_wakefields argsort skin_depth wave_breaking charge_e light A laser (bunch :: bunches) = ValueError.
Proof.
  intros argsort sd wb e c A laser bunch bunches N. unfold calculate_wakefields. cbn [beam_sources]. unfold calculate_beam_source, deposit_3d_distribution.
  unfold shape_name in N. destruct (String.eqb_spec (a_shape A) "linear"); [tauto|]. destruct (String.eqb_spec (a_shape A) "cubic"); [tauto|]. reflexivity.
Qed.
Theorem C80_points : forall argsort skin_depth wave_breaking charge_e light A laser bunches F,
  calculate_wakefields argsort skin_depth wave_breaking charge_e light A laser bunches = Returned (Ok F) -> (3 <= a_nxi A /\ 3 <= a_nr A)%Z.
Proof.
  intros argsort sd wb e c A laser bunches F. unfold calculate_wakefields. cbv zeta.
  destruct (beam_sources _ _ _ _ _ _ _) as [[b|]|]; try discriminate. cbn [cbind].
  destruct (evolve_plasma_and_calculate_fields _ _ _ _ _) as [[G|]|]; try discriminate. cbn [cbind]. unfold derived_fields.
  destruct (Z.ltb_spec (a_nxi A) 3); [discriminate|]. destruct (Z.ltb_spec (a_nr A) 3); [discriminate|]. lia.
Qed.
Example C80_example : valid (fun _ => 1) (mkargs 3 0 2 3 3 1 1 (Some 1) 0 "linear" 10 "rk4" [1/2; 3/2; 5/2] [0; 1; 2]).
Proof. exact still_valid. Qed.

(** ** C81: the fields are derived from the potential and the field of plasma and bunches. *)
(** Every slice is visited once; what it leaves in its row of the potential and of the magnetic field of
    the plasma is what the final fields are derived from. *)
Theorem C81_fields : forall argsort skin_depth wave_breaking charge_e light A laser bunches F, valid skin_depth A ->
  calculate_wakefields argsort skin_depth wave_breaking charge_e light A laser bunches = Returned (Ok F) ->
  let E_0 := wave_breaking (a_np A / 1000000) in
  let s := skin_depth (a_np A / 1000000) in
  exists b p psi bt,
    beam_sources skin_depth charge_e (a_np A) (beam_grid skin_depth A) (a_shape A) bunches (zeros2 (a_nxi A) (a_nr A)) = Returned (Ok b) /\
    pusher_of (a_pusher A) p /\
    (forall i, (i < Z.to_nat (a_nxi A))%nat -> exists st G,
       at_slice argsort (the_setup skin_depth A laser b) p (first_column skin_depth A) (no_fields A) i st G /\
       forall j, inner psi (Z.of_nat i) j = inner (g_psi G) (Z.of_nat i) j /\ inner bt (Z.of_nat i) j = inner (g_bt G) (Z.of_nat i) j) /\
    forall i j, (0 <= i < a_nxi A)%Z -> (0 <= j < a_nr A)%Z ->
       inner (h_bt F) i j = (inner bt i j + inner b i j) * E_0 / light /\
       inner (h_ez F) i j = - gradient2 (fun i => inner psi i j) (a_nxi A) (slice_width A / s) i * E_0 /\
       inner (h_er F) i j - inner (h_bt F) i j * light = - gradient2 (fun j => inner psi i j) (a_nr A) (ring_width A / s) j * E_0.
Proof.
  intros argsort sd wb e c A laser bunches F V E. cbv zeta.
  destruct (slices_of argsort sd wb e c A V laser bunches F E) as (b & p & st & G & Eb & Pp & Fb & D & As & Ed).
  destruct (derived_are sd wb c A b G F Ed) as (_ & _ & Q). destruct (start_ok sd A V) as (n & C & O & _).
  exists b, p, (g_psi G), (g_bt G). split; [exact Eb|]. split; [exact Pp|]. split.
  - intros i I. destruct (slice_exists _ _ _ _ _ _ _ _ As i ltac:(lia) ltac:(cbn; lia)) as (st' & G' & A').
    exists st', G'. split; [exact A'|]. intros j.
    destruct (slices_keep _ _ _ _ _ _ n _ _ _ (setup_on sd A V laser b Fb) C O (zeros_on sd A) As i st' G' ltac:(lia) A') as [K _].
    unfold inner. destruct (K (Z.of_nat i + 2)%Z (j + 2)%Z ltac:(lia)) as [K1 K2]. rewrite K1, K2. split; reflexivity.
  - intros i j I J. specialize (Q i j I J). rewrite (n_dxi_eq sd A V), (n_dr_eq sd A V), (s_eq sd A) in Q. exact Q.
Qed.
Print Assumptions C81_fields.
(** The theorem of Panofsky and Wenzel, for the differences that are used as derivatives. *)
Theorem C81_panofsky_wenzel : forall argsort skin_depth wave_breaking charge_e light A laser bunches F i j, valid skin_depth A ->
  calculate_wakefields argsort skin_depth wave_breaking charge_e light A laser bunches = Returned (Ok F) ->
  (0 <= i < a_nxi A)%Z -> (0 <= j < a_nr A)%Z ->
  gradient2 (fun i => inner (h_er F) i j - light * inner (h_bt F) i j) (a_nxi A) (slice_width A) i =
  gradient2 (fun j => inner (h_ez F) i j) (a_nr A) (ring_width A) j.
Proof.
  intros argsort sd wb e c A laser bunches F i j V E I J.
  destruct (slices_of argsort sd wb e c A V laser bunches F E) as (b & p & st & G & Eb & Pp & Fb & D & As & Ed).
  destruct (derived_are sd wb c A b G F Ed) as (_ & _ & Q).
  assert (N : (3 <= a_nr A /\ 3 <= a_nxi A)%Z) by (destruct V as (_ & _ & _ & X & Y & _); lia).
  set (E0 := wb (a_np A / 1000000)) in *. set (s := s_d sd A).
  pose proof (s_pos sd A V) as S. pose proof (widths sd A V) as [W1 W2]. fold s in S.
  assert (H : forall f M w k, 0 < w -> gradient2 f M (w / s) k = s * gradient2 f M w k).
  { intros f M w k W. unfold gradient2. destruct (Z.eqb k 0); [field; lra|]. destruct (Z.eqb k (M - 1)); field; lra. }
  rewrite (gradient2_ext _ (fun i => - E0 * s * gradient2 (fun j => inner (g_psi G) i j) (a_nr A) (ring_width A) j) (a_nxi A)); [|lia|exact I|].
  2:{ intros k K. destruct (Q k j K J) as (_ & _ & Q3). rewrite (n_dr_eq sd A V) in Q3. fold s in Q3. rewrite H in Q3 by exact W2. lra. }
  rewrite (gradient2_ext (fun j => inner (h_ez F) i j) (fun j => - E0 * s * gradient2 (fun i => inner (g_psi G) i j) (a_nxi A) (slice_width A) i) (a_nr A)); [|lia|exact J|].
  2:{ intros k K. destruct (Q i k I K) as (_ & Q2 & _). rewrite (n_dxi_eq sd A V) in Q2. fold s in Q2. rewrite H in Q2 by exact W1. rewrite Q2. ring. }
  apply gradient2_commute.
Qed.
Print Assumptions C81_panofsky_wenzel.
(** These differences are exact for quadratic functions; those of the laser intensity for functions
    a + b r^2, up to the one-sided difference in the last cell. *)
Theorem C81_gradient : forall a b c x0 d N j, 0 < d -> (3 <= N)%Z -> (0 <= j < N)%Z ->
  let x k := x0 + IZR k * d in
  gradient2 (fun k => a + b * x k + c * x k ^ 2) N d j = b + 2 * c * x j.
Proof. exact gradient2_exact. Qed.
Theorem C81_intensity : forall a dr i j c0 c2, 0 < dr -> (2 <= cols a)%Z -> (0 <= j < cols a)%Z ->
  let r k := (IZR k + / 2) * dr in
  (forall k, (0 <= k < cols a)%Z -> cell a i k = c0 + c2 * r k ^ 2) ->
  radial_gradient a dr i j = 2 * c2 * r j - (if Z.eqb j (cols a - 1) then c2 * dr else 0).
Proof. exact radial_gradient_exact. Qed.
(** What drives the plasma: the laser intensity, its radial gradient and the field of the bunches. *)
Theorem C81_sources : forall skin_depth A laser b i j, valid skin_depth A -> (0 <= i < a_nxi A)%Z -> (0 <= j < a_nr A)%Z ->
  inner (u_a2 (the_setup skin_depth A laser b)) i j = cell laser i j /\
  inner (u_na2 (the_setup skin_depth A laser b)) i j =
    radial_gradient laser (ring_width A / skin_depth (a_np A / 1000000)) i j /\
  u_b0 (the_setup skin_depth A laser b) = b /\ u_dxi (the_setup skin_depth A laser b) = slice_width A / skin_depth (a_np A / 1000000).
Proof.
  intros sd A laser b i j V I J. unfold the_setup; cbn [u_a2 u_na2 u_b0 u_dxi]. rewrite !inner_part_inner by assumption.
  rewrite (n_dr_eq sd A V), (n_dxi_eq sd A V), (s_eq sd A). auto.
Qed.
Example C81_example : gradient2 (fun k => (IZR k) ^ 2) 4 1 3 = 6.
Proof. unfold gradient2; cbn. lra. Qed.

(** ** C82: fields and electrons of a slice belong together. *)
(** The fields that the electrons feel when they arrive at a slice, and what the slice adds to the grid. *)
Theorem C82_column : forall g argsort U i xi st G n st' G', set_on g U -> column_of n st -> grids_on g G -> (Z.of_nat i < gnz g)%Z ->
  Spec_Psi.orders (argsort (t_r st)) (t_r st) -> rings U (t_r st) (t_pr st) ->
  calculate_and_deposit_plasma_column argsort U i xi st G = Ok (st', G') ->
  (exists gamma, in_fields g U xi (argsort (t_r st)) (t_r st) (t_pr st) (f_src (t_felt st)) (t_felt st') gamma) /\
  grid_fields U (Z.of_nat i) (t_r st) (t_pr st') (t_gamma st') (t_felt st') G'.
Proof. exact column_fields. Qed.
Print Assumptions C82_column.
(** The same for the intermediate positions of the rk4 pusher. *)
Theorem C82_electrons : forall g argsort U xi r pr old f gamma, set_on g U -> Spec_Psi.orders (argsort r) r -> rings U r pr ->
  length old = length r ->
  at_particles argsort U xi r pr old = Ok (f, gamma) -> in_fields g U xi (argsort r) r pr old f gamma.
Proof. exact felt_in. Qed.
(** Every slice that is reached from any column. *)
Theorem C82_slice : forall g argsort U p st0 G0 n i st G, set_on g U -> sorts argsort ->
  column_of n st0 -> outside_axis st0 -> grids_on g G0 -> at_slice argsort U p st0 G0 i st G ->
  rings U (t_r st) (t_pr st) ->
  (exists pr old gamma, in_fields g U (nth i (u_xi U) 0) (argsort (t_r st)) (t_r st) pr old (t_felt st) gamma /\
     forall k, (k < n)%nat -> nth k gamma 0 < u_maxg U /\ nth k (t_pr st) 0 = nth k pr 0 /\ nth k (t_gamma st) 0 = nth k gamma 0 \/
       u_maxg U <= nth k gamma 0 /\ nth k (t_pr st) 0 = 0 /\ nth k (t_gamma st) 0 = 1) /\
  grid_fields U (Z.of_nat i) (t_r st) (t_pr st) (t_gamma st) (t_felt st) G.
Proof. exact slice_fields. Qed.
Print Assumptions C82_slice.
(** The first column and all quantities in plasma units. *)
Theorem C82_start : forall skin_depth A laser b, valid skin_depth A ->
  let s := skin_depth (a_np A / 1000000) in
  let U := the_setup skin_depth A laser b in
  let radius := match a_rplasma A with Some r => r | None => a_rmax A end in
  let c := initialize (radius / s) (a_pc A * s ^ 2) (ring_width A / s) (a_ppc A) in
  let n := n_part (radius / s) (ring_width A / s) (a_ppc A) in
  let st := first_column skin_depth A in
  u_q U = p_q c /\ u_drp U = ring_width A / s / a_ppc A /\ u_rmax U = INR n * u_drp U /\ u_pc U = a_pc A * s ^ 2 /\
  u_maxg U = a_maxg A /\ u_shape U = a_shape A /\ u_nxi U = a_nxi A /\ u_nr U = a_nr A /\ u_dr U = ring_width A / s /\
  (forall i, (i < Z.to_nat (a_nxi A))%nat -> nth i (u_xi U) 0 = slice_at A (Z.of_nat i) / s) /\
  (forall j, (j < Z.to_nat (a_nr A))%nat -> nth j (u_r U) 0 = (INR j + / 2) * ring_width A / s) /\
  t_r st = p_r c /\ column_of n st /\
  (forall x, In x (t_pr st) -> x = 0) /\ (forall x, In x (f_src (t_felt st) ++ t_sub2 st ++ t_sub3 st ++ t_sub4 st) -> x = (0, 0, 0)) /\
  (forall m, In m (t_mem st) -> m = (mkm 0 0 0 0, mkm 0 0 0 0)).
Proof. exact first_quantities. Qed.
(** At the start the electrons are rings at distinct radii. *)
Theorem C82_rings : forall skin_depth A laser b, valid skin_depth A -> 0 <= a_pc A ->
  rings (the_setup skin_depth A laser b) (t_r (first_column skin_depth A)) (t_pr (first_column skin_depth A)).
Proof. exact first_rings. Qed.
Example C82_example : Spec_Psi.orders [1%nat; 0%nat] [2; 1] /\ valid (fun _ => 1) still /\ 0 <= a_pc still.
Proof.
  split; [split; [apply perm_swap|]|split; [exact still_valid|cbn; lra]].
  simpl. intros i j IJ. destruct i as [|[|i]], j as [|[|j]]; simpl; try lia; lra.
Qed.
