(** Properties C111, C112: energy and diffraction of the laser profiles. *)
From Coq Require Import Reals ZArith String List Lra Lia.
From Coquelicot Require Import Coquelicot.
From Verif Require Import Model_Push Model_Laser Spec_Laser Spec_Diffraction
  Proofs_Laser Proofs_Pulse Proofs_Profile Proofs_Energy Proofs_Diffraction.
Import ListNotations.
Open Scope R_scope.

(** ** C111: the energy of a pulse *)
(** Every mode carries, in each slice, the energy a_0^2 w_0^2 / 4 (times the longitudinal
    profile), whatever the order of the mode and wherever the pulse is. *)
Theorem C111_mode : forall xi_c n a_0 w_0 tau z_foc l_0 cep pol xi z_pos, w_0 <> 0 -> tau <> 0 ->
  transverse_energy (fun r => f_env (LaguerreGaussPulse xi_c n a_0 w_0 tau z_foc l_0 cep pol) xi r z_pos)
    (a_0 ^ 2 * w_0 ^ 2 / 4 * exp (- 4 * ln 2 * ((xi - xi_c) / (c_SI * tau)) ^ 2)).
Proof.
  intros xi_c n a_0 w_0 tau z_foc l_0 cep pol xi z_pos Hw Ht. unfold transverse_energy. cbn [f_env LaguerreGaussPulse].
  exact (lg_energy xi_c n a_0 w_0 tau z_foc l_0 cep xi z_pos Hw Ht).
Qed.
Theorem C111_gaussian : forall xi_c a_0 w_0 tau z_foc l_0 cep pol xi z_pos, w_0 <> 0 -> tau <> 0 ->
  transverse_energy (fun r => f_env (GaussianPulse xi_c a_0 w_0 tau z_foc l_0 cep pol) xi r z_pos)
    (a_0 ^ 2 * w_0 ^ 2 / 4 * exp (- 4 * ln 2 * ((xi - xi_c) / (c_SI * tau)) ^ 2)).
Proof.
  intros xi_c a_0 w_0 tau z_foc l_0 cep pol xi z_pos Hw Ht. unfold transverse_energy.
  apply is_RInt_gen_ext with (fun r => Cmod (laguerre_env xi_c 0 a_0 w_0 tau z_foc l_0 cep xi r z_pos) ^ 2 * r).
  - apply filter_forall. intros ab r _. cbn [f_env GaussianPulse]. rewrite gaussian_is_lg. reflexivity.
  - exact (lg_energy xi_c 0 a_0 w_0 tau z_foc l_0 cep xi z_pos Hw Ht).
Qed.
(** The modes do not interfere: adding pulses with the same waist, duration and focus, the energies
    of the modes add up, whatever their amplitudes and phases and in whatever order they are added. *)
Theorem C111_modes : forall t N A cep xi_c w_0 tau z_foc l_0 pol, w_0 <> 0 -> tau <> 0 ->
  leaves t = map (fun n => LaguerreGaussPulse xi_c n (A n) w_0 tau z_foc l_0 (cep n) pol) (seq 0 (N + 1)) ->
  exists p, eval t = Some p /\ forall xi z_pos,
    transverse_energy (fun r => f_env p xi r z_pos)
      (sum_f_R0 (fun n => A n ^ 2) N * w_0 ^ 2 / 4 * exp (- 4 * ln 2 * ((xi - xi_c) / (c_SI * tau)) ^ 2)).
Proof.
  intros t N A cep xi_c w_0 tau z_foc l_0 pol Hw Ht L.
  destruct (eval_spec t l_0) as (p & E & _ & F).
  { intros q Hq. rewrite L in Hq. apply in_map_iff in Hq. destruct Hq as (n & <- & _). reflexivity. }
  exists p. split; [exact E|]. intros xi z_pos. unfold transverse_energy.
  eapply is_RInt_gen_ext; [|apply (modes_energy xi_c A cep N w_0 tau z_foc l_0 xi z_pos Hw Ht)].
  apply filter_forall. intros ab r _. rewrite F, L, map_map, Nat.add_1_r.
  f_equal. f_equal. f_equal. f_equal. apply map_ext. intros n. symmetry. apply laguerre_shape; assumption.
Qed.
(** The flattened pulse. *)
Theorem C111_flattened : forall xi_c a_0 w_0 tau N z_foc l_0 cep pol, w_0 <> 0 -> tau <> 0 ->
  exists p, FlattenedGaussianPulse xi_c a_0 w_0 tau N z_foc l_0 cep pol = Some p /\ forall xi z_pos,
    transverse_energy (fun r => f_env p xi r z_pos)
      (a_0 ^ 2 * w_0 ^ 2 / 4
       * (sum_f_R0 (fun n => sum_f_R0 (fun i => Binomial.C (n + i) n / 2 ^ (n + i)) (N - n) ^ 2) N / INR (N + 1))
       * exp (- 4 * ln 2 * ((xi - xi_c) / (c_SI * tau)) ^ 2)).
Proof.
  intros xi_c a_0 w_0 tau N z_foc l_0 cep pol Hw Ht.
  destruct (flattened_modes xi_c a_0 w_0 tau N z_foc l_0 cep pol Hw Ht) as (p & E & F).
  exists p. split; [exact E|]. intros xi z_pos. unfold transverse_energy.
  assert (HN : 0 < INR (N + 1)) by (apply lt_0_INR; lia).
  assert (Hs : 0 < sqrt (INR (N + 1))) by (apply sqrt_lt_R0; exact HN).
  pose proof (modes_energy xi_c (fun n => a_0 / INR (N + 1) * sum_f_R0 (fun i => Binomial.C (n + i) n / 2 ^ (n + i)) (N - n))
    (fun _ => cep) N (w_0 * sqrt (INR (N + 1))) tau z_foc l_0 xi z_pos) as M.
  evar_last.
  - eapply is_RInt_gen_ext; [|apply M; [apply Rmult_integral_contrapositive_currified; lra | exact Ht]].
    apply filter_forall. intros ab r _. rewrite F, (Nat.add_1_r N). reflexivity.
  - inR. rewrite Rpow_mult_distr. replace (sqrt (INR (N + 1)) ^ 2) with (INR (N + 1))
      by (rewrite <- Rsqr_pow2; symmetry; apply Rsqr_sqrt; lra).
    rewrite (sum_eq _ (fun n => sum_f_R0 (fun i => Binomial.C (n + i) n / 2 ^ (n + i)) (N - n) ^ 2 * (a_0 / INR (N + 1)) ^ 2))
      by (intros; ring).
    rewrite <- scal_sum. field. lra.
Qed.
(** tau is the full width at half maximum: c tau / 2 ahead of and behind the centre a slice has
    half the energy of the central slice. *)
Theorem C111_duration : forall xi_c n a_0 w_0 tau z_foc l_0 cep pol z_pos side, w_0 <> 0 -> tau <> 0 ->
  side = 1 \/ side = -1 ->
  exists I, let p := LaguerreGaussPulse xi_c n a_0 w_0 tau z_foc l_0 cep pol in
    transverse_energy (fun r => f_env p xi_c r z_pos) I /\
    transverse_energy (fun r => f_env p (xi_c + side * (c_SI * tau / 2)) r z_pos) (I / 2) /\
    (a_0 <> 0 -> 0 < I).
Proof.
  intros xi_c n a_0 w_0 tau z_foc l_0 cep pol z_pos side Hw Ht Hs.
  assert (Hc : c_SI <> 0) by (unfold c_SI; lra).
  exists (a_0 ^ 2 * w_0 ^ 2 / 4). split; [|split].
  - evar_last; [apply (C111_mode xi_c n a_0 w_0 tau z_foc l_0 cep pol xi_c z_pos Hw Ht)|]. inR.
    replace (- 4 * ln 2 * ((xi_c - xi_c) / (c_SI * tau)) ^ 2) with 0 by (field; split; assumption). rewrite exp_0. ring.
  - evar_last; [apply (C111_mode xi_c n a_0 w_0 tau z_foc l_0 cep pol _ z_pos Hw Ht)|]. inR.
    replace (- 4 * ln 2 * ((xi_c + side * (c_SI * tau / 2) - xi_c) / (c_SI * tau)) ^ 2) with (- ln 2)
      by (destruct Hs as [-> | ->]; field; split; assumption).
    rewrite exp_Ropp, exp_ln by lra. field.
  - intros Ha. pose proof (pow2_gt_0 _ Hw). pose proof (pow2_gt_0 _ Ha).
    apply Rdiv_lt_0_compat; [|lra]. apply Rmult_lt_0_compat; assumption.
Qed.
(** The second mode has the energy of the Gaussian, at focus and one Rayleigh length away. *)
Example C111_example :
  transverse_energy (fun r => f_env (LaguerreGaussPulse 0 2 2 1 1 0 1 0 "linear") 0 r 0) 1 /\
  transverse_energy (fun r => f_env (LaguerreGaussPulse 0 2 2 1 1 0 1 0 "linear") 0 r PI) 1 /\
  transverse_energy (fun r => f_env (GaussianPulse 0 2 1 1 0 1 0 "linear") 0 r PI) 1.
Proof.
  assert (E : 2 ^ 2 * 1 ^ 2 / 4 * exp (- 4 * ln 2 * ((0 - 0) / (c_SI * 1)) ^ 2) = 1).
  { replace (- 4 * ln 2 * ((0 - 0) / (c_SI * 1)) ^ 2) with 0 by (unfold c_SI; field). rewrite exp_0. field. }
  split; [|split]; (evar_last; [| exact E]).
  - exact (C111_mode 0 2 2 1 1 0 1 0 "linear" 0 0 ltac:(lra) ltac:(lra)).
  - exact (C111_mode 0 2 2 1 1 0 1 0 "linear" 0 PI ltac:(lra) ltac:(lra)).
  - exact (C111_gaussian 0 2 1 1 0 1 0 "linear" 0 PI ltac:(lra) ltac:(lra)).
Qed.
Example C111_modes_example : exists t,
  leaves t = map (fun n => LaguerreGaussPulse 0 n (INR n + 1) 1 1 0 1 0 "linear") (seq 0 (1 + 1)).
Proof.
  exists (Node (Leaf (LaguerreGaussPulse 0 0 (INR 0 + 1) 1 1 0 1 0 "linear"))
               (Leaf (LaguerreGaussPulse 0 1 (INR 1 + 1) 1 1 0 1 0 "linear"))).
  reflexivity.
Qed.

(** ** C112: pulses diffract as in vacuum *)
(** Any sum of library pulses of one wavelength, evaluated at any position of the window, solves
    the paraxial wave equation in vacuum. *)
Theorem C112_sum : forall t l_0 xi, l_0 <> 0 ->
  (forall q, In q (leaves t) -> library_pulse l_0 q) ->
  exists p, eval t = Some p /\ paraxial (2 * PI / l_0) (fun r z => f_env p xi r z).
Proof.
  intros t l_0 xi Hl H.
  assert (P : forall q, library_pulse l_0 q -> f_l0 q = l_0 /\ paraxial (2 * PI / l_0) (fun r z => f_env q xi r z)).
  { intros q (xi_c & n & a_0 & w_0 & tau & z_foc & cep & pol & Hw & Ht & [-> | [-> | E]]).
    - split; [reflexivity|]. eapply paraxial_ext; [|apply (mode_paraxial xi_c 0 a_0 w_0 tau z_foc l_0 cep xi Hw Hl)].
      intros r z. cbn [f_env GaussianPulse]. rewrite gaussian_is_lg. symmetry. apply laguerre_shape; assumption.
    - split; [reflexivity|]. eapply paraxial_ext; [|apply (mode_paraxial xi_c n a_0 w_0 tau z_foc l_0 cep xi Hw Hl)].
      intros r z. symmetry. apply laguerre_shape; assumption.
    - destruct (flattened_axis xi_c a_0 w_0 tau n z_foc l_0 cep pol Hw Ht) as (p & E' & L & _).
      rewrite E in E'. injection E' as <-. split; [exact L|].
      destruct (flattened_modes xi_c a_0 w_0 tau n z_foc l_0 cep pol Hw Ht) as (p & E' & F).
      rewrite E in E'. injection E' as <-.
      eapply paraxial_ext; [intros r z; symmetry; apply F|].
      apply (paraxial_sum (2 * PI / l_0) (fun m r z => lg_mode xi_c m _ _ tau z_foc l_0 cep xi r z)). intros m _.
      apply mode_paraxial; [|exact Hl]. apply Rmult_integral_contrapositive_currified; [exact Hw|].
      apply Rgt_not_eq, sqrt_lt_R0, lt_0_INR. lia. }
  destruct (eval_spec t l_0) as (p & E & _ & F); [intros q Hq; apply P, H, Hq|].
  exists p. split; [exact E|]. eapply paraxial_ext; [intros r z; symmetry; apply F|].
  apply (paraxial_sum (2 * PI / l_0) (fun q r z => f_env q xi r z)). intros q Hq. apply P, H, Hq.
Qed.
Theorem C112_single : forall l_0 p xi, l_0 <> 0 -> library_pulse l_0 p ->
  paraxial (2 * PI / l_0) (fun r z => f_env p xi r z).
Proof.
  intros l_0 p xi Hl H. destruct (C112_sum (Leaf p) l_0 xi Hl) as (q & E & X); [|injection E as <-; exact X].
  cbn. intros q [<-|[]]. exact H.
Qed.
(** Far from the focus, before or after it, the flattened pulse has the flattened profile
    exp(-x^2) (1 + x^2 + ... + x^(2N)/N!), x the radius in units of the spot size. *)
Theorem C112_flattened : forall xi_c a_0 w_0 tau N z_foc l_0 cep pol, 0 < w_0 -> tau <> 0 -> 0 < l_0 ->
  exists p, FlattenedGaussianPulse xi_c a_0 w_0 tau N z_foc l_0 cep pol = Some p /\
  forall xi x side, side = p_infty \/ side = m_infty ->
  let W := w_0 * sqrt (INR (N + 1)) in
  is_lim (fun z => let w := spot_size W l_0 z_foc (xi - xi_c + z) in Cmod (f_env p xi (x * w) z) * (w / W)) side
    (Rabs a_0 / INR (N + 1) * flattened_gaussian N x * exp (- 2 * ln 2 * ((xi - xi_c) / (c_SI * tau)) ^ 2)).
Proof.
  intros xi_c a_0 w_0 tau N z_foc l_0 cep pol Hw Ht Hl.
  destruct (flattened_axis xi_c a_0 w_0 tau N z_foc l_0 cep pol ltac:(lra) Ht) as (p & E & _).
  exists p. split; [exact E|]. exact (far_field xi_c a_0 w_0 tau N z_foc l_0 cep pol p Hw Ht Hl E).
Qed.
(** In the centre the profile is flat: 1 on axis, with all derivatives up to order 2N zero in x^2;
    for N = 1 it is exp(-x^2) (1 + x^2). *)
Example C112_example :
  (forall N, flattened_gaussian N 0 = 1) /\ (forall x, flattened_gaussian 1 x = exp (- x ^ 2) * (1 + x ^ 2)) /\
  library_pulse 1 (LaguerreGaussPulse 0 3 2 1 1 0 1 0 "linear").
Proof.
  split; [|split].
  - intros N. unfold flattened_gaussian. replace (- 0 ^ 2) with 0 by ring. rewrite exp_0, Rmult_1_l.
    induction N as [|N IH]; [cbn; field|]. rewrite tech5, IH. cbn [pow]. unfold Rdiv. ring.
  - intros x. unfold flattened_gaussian. cbn [sum_f_R0 fact]. f_equal. cbn. field.
  - exists 0, 3%nat, 2, 1, 1, 0, 0, "linear"%string. split; [lra|]. split; [lra|]. right. left. reflexivity.
Qed.

Print Assumptions C111_mode.
Print Assumptions C111_gaussian.
Print Assumptions C111_modes.
Print Assumptions C111_flattened.
Print Assumptions C111_duration.
Print Assumptions C112_sum.
Print Assumptions C112_single.
Print Assumptions C112_flattened.
