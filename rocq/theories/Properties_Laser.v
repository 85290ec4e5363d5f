(** Properties C32-C36, C66-C69: the laser. *)
From Coq Require Import Reals ZArith String List Lra Lia.
From Coquelicot Require Import Complex.
From Verif Require Import Model_Push Model_Laser Spec_Laser Proofs_Laser Proofs_Pulse Proofs_Profile.
Import ListNotations.
Open Scope R_scope.

(** C32: the solver is meant to return the solution of the tridiagonal system.  The full
    statement is [forall i < n, tri_row n a b c p i = d i]; it is false (see
    [C32_refuted]).  Proved: all rows but the last. *)
Theorem C32_rows_partial : forall n a b c d, (3 <= n)%nat ->
  (forall i, (i + 1 < n)%nat -> pivot a b c i <> RtoC 0) ->
  exists p, TDMA n a b c d = Some p /\
    forall i, (i + 1 < n)%nat -> tri_row n a b c p i = d i.
Proof.
  intros n a b c d H Hp. destruct (tdma_some n a b c d H) as [p E]. exists p. split; [exact E|].
  apply (tdma_rows n a b c d p H E Hp).
Qed.
(** What holds in place of the last row. *)
Theorem C32_last_row : forall n a b c d p, (3 <= n)%nat -> TDMA n a b c d = Some p ->
  Cminus (b (n - 1)%nat) (Cmult (a (n - 3)%nat) (Cdiv (c (n - 3)%nat) (pivot a b c (n - 3)))) <> RtoC 0 ->
  Cplus (Cmult (a (n - 3)%nat) (p (n - 2)%nat))
    (Cmult (Cplus (b (n - 1)%nat)
              (Cmult (a (n - 3)%nat) (Cminus (Cdiv (c (n - 2)%nat) (pivot a b c (n - 2)))
                                             (Cdiv (c (n - 3)%nat) (pivot a b c (n - 3))))))
           (p (n - 1)%nat)) = d (n - 1)%nat.
Proof. exact tdma_last. Qed.
(** The whole system is solved if the last two elimination steps have equal coefficients. *)
Theorem C32_equal_tail : forall n a b c d p, (3 <= n)%nat -> TDMA n a b c d = Some p ->
  (forall i, (i < n)%nat -> pivot a b c i <> RtoC 0) ->
  a (n - 3)%nat = a (n - 2)%nat ->
  Cdiv (c (n - 3)%nat) (pivot a b c (n - 3)) = Cdiv (c (n - 2)%nat) (pivot a b c (n - 2)) ->
  forall i, (i < n)%nat -> tri_row n a b c p i = d i.
Proof. exact tdma_solves. Qed.
Theorem C32_refuted : exists a b c d p, TDMA 3 a b c d = Some p /\
  (forall i, (i < 3)%nat -> pivot a b c i <> RtoC 0) /\ tri_row 3 a b c p 2 <> d 2%nat.
Proof. exact tdma_wrong. Qed.
(** Fewer than three unknowns: memory outside of the arrays is read. *)
Theorem C32_small_refuted : forall n a b c d, (n < 3)%nat -> TDMA n a b c d = None.
Proof. exact tdma_small. Qed.
(** A case that meets the hypotheses of [C32_equal_tail]: upper bidiagonal, unit main. *)
Example C32_example : exists p,
  TDMA 4 (fun _ => RtoC 0) (fun _ => RtoC 1) (fun _ => RtoC 2) (fun _ => RtoC 1) = Some p /\
  forall i, (i < 4)%nat ->
    tri_row 4 (fun _ => RtoC 0) (fun _ => RtoC 1) (fun _ => RtoC 2) p i = RtoC 1.
Proof.
  destruct (tdma_some 4 (fun _ => RtoC 0) (fun _ => RtoC 1) (fun _ => RtoC 2) (fun _ => RtoC 1)
              ltac:(lia)) as [p E].
  exists p. split; [exact E|].
  assert (P : forall i, pivot (fun _ => RtoC 0) (fun _ => RtoC 1) (fun _ => RtoC 2) i = RtoC 1).
  { intros [|i]; cbn [pivot]; [reflexivity | ring]. }
  apply (C32_equal_tail 4 _ _ _ _ _ ltac:(lia) E).
  - intros i _. rewrite P. apply C1_neq_0.
  - reflexivity.
  - rewrite !P. reflexivity.
Qed.

(** C33 *)
(** The scheme used by a step, after any history of calls: centred iff some step has been
    made before and the internal time step was not changed since.  [sp_nt] sub-steps are
    performed. *)
Theorem C33_scheme : forall env to_main to_sub e_ch m_e eps_0 l0 pol h chi n_p p',
  let p := history env to_main to_sub e_ch m_e eps_0 (new_pulse l0 pol) h in
  evolve to_main to_sub e_ch m_e eps_0 p chi n_p = (Fine, p') ->
  exists sp en old en' old' centered,
    p_params p = Some sp /\ p_env p = Some (en, old) /\ p_env p' = Some (en', old') /\
    evolve_envelope centered
      (eargs_of sp (2 * PI / p_l0 p) (sqrt (e_ch ^ 2 * n_p / (m_e * eps_0)) / c_SI))
      (if match p_sub p with Some b => b | None => false end then to_sub sp (p_main p) chi else chi)
      (sp_nt sp) (s_val en, s_val old) = Some (s_val en', s_val old') /\
    (centered = true <->
     evolved_with_this_step env to_main to_sub e_ch m_e eps_0 (new_pulse l0 pol) h).
Proof. intros. eapply solver_choice; eassumption. Qed.
(** What the user sees after a step is the interior of the new envelope (interpolated to the
    main grid if a subgrid is used). *)
Theorem C33_output : forall to_main to_sub e_ch m_e eps_0 p chi n_p p',
  evolve to_main to_sub e_ch m_e eps_0 p chi n_p = (Fine, p') ->
  exists out en old sub sp, p_a_env p' = Some out /\ p_env p' = Some (en, old) /\
    p_sub p' = Some sub /\ p_params p' = Some sp /\ s_rows en = (sp_nz sp + 2)%nat /\
    (if sub then s_val out = to_main sp (p_main p') (s_val en) /\
                 (s_rows out, s_cols out) = p_main p'
     else s_val out = s_val en /\ s_rows out = sp_nz sp /\ s_cols out = sp_nr sp).
Proof. exact evolve_output. Qed.
(** Accepted parameters are stored; the sub-steps add up to the requested step. *)
Theorem C33_params : forall p s q, set_envelope_solver_params p s = (Fine, q) ->
  (1 <= a_nt s)%nat /\
  exists sp, p_params q = Some sp /\ sp_zmin sp = a_xi_min s /\ sp_zmax sp = a_xi_max s /\
    sp_rmax sp = a_r_max s /\ sp_nz sp = default (a_subgrid_nz s) (a_nz s) /\
    sp_nr sp = default (a_subgrid_nr s) (a_nr s) /\ sp_use_phase sp = a_use_phase s /\
    sp_nt sp = a_nt s /\ INR (sp_nt sp) * sp_dt sp = a_dt s /\
    exists sub, p_sub q = Some sub /\
      (sub = true <-> a_subgrid_nz s <> None \/ a_subgrid_nr s <> None) /\
      (sub = true -> p_main q = (a_nz s, a_nr s)) /\
      p_env q = p_env p /\ p_a_env q = p_a_env p /\ p_l0 q = p_l0 p.
Proof. exact set_params_lemma. Qed.
Theorem C33_same_params : forall p s q, set_envelope_solver_params p s = (Fine, q) ->
  set_envelope_solver_params q s = (Fine, q).
Proof. exact set_again. Qed.
(** Exactly when parameters are rejected. *)
Theorem C33_rejected : forall p s,
  fst (set_envelope_solver_params p s) = ValueErr <->
  (a_nt s < 1)%nat \/
  (exists old, p_params p = Some old /\ (0 < p_n_steps p)%nat /\
     a_xi_min s <> sp_zmin old /\ a_xi_max s <> sp_zmax old /\ a_r_max s <> sp_rmax old /\
     default (a_subgrid_nz s) (a_nz s) <> sp_nz old /\ default (a_subgrid_nr s) (a_nr s) <> sp_nr old).
Proof.
  intros p s. rewrite (set_rejected (fun _ _ => RtoC 0) 0 p s).
  assert (E : sp_nz (snd (params_of s)) = default (a_subgrid_nz s) (a_nz s) /\
              sp_nr (snd (params_of s)) = default (a_subgrid_nr s) (a_nr s)).
  { unfold params_of. destruct (a_subgrid_nz s), (a_subgrid_nr s); split; reflexivity. }
  destruct E as [-> ->]. reflexivity.
Qed.
(** The claim "the grid cannot be changed once the pulse evolves" is false: the number of
    slices is changed from 4 to 8, and the next step leaves the arrays. *)
Theorem C33_grid_change_refuted : forall env to_main to_sub e_ch m_e eps_0,
  exists h : list call,
    let p := history env to_main to_sub e_ch m_e eps_0 (new_pulse 1 "linear") h in
    (0 < p_n_steps p)%nat /\
    (exists sp, p_params p = Some sp /\ sp_nz sp = 4%nat) /\
    fst (set_envelope_solver_params p (set1 8)) = Fine /\
    forall chi n_p, fst (evolve to_main to_sub e_ch m_e eps_0
                           (snd (set_envelope_solver_params p (set1 8))) chi n_p) = MemoryErr.
Proof. exact grid_change. Qed.
(** Order of calls. *)
Theorem C33_evolve_early : forall to_main to_sub e_ch m_e eps_0 p chi n_p,
  p_params p = None \/ p_env p = None ->
  evolve to_main to_sub e_ch m_e eps_0 p chi n_p = (AttributeErr, p).
Proof. exact evolve_early. Qed.
Theorem C33_init_early : forall env to_main p, p_params p = None ->
  initialize_envelope env to_main p = (ValueErr, p).
Proof. exact init_early. Qed.
Theorem C33_init_once : forall env to_main p x, p_a_env p = Some x ->
  fst (initialize_envelope env to_main p) = Fine -> initialize_envelope env to_main p = (Fine, p).
Proof. exact init_once. Qed.
(** The initial envelope is the envelope function at the nodes
    xi_min + i dxi and (k + 1/2) dr. *)
Theorem C33_init_values : forall env to_main p s q,
  a_subgrid_nz s = None -> a_subgrid_nr s = None ->
  p_a_env p = None -> set_envelope_solver_params p s = (Fine, q) ->
  (2 <= a_nz s)%nat -> (2 <= a_nr s)%nat ->
  exists q' out, initialize_envelope env to_main q = (Fine, q') /\ p_a_env q' = Some out /\
    s_rows out = a_nz s /\ s_cols out = a_nr s /\
    forall i k, (i < a_nz s)%nat -> (k < a_nr s)%nat ->
      s_val out i k = env (a_xi_min s + INR i * ((a_xi_max s - a_xi_min s) / (INR (a_nz s) - 1)))
                          ((INR k + / 2) * (a_r_max s / INR (a_nr s))).
Proof. exact init_values. Qed.
(** The solver starts with nothing ahead of the grid (the two further rows of its array), and
    with an empty envelope of the previous step. *)
Theorem C33_init_ahead : forall env to_main p s q,
  a_subgrid_nz s = None -> a_subgrid_nr s = None ->
  p_a_env p = None -> set_envelope_solver_params p s = (Fine, q) ->
  exists q' e old, initialize_envelope env to_main q = (Fine, q') /\ p_env q' = Some (e, old) /\
    s_rows e = (a_nz s + 2)%nat /\ s_cols e = a_nr s /\ s_rows old = (a_nz s + 2)%nat /\ s_cols old = a_nr s /\
    forall i k, s_val old i k = RtoC 0 /\ ((a_nz s <= i)%nat -> s_val e i k = RtoC 0).
Proof. exact init_ahead. Qed.
Example C33_example :
  fst (set_envelope_solver_params (new_pulse 1 "linear") (set1 4)) = Fine /\
  fst (set_envelope_solver_params (new_pulse 1 "linear") (mkset 0 1 1 4 3 1 0 None None true)) = ValueErr.
Proof. split; reflexivity. Qed.

(** C34 *)
Theorem C34_sum : forall t l0, (forall p, In p (leaves t) -> f_l0 p = l0) ->
  exists p, eval t = Some p /\ f_l0 p = l0 /\
    forall xi r z, f_env p xi r z = csum (map (fun q => f_env q xi r z) (leaves t)).
Proof. exact eval_spec. Qed.
Theorem C34_mismatch : forall t p q, In p (leaves t) -> In q (leaves t) -> f_l0 p <> f_l0 q ->
  eval t = None.
Proof. exact eval_mismatch. Qed.
(** Two circularly polarised pulses add up to a linearly polarised one. *)
Theorem C34_polarisation_refuted : exists p1 p2 p, f_pol p1 = "circular"%string /\
  f_pol p2 = "circular"%string /\ add_pulses p1 p2 = Some p /\ f_pol p <> "circular"%string.
Proof.
  set (g := GaussianPulse 0 1 1 1 0 1 0 "circular").
  destruct (add_spec g g eq_refl) as (p & E & _).
  exists g, g, p. do 2 (split; [reflexivity|]). split; [exact E|].
  rewrite (add_pol _ _ _ E). discriminate.
Qed.
Example C34_example :
  let g a := GaussianPulse 0 a 1 1 0 1 0 "linear" in
  exists p, eval (Node (Leaf (g 1)) (Node (Leaf (g 2)) (Leaf (g 3)))) = Some p /\
    f_env p 0 0 0 = Cplus (f_env (g 1) 0 0 0) (Cplus (f_env (g 2) 0 0 0) (f_env (g 3) 0 0 0)).
Proof.
  intros g. destruct (C34_sum (Node (Leaf (g 1)) (Node (Leaf (g 2)) (Leaf (g 3)))) 1) as (p & E & _ & F).
  { cbn. intros p [<-|[<-|[<-|[]]]]; reflexivity. }
  exists p. split; [exact E|]. rewrite F. cbn [leaves app map csum fold_right]. ring.
Qed.

(** C35: whatever the number of sub-steps, after the last of them (taking (b, b_old) to
    (c, c_old)) the stored previous envelope is the former current one, in every row; the
    two ghost rows of the new envelope are zero. *)
Theorem C35_levels : forall centered e chi nt a a_old, (3 <= e_nr e)%nat -> (2 <= e_nz e)%nat ->
  exists b b_old c c_old,
    evolve_envelope centered e chi nt (a, a_old) = Some (b, b_old) /\
    evolve_envelope centered e chi (S nt) (a, a_old) = Some (c, c_old) /\
    (forall j, (j < e_nz e + 2)%nat -> c_old j = b j) /\
    forall k, c (e_nz e) k = RtoC 0 /\ c (e_nz e + 1)%nat k = RtoC 0.
Proof. exact evolve_levels. Qed.
Theorem C35_substeps : forall centered e chi nt s s',
  evolve_envelope centered e chi nt s = Some s' ->
  evolve_envelope centered e chi (S nt) s = t_step centered e chi s'.
Proof. exact evolve_iter. Qed.
Example C35_example : let e := mkea 10 1 0 1 4 1 3 1 true in (3 <= e_nr e)%nat /\ (2 <= e_nz e)%nat.
Proof. cbn. lia. Qed.

(** C36 *)
Theorem C36_length : forall P l, length (unwrap P l) = length l.
Proof. exact unwrap_length. Qed.
Theorem C36_first : forall P l, nth 0 (unwrap P l) 0 = nth 0 l 0.
Proof. exact unwrap_first. Qed.
Theorem C36_multiples : forall P l, 0 < P -> forall i, (i < length l)%nat ->
  exists k : Z, nth i (unwrap P l) 0 = nth i l 0 + IZR k * P.
Proof. exact unwrap_multiple. Qed.
Theorem C36_small_jumps : forall P l i, 0 < P -> (i + 1 < length l)%nat ->
  Rabs (jump (unwrap P l) i) <= P / 2.
Proof. exact unwrap_small_jumps. Qed.
Theorem C36_smooth : forall P l, (forall i, (i + 1 < length l)%nat -> Rabs (jump l i) < P / 2) ->
  unwrap P l = l.
Proof. exact unwrap_id. Qed.
(** The wrapped phase itself. *)
Theorem C36_angle : forall z, z = polar (Cmod z) (angle z) /\ - PI < angle z <= PI.
Proof. intros z. split; [apply angle_polar | apply angle_range]. Qed.
Example C36_example : jump [3; -3; 2.9] 0 = -6 /\ Rabs (jump (unwrap 6.283185307179586 [3; -3; 2.9]) 0) <= 3.2.
Proof.
  split; [unfold jump; cbn; lra|].
  pose proof (C36_small_jumps 6.283185307179586 [3; -3; 2.9] 0 ltac:(lra) ltac:(cbn; lia)). lra.
Qed.

(** C66: every iteration of the centred solver returns the solution of the discretised
    envelope equation (it always does return; the equation has exactly the old and current
    arrays as data), at all nodes but those of the last radius; there the defect of C32
    appears, so the claim is partial.  Susceptibility non-negative. *)
Theorem C66_centered_partial : forall e chi a a_old, grid_ok e ->
  (forall j k, (j < e_nz e)%nat -> (k < e_nr e)%nat -> 0 <= chi j k) ->
  exists new old', t_step true e chi (a, a_old) = Some (new, old') /\
    forall j k, (j < e_nz e)%nat -> (k + 1 < e_nr e)%nat ->
      envelope_equation_centered e chi (phase_jump e a j) (phase_jump e a (j + 1)) new a a_old j k.
Proof. exact envelope_centered. Qed.
Theorem C66_first_partial : forall e chi a a_old, grid_ok e ->
  (forall j k, (j < e_nz e)%nat -> (k < e_nr e)%nat -> 0 <= chi j k) ->
  exists new old', t_step false e chi (a, a_old) = Some (new, old') /\
    forall j k, (j < e_nz e)%nat -> (k + 1 < e_nr e)%nat ->
      envelope_equation_first e chi (phase_jump e a j) (phase_jump e a (j + 1)) new a j k.
Proof. exact envelope_first. Qed.
(** The phase that is taken out is the phase of the current envelope on axis, wrapped. *)
Theorem C66_phase : forall e a i, e_use_phase e = true -> (i < e_nz e + 1)%nat ->
  Rabs (phase_jump e a i) <= 6.283185307179586 / 2 /\
  exists k : Z, phase_jump e a i
    = angle (a (i + 1)%nat 0%nat) - angle (a i 0%nat) + IZR k * 6.283185307179586.
Proof. exact phase_jump_wrapped. Qed.
Example C66_example : grid_ok (mkea 10 1 0 1 4 1 3 1 true).
Proof. unfold grid_ok. cbn. repeat split; try lia; lra. Qed.

(** C67: the profiles are the textbook ones. *)
Theorem C67_laguerre : forall xi_c p a_0 w_0 tau z_foc l_0 cep pol xi r z_pos,
  w_0 <> 0 -> tau <> 0 ->
  f_env (LaguerreGaussPulse xi_c p a_0 w_0 tau z_foc l_0 cep pol) xi r z_pos
  = lg_mode xi_c p a_0 w_0 tau z_foc l_0 cep xi r z_pos.
Proof. intros. apply laguerre_shape; assumption. Qed.
Theorem C67_gaussian : forall xi_c a_0 w_0 tau z_foc l_0 cep pol xi r z_pos,
  w_0 <> 0 -> tau <> 0 ->
  f_env (GaussianPulse xi_c a_0 w_0 tau z_foc l_0 cep pol) xi r z_pos
  = lg_mode xi_c 0 a_0 w_0 tau z_foc l_0 cep xi r z_pos.
Proof. intros. cbn [f_env GaussianPulse]. rewrite gaussian_is_lg. apply laguerre_shape; assumption. Qed.
Theorem C67_peak : forall xi_c a_0 w_0 tau z_foc l_0 cep pol xi r z_pos, w_0 <> 0 -> tau <> 0 ->
  Cmod (f_env (GaussianPulse xi_c a_0 w_0 tau z_foc l_0 cep pol) xi r z_pos) <= Rabs a_0.
Proof. intros. apply gaussian_peak; assumption. Qed.
(** The first modes: L_0 = 1, L_1 = 1 - x, L_2 = 1 - 2 x + x^2/2; all are 1 on axis. *)
Theorem C67_modes : (forall x, laguerre 0 x = 1) /\ (forall x, laguerre 1 x = 1 - x) /\
  (forall x, laguerre 2 x = 1 - 2 * x + x ^ 2 / 2) /\ forall p, laguerre p 0 = 1.
Proof.
  split; [exact laguerre_0|]. split; [exact laguerre_1|]. split; [exact laguerre_2 | exact laguerre_axis].
Qed.
(** The flattened pulse has the requested amplitude, phase and polarisation at the focus,
    for every N, and is the Gaussian pulse for N = 0. *)
Theorem C67_flattened : forall xi_c a_0 w_0 tau N z_foc l_0 cep pol, w_0 <> 0 -> tau <> 0 ->
  exists p, FlattenedGaussianPulse xi_c a_0 w_0 tau N z_foc l_0 cep pol = Some p /\
    f_l0 p = l_0 /\ f_pol p = pol /\ f_env p xi_c 0 z_foc = polar a_0 (- cep).
Proof. exact flattened_axis. Qed.
(** Everywhere it is the sum of the Laguerre-Gauss modes n = 0..N of waist w_0 sqrt(N+1), with
    amplitudes a_0/(N+1) sum_{m=n}^{N} binom(m, n) / 2^m (Santarsiero et al.). *)
Theorem C67_flattened_modes : forall xi_c a_0 w_0 tau N z_foc l_0 cep pol, w_0 <> 0 -> tau <> 0 ->
  exists p, FlattenedGaussianPulse xi_c a_0 w_0 tau N z_foc l_0 cep pol = Some p /\
    forall xi r z, f_env p xi r z = csum (map (fun n =>
      lg_mode xi_c n (a_0 / INR (N + 1) * sum_f_R0 (fun i => Binomial.C (n + i) n / 2 ^ (n + i)) (N - n))
        (w_0 * sqrt (INR (N + 1))) tau z_foc l_0 cep xi r z) (seq 0 (N + 1))).
Proof. exact flattened_modes. Qed.
Theorem C67_flattened_0 : forall xi_c a_0 w_0 tau z_foc l_0 cep pol,
  exists p, FlattenedGaussianPulse xi_c a_0 w_0 tau 0 z_foc l_0 cep pol = Some p /\
    forall xi r z, f_env p xi r z
      = f_env (GaussianPulse xi_c a_0 w_0 tau z_foc l_0 cep pol) xi r z.
Proof. exact flattened_0. Qed.
Example C67_example : Cmod (f_env (GaussianPulse 0 2 1 1 0 1 0 "linear") 0 0 0) = 2.
Proof.
  rewrite C67_gaussian by lra. unfold lg_mode. cbv zeta.
  replace (0 - 0 + 0 - 0) with 0 by ring. rewrite polar_mod, laguerre_0.
  replace (0 / (PI * 1 ^ 2 / 1)) with 0 by (unfold Rdiv; ring).
  replace (1 + 0 ^ 2) with 1 by ring. rewrite sqrt_1.
  replace (0 / (1 * 1)) with 0 by field.
  replace ((0 - 0) / (c_SI * 1)) with 0 by (unfold c_SI; field).
  replace (- 0 ^ 2) with 0 by ring. replace (- 2 * ln 2 * 0 ^ 2) with 0 by ring.
  rewrite exp_0. rewrite Rabs_right; lra.
Qed.

(** C68: group velocity in units of c. *)
Theorem C68_bounds : forall e_ch m_e eps_0 l0 n_p, 0 < m_e -> 0 < eps_0 -> 0 < l0 -> 0 <= n_p ->
  0 < get_group_velocity e_ch m_e eps_0 l0 n_p <= 1.
Proof. intros. apply vg_bounds; assumption. Qed.
Theorem C68_decreasing : forall e_ch m_e eps_0 l0 n1 n2, 0 < e_ch -> 0 < m_e -> 0 < eps_0 ->
  0 < l0 -> 0 <= n1 -> n1 < n2 ->
  get_group_velocity e_ch m_e eps_0 l0 n2 < get_group_velocity e_ch m_e eps_0 l0 n1.
Proof. intros. apply vg_decreasing; assumption. Qed.
Theorem C68_vacuum : forall e_ch m_e eps_0 l0, 0 < m_e -> 0 < eps_0 -> 0 < l0 ->
  get_group_velocity e_ch m_e eps_0 l0 0 = 1.
Proof. intros. apply vg_vacuum; assumption. Qed.
(** k / sqrt(k^2 + k_p^2), with k = 2 pi / l0 and k_p^2 = n e^2 / (m eps_0 c^2). *)
Theorem C68_dispersion : forall e_ch m_e eps_0 l0 n_p, 0 < m_e -> 0 < eps_0 -> 0 < l0 -> 0 <= n_p ->
  get_group_velocity e_ch m_e eps_0 l0 n_p
  = 2 * PI / l0 / sqrt ((2 * PI / l0) ^ 2 + n_p * e_ch ^ 2 / (m_e * eps_0) / c_SI ^ 2).
Proof. intros. apply vg_formula; assumption. Qed.
Example C68_example : get_group_velocity 1 1 1 1 1 < get_group_velocity 1 1 1 1 0.
Proof. apply C68_decreasing; lra. Qed.

(** C69: the envelope at and ahead of slice j0 (towards the front) does not depend on
    anything behind it, for any number of sub-steps. *)
Theorem C69_causality : forall centered e chi chi' nt j0, (3 <= e_nr e)%nat -> (2 <= e_nz e)%nat ->
  (forall j k, (j0 <= j < e_nz e)%nat -> (k < e_nr e)%nat -> chi j k = chi' j k) ->
  forall a a_old b b_old c c_old d d_old,
  same_from e j0 a b -> same_from e j0 a_old b_old ->
  evolve_envelope centered e chi nt (a, a_old) = Some (c, c_old) ->
  evolve_envelope centered e chi' nt (b, b_old) = Some (d, d_old) ->
  same_from e j0 c d /\ same_from e j0 c_old d_old.
Proof. exact causal. Qed.
Example C69_example : let e := mkea 10 1 0 1 4 1 3 1 true in
  same_from e 2 (fun _ _ => RtoC 1) (fun j _ => if Nat.ltb j 2 then RtoC 5 else RtoC 1).
Proof.
  intros e i k Hi _. destruct (Nat.ltb_spec i 2); [lia | reflexivity].
Qed.

Print Assumptions C32_rows_partial.
Print Assumptions C32_last_row.
Print Assumptions C32_equal_tail.
Print Assumptions C32_refuted.
Print Assumptions C33_scheme.
Print Assumptions C33_same_params.
Print Assumptions C33_rejected.
Print Assumptions C33_grid_change_refuted.
Print Assumptions C33_init_values.
Print Assumptions C33_init_ahead.
Print Assumptions C34_sum.
Print Assumptions C34_mismatch.
Print Assumptions C35_levels.
Print Assumptions C36_multiples.
Print Assumptions C36_small_jumps.
Print Assumptions C36_angle.
Print Assumptions C66_centered_partial.
Print Assumptions C66_first_partial.
Print Assumptions C67_laguerre.
Print Assumptions C67_flattened.
Print Assumptions C68_decreasing.
Print Assumptions C69_causality.
