(** Proofs about the laser: pulse shapes, sums of pulses, group velocity. *)
From Coq Require Import Reals ZArith String List Lia Lra.
From Coquelicot Require Import Complex.
From Verif Require Import Model_Push Model_Laser Spec_Laser Proofs_Laser.
Import ListNotations.
Open Scope R_scope.

(** ** Sums of pulses *)
Lemma add_spec p1 p2 : f_l0 p1 = f_l0 p2 ->
  exists p, add_pulses p1 p2 = Some p /\ f_l0 p = f_l0 p1 /\
    forall xi r z, f_env p xi r z = Cplus (f_env p1 xi r z) (f_env p2 xi r z).
Proof.
  intros H. unfold add_pulses. destruct (Req_EM_T _ _); [|contradiction].
  eexists. repeat split.
Qed.
Lemma add_mismatch p1 p2 : f_l0 p1 <> f_l0 p2 -> add_pulses p1 p2 = None.
Proof. intros H. unfold add_pulses. destruct (Req_EM_T _ _); [contradiction | reflexivity]. Qed.
Lemma add_pol p1 p2 p : add_pulses p1 p2 = Some p -> f_pol p = "linear"%string.
Proof. unfold add_pulses. destruct (Req_EM_T _ _); [|discriminate]. intros E. injection E as <-. reflexivity. Qed.

Lemma csum_app l1 l2 : csum (l1 ++ l2) = Cplus (csum l1) (csum l2).
Proof.
  induction l1 as [|x l1 IH]; cbn [app].
  - change (csum []) with (RtoC 0). ring.
  - change (csum (x :: l1 ++ l2)) with (Cplus x (csum (l1 ++ l2))).
    change (csum (x :: l1)) with (Cplus x (csum l1)). rewrite IH. ring.
Qed.
Lemma eval_spec t l0 : (forall p, In p (leaves t) -> f_l0 p = l0) ->
  exists p, eval t = Some p /\ f_l0 p = l0 /\
    forall xi r z, f_env p xi r z = csum (map (fun q => f_env q xi r z) (leaves t)).
Proof.
  induction t as [p|l IHl r IHr]; intros H; cbn [leaves eval] in *.
  - exists p. split; [reflexivity|]. split; [apply H; left; reflexivity|].
    intros. cbn. ring.
  - destruct IHl as (a & Ea & La & Fa); [intros; apply H, in_or_app; auto|].
    destruct IHr as (b & Eb & Lb & Fb); [intros; apply H, in_or_app; auto|].
    destruct (add_spec a b ltac:(congruence)) as (p & Ep & Lp & Fp).
    rewrite Ea, Eb. exists p. split; [exact Ep|]. split; [congruence|].
    intros. rewrite Fp, Fa, Fb, map_app, csum_app. reflexivity.
Qed.
Lemma eval_mismatch t p q : In p (leaves t) -> In q (leaves t) -> f_l0 p <> f_l0 q -> eval t = None.
Proof.
  assert (G : forall t a, eval t = Some a -> forall p, In p (leaves t) -> f_l0 p = f_l0 a).
  { clear. induction t as [p0|l IHl r IHr]; intros a E p Hp; cbn [leaves eval] in *.
    - injection E as <-. destruct Hp as [->|[]]. reflexivity.
    - destruct (eval l) as [x|]; [|discriminate]. destruct (eval r) as [y|]; [|discriminate].
      unfold add_pulses in E. destruct (Req_EM_T (f_l0 x) (f_l0 y)) as [El|]; [|discriminate].
      injection E as <-. cbn [f_l0]. apply in_app_or in Hp. destruct Hp as [Hp|Hp].
      + apply (IHl x eq_refl p Hp).
      + rewrite El. apply (IHr y eq_refl p Hp). }
  intros Hp Hq Hn. destruct (eval t) as [a|] eqn:E; [|reflexivity].
  exfalso. apply Hn. rewrite (G t a E p Hp), (G t a E q Hq). reflexivity.
Qed.

(** ** Shapes *)
Lemma cexp_plus x y : cexp (Cplus x y) = Cmult (cexp x) (cexp y).
Proof.
  unfold cexp, Cplus, Cmult. cbn [fst snd]. rewrite exp_plus, cos_plus, sin_plus.
  f_equal; ring.
Qed.
Lemma polar_mult m1 f1 m2 f2 : Cmult (polar m1 f1) (polar m2 f2) = polar (m1 * m2) (f1 + f2).
Proof. unfold polar, Cmult. cbn [fst snd]. rewrite cos_plus, sin_plus. f_equal; ring. Qed.
Lemma sqrt_1u_pos u : 0 < sqrt (1 + u ^ 2).
Proof. apply sqrt_lt_R0. pose proof (pow2_ge_0 u). lra. Qed.
Lemma inv_diff u : Cinv (Cplus (RtoC 1) (Cmult Ci (RtoC u))) = polar (/ sqrt (1 + u ^ 2)) (- atan u).
Proof.
  unfold polar. rewrite cos_neg, sin_neg, cos_atan, sin_atan. unfold Rsqr.
  replace (1 + u * u) with (1 + u ^ 2) by ring.
  pose proof (sqrt_1u_pos u) as Hs. pose proof (pow2_ge_0 u) as Hu.
  assert (E : sqrt (1 + u ^ 2) * sqrt (1 + u ^ 2) = 1 + u ^ 2) by (apply sqrt_sqrt; lra).
  unfold Cinv. cbn [fst snd RtoC Ci Cplus Cmult].
  replace ((1 + (0 * u - 1 * 0)) ^ 2 + (0 + (0 * 0 + 1 * u)) ^ 2) with (1 + u ^ 2) by ring.
  set (q := sqrt (1 + u ^ 2)) in *. f_equal; rewrite <- E; field; lra.
Qed.
Lemma Cmod_diff u : Cmod (Cplus (RtoC 1) (Cmult Ci (RtoC u))) = sqrt (1 + u ^ 2).
Proof. unfold Cmod. f_equal. cbn. ring. Qed.
Lemma angle_diff u : angle (Cplus (RtoC 1) (Cmult Ci (RtoC u))) = atan u.
Proof.
  unfold angle. cbn. destruct (Rlt_dec 0 _) as [_|N]; [f_equal; field|lra].
  all: try lra.
Qed.
Lemma diff_neq_0 u : Cplus (RtoC 1) (Cmult Ci (RtoC u)) <> RtoC 0.
Proof. intros E. apply (f_equal fst) in E. cbn in E. lra. Qed.
Lemma cexp_polar m : cexp m = polar (exp (fst m)) (snd m).
Proof. reflexivity. Qed.
(** exp of -r^2 / (w0^2 (1 + i u)). *)
Lemma radial_part w_0 r u : w_0 <> 0 ->
  cexp (Cdiv (RtoC (- r ^ 2)) (Cmult (RtoC (w_0 ^ 2)) (Cplus (RtoC 1) (Cmult Ci (RtoC u)))))
  = polar (exp (- (r / (w_0 * sqrt (1 + u ^ 2))) ^ 2)) ((r / (w_0 * sqrt (1 + u ^ 2))) ^ 2 * u).
Proof.
  intros Hw. rewrite cexp_polar.
  pose proof (sqrt_1u_pos u) as Hs. pose proof (pow2_ge_0 u) as Hu.
  assert (E : (w_0 * sqrt (1 + u ^ 2)) ^ 2 = w_0 ^ 2 * (1 + u ^ 2)).
  { replace ((w_0 * sqrt (1 + u ^ 2)) ^ 2) with (w_0 ^ 2 * (sqrt (1 + u ^ 2) * sqrt (1 + u ^ 2))) by ring.
    rewrite sqrt_sqrt by lra. reflexivity. }
  assert (E2 : (r / (w_0 * sqrt (1 + u ^ 2))) ^ 2 = r ^ 2 / (w_0 ^ 2 * (1 + u ^ 2))).
  { rewrite <- E. field. split; lra. }
  rewrite E2.
  assert (Ec : Cdiv (RtoC (- r ^ 2)) (Cmult (RtoC (w_0 ^ 2)) (Cplus (RtoC 1) (Cmult Ci (RtoC u))))
    = (- (r ^ 2 / (w_0 ^ 2 * (1 + u ^ 2))), r ^ 2 / (w_0 ^ 2 * (1 + u ^ 2)) * u)).
  { assert (D : Cmult (RtoC (w_0 ^ 2)) (Cplus (RtoC 1) (Cmult Ci (RtoC u))) <> RtoC 0).
    { apply Cmult_neq_0; [|apply diff_neq_0]. intros F. apply (f_equal fst) in F. cbn in F.
      apply (pow_nonzero w_0 2 Hw). cbn. exact F. }
    set (dn := Cmult (RtoC (w_0 ^ 2)) (Cplus (RtoC 1) (Cmult Ci (RtoC u)))) in *.
    replace (RtoC (- r ^ 2)) with
      (Cmult (- (r ^ 2 / (w_0 ^ 2 * (1 + u ^ 2))), r ^ 2 / (w_0 ^ 2 * (1 + u ^ 2)) * u) dn).
    { unfold Cdiv. rewrite <- Cmult_assoc, Cinv_r by exact D. ring. }
    unfold dn. ceq; field; (split; [|assumption]); nra. }
  rewrite Ec. reflexivity.
Qed.
Lemma long_part tau x : tau <> 0 ->
  exp (- x ^ 2 / (2 * s_z tau ^ 2)) = exp (- 2 * ln 2 * (x / (c_SI * tau)) ^ 2).
Proof.
  intros Ht. f_equal. unfold s_z.
  assert (L : 0 < ln 2) by (rewrite <- ln_1; apply ln_increasing; lra).
  assert (Hc : c_SI <> 0) by (unfold c_SI; lra).
  assert (S2 : sqrt (2 * ln 2) * sqrt (2 * ln 2) = 2 * ln 2) by (apply sqrt_sqrt; lra).
  assert (P2 : 0 < sqrt (2 * ln 2)) by (apply sqrt_lt_R0; lra).
  assert (T2 : sqrt 2 * sqrt 2 = 2) by (apply sqrt_sqrt; lra).
  assert (E : 2 * (tau * c_SI / (2 * sqrt (2 * ln 2)) * sqrt 2) ^ 2
              = tau ^ 2 * c_SI ^ 2 / (2 * ln 2)).
  { replace (2 * (tau * c_SI / (2 * sqrt (2 * ln 2)) * sqrt 2) ^ 2)
      with (tau ^ 2 * c_SI ^ 2 * (sqrt 2 * sqrt 2) / (2 * (sqrt (2 * ln 2) * sqrt (2 * ln 2))))
      by (field; lra).
    rewrite S2, T2. field. lra. }
  rewrite E. field. repeat split; lra.
Qed.
Lemma laguerre_shape xi_c p a_0 w_0 tau z_foc l_0 cep xi r z_pos :
  w_0 <> 0 -> tau <> 0 ->
  laguerre_env xi_c p a_0 w_0 tau z_foc l_0 cep xi r z_pos
  = lg_mode xi_c p a_0 w_0 tau z_foc l_0 cep xi r z_pos.
Proof.
  intros Hw Ht. unfold laguerre_env, lg_mode, z_rayleigh. cbv zeta.
  set (u := (xi - xi_c + z_pos - z_foc) / (PI * w_0 ^ 2 / l_0)).
  rewrite Cmod_diff, angle_diff. unfold Cminus, Cdiv. rewrite !cexp_plus, inv_diff.
  fold (Cdiv (RtoC (- r ^ 2)) (Cmult (RtoC (w_0 ^ 2)) (Cplus (RtoC 1) (Cmult Ci (RtoC u))))).
  rewrite radial_part by exact Hw.
  set (w := w_0 * sqrt (1 + u ^ 2)).
  set (La := laguerre p (2 * r ^ 2 / w ^ 2)).
  assert (E1 : cexp (Copp (Cmult Ci (RtoC cep))) = polar 1 (- cep)).
  { rewrite cexp_polar. cbn. replace (- (0 * cep - 1 * 0)) with 0 by ring. rewrite exp_0.
    f_equal. ring. }
  assert (E2 : cexp (RtoC (- (xi - xi_c) ^ 2 / (2 * s_z tau ^ 2)))
               = polar (exp (- 2 * ln 2 * ((xi - xi_c) / (c_SI * tau)) ^ 2)) 0).
  { rewrite cexp_polar. change (fst (RtoC ?x)) with x. change (snd (RtoC ?x)) with 0.
    rewrite long_part by exact Ht. reflexivity. }
  assert (E3 : cexp (Copp (Cmult Ci (RtoC (2 * INR p * atan u)))) = polar 1 (- (2 * INR p * atan u))).
  { rewrite cexp_polar. cbn -[INR]. replace (- (0 * (2 * INR p * atan u) - 1 * 0)) with 0 by ring.
    rewrite exp_0. f_equal. ring. }
  assert (R2 : forall x, RtoC x = polar x 0).
  { intros x. unfold polar, RtoC. rewrite cos_0, sin_0. f_equal; ring. }
  rewrite E1, E2, E3, (R2 a_0), (R2 La), !polar_mult.
  assert (W : w_0 / w = / sqrt (1 + u ^ 2)).
  { unfold w. pose proof (sqrt_1u_pos u). field. split; lra. }
  rewrite W. f_equal; ring.
Qed.
Lemma laguerre_0 x : laguerre 0 x = 1.
Proof. unfold laguerre. cbn. unfold Binomial.C. cbn. field. Qed.
Lemma laguerre_1 x : laguerre 1 x = 1 - x.
Proof. unfold laguerre. cbn. unfold Binomial.C. cbn. field. Qed.
Lemma laguerre_2 x : laguerre 2 x = 1 - 2 * x + x ^ 2 / 2.
Proof. unfold laguerre. cbn. unfold Binomial.C. cbn. field. Qed.
Lemma laguerre_axis p : laguerre p 0 = 1.
Proof.
  unfold laguerre. destruct p as [|p].
  - unfold Binomial.C. cbn. field.
  - rewrite decomp_sum by lia. rewrite sum_eq_R0.
    + replace (Binomial.C (S p) 0) with 1.
      * cbn. field.
      * unfold Binomial.C. rewrite Nat.sub_0_r. change (fact 0) with 1%nat. change (INR 1) with 1.
        field. apply INR_fact_neq_0.
    + intros n Hn. rewrite Ropp_0, pow_i by lia. unfold Rdiv. ring.
Qed.
Lemma gaussian_is_lg xi_c a_0 w_0 tau z_foc l_0 cep xi r z_pos :
  gaussian_env xi_c a_0 w_0 tau z_foc l_0 cep xi r z_pos
  = laguerre_env xi_c 0 a_0 w_0 tau z_foc l_0 cep xi r z_pos.
Proof.
  unfold gaussian_env, laguerre_env. cbv zeta. rewrite laguerre_0.
  set (dn := Cplus (RtoC 1) _).
  replace (2 * INR 0 * angle dn) with 0 by (cbn [INR]; ring).
  replace (Cmult Ci (RtoC 0)) with (RtoC 0) by ring.
  unfold Cminus, Cdiv.
  replace (Copp (RtoC 0)) with (RtoC 0) by ring. rewrite Cplus_0_r. ring.
Qed.
Lemma polar_mod m f : Cmod (polar m f) = Rabs m.
Proof.
  unfold polar, Cmod. cbn [fst snd].
  replace ((m * cos f) ^ 2 + (m * sin f) ^ 2) with (m ^ 2 * (Rsqr (sin f) + Rsqr (cos f)))
    by (unfold Rsqr; ring).
  rewrite sin2_cos2, Rmult_1_r, <- Rsqr_pow2. apply sqrt_Rsqr_abs.
Qed.
Lemma gaussian_peak xi_c a_0 w_0 tau z_foc l_0 cep xi r z_pos : w_0 <> 0 -> tau <> 0 ->
  Cmod (gaussian_env xi_c a_0 w_0 tau z_foc l_0 cep xi r z_pos) <= Rabs a_0.
Proof.
  intros Hw Ht. rewrite gaussian_is_lg, laguerre_shape by assumption. unfold lg_mode.
  cbv zeta. rewrite polar_mod, laguerre_0, Rmult_1_r.
  set (u := _ / (PI * w_0 ^ 2 / l_0)). pose proof (sqrt_1u_pos u) as Hs. pose proof (pow2_ge_0 u).
  replace (w_0 / (w_0 * sqrt (1 + u ^ 2))) with (/ sqrt (1 + u ^ 2)) by (field; lra).
  assert (Hi : 0 < / sqrt (1 + u ^ 2) <= 1).
  { split; [apply Rinv_0_lt_compat; exact Hs|]. apply Rle_trans with (/ 1); [|lra]. apply Rinv_le_contravar; [lra|].
    rewrite <- sqrt_1 at 1. apply sqrt_le_1_alt. lra. }
  assert (He : forall x, x <= 0 -> 0 < exp x <= 1).
  { intros x Hx. split; [apply exp_pos|]. rewrite <- exp_0. destruct Hx as [Hx| ->]; [left; apply exp_increasing; exact Hx | lra]. }
  set (v := r / _). set (y := (xi - xi_c) / _).
  assert (L : 0 < ln 2) by (rewrite <- ln_1; apply ln_increasing; lra).
  pose proof (He (- v ^ 2) ltac:(pose proof (pow2_ge_0 v); lra)) as A.
  pose proof (He (- 2 * ln 2 * y ^ 2) ltac:(pose proof (pow2_ge_0 y); nra)) as B.
  set (E1 := exp (- v ^ 2)) in *. set (E2 := exp (- 2 * ln 2 * y ^ 2)) in *.
  set (I := / sqrt (1 + u ^ 2)) in *. clearbody E1 E2 I.
  rewrite !Rabs_mult, (Rabs_right E1), (Rabs_right E2), (Rabs_right I) by lra.
  pose proof (Rabs_pos a_0).
  assert (0 <= I * (E1 * E2) <= 1).
  { assert (0 <= E1 * E2 <= 1) by nra. nra. }
  replace (Rabs a_0 * I * E1 * E2) with (Rabs a_0 * (I * (E1 * E2))) by ring. nra.
Qed.

(** Flattened Gaussian. *)
Lemma flattened_sum_spec (mode : nat -> profile) l0 : (forall n, f_l0 (mode n) = l0) ->
  forall n, exists p, flattened_sum mode n = Some p /\ f_l0 p = l0 /\
    forall xi r z, f_env p xi r z = csum (map (fun m => f_env (mode m) xi r z) (seq 0 (S n))).
Proof.
  intros H. induction n as [|n IH].
  - exists (mode 0%nat). split; [reflexivity|]. split; [apply H|]. intros. cbn. ring.
  - destruct IH as (p & E & L & F). cbn [flattened_sum]. rewrite E.
    destruct (add_spec p (mode (S n)) ltac:(rewrite H; exact L)) as (q & Eq & Lq & Fq).
    exists q. split; [exact Eq|]. split; [congruence|]. intros.
    rewrite Fq, F, (seq_S (S n)), map_app, csum_app. cbn [map csum fold_right Nat.add]. ring.
Qed.
Lemma triangle_sum N :
  sum_f_R0 (fun n => sum_f_R0 (fun i => 0.5 ^ (n + i) * Binomial.C (n + i) n) (N - n)) N = INR N + 1.
Proof.
  induction N as [|N IH].
  - cbn. unfold Binomial.C. cbn. field.
  - rewrite tech5. rewrite Nat.sub_diag. cbn [sum_f_R0]. rewrite Nat.add_0_r.
    rewrite (sum_eq _ (fun n => sum_f_R0 (fun i => 0.5 ^ (n + i) * Binomial.C (n + i) n) (N - n)
                               + 0.5 ^ S N * Binomial.C (S N) n)).
    2:{ intros n Hn. replace (S N - n)%nat with (S (N - n)) by lia. rewrite tech5.
        replace (n + S (N - n))%nat with (S N) by lia. reflexivity. }
    rewrite sum_plus, IH.
    rewrite (Rplus_assoc (INR N + 1)).
    rewrite <- (tech5 (fun n => 0.5 ^ S N * Binomial.C (S N) n) N).
    rewrite (sum_eq _ (fun n => Binomial.C (S N) n * 0.5 ^ S N)) by (intros; ring).
    rewrite <- (scal_sum (fun n => Binomial.C (S N) n) (S N) (0.5 ^ S N)).
    assert (B : sum_f_R0 (fun i => Binomial.C (S N) i) (S N) = 2 ^ S N).
    { replace 2 with (1 + 1) by ring. rewrite binomial. apply sum_eq. intros. rewrite !pow1. ring. }
    rewrite B, <- Rpow_mult_distr. replace (0.5 * 2) with 1 by lra. rewrite pow1, S_INR. lra.
Qed.
Lemma cos_npi x n : cos (x - INR n * PI) = (-1) ^ n * cos x /\ sin (x - INR n * PI) = (-1) ^ n * sin x.
Proof.
  induction n as [|n [IH1 IH2]].
  - cbn. rewrite Rmult_0_l, Rminus_0_r. lra.
  - rewrite S_INR. replace (x - (INR n + 1) * PI) with ((x - INR n * PI) - PI) by ring.
    rewrite (cos_minus (x - INR n * PI) PI), (sin_minus (x - INR n * PI) PI), cos_PI, sin_PI, IH1, IH2. cbn [pow]. split; ring.
Qed.
Lemma csum_polar (f : nat -> R) phi n :
  csum (map (fun m => polar (f m) phi) (seq 0 (S n))) = polar (sum_f_R0 f n) phi.
Proof.
  induction n as [|n IH].
  - cbn. unfold polar. ring_simplify. reflexivity.
  - rewrite seq_S, map_app, csum_app, IH. cbn [map csum fold_right Nat.add].
    rewrite tech5. unfold polar. ceq; ring.
Qed.
Lemma flattened_axis xi_c a_0 w_0 tau N z_foc l_0 cep pol : w_0 <> 0 -> tau <> 0 ->
  exists p, FlattenedGaussianPulse xi_c a_0 w_0 tau N z_foc l_0 cep pol = Some p /\
    f_l0 p = l_0 /\ f_pol p = pol /\ f_env p xi_c 0 z_foc = polar a_0 (- cep).
Proof.
  intros Hw Ht. unfold FlattenedGaussianPulse.
  destruct (flattened_sum_spec (flattened_mode xi_c a_0 w_0 tau N z_foc l_0 cep pol) l_0
              (fun _ => eq_refl) N) as (p & E & L & F).
  rewrite E. eexists. split; [reflexivity|]. cbn [f_l0 f_pol f_env].
  split; [reflexivity|]. split; [reflexivity|]. rewrite F.
  assert (HN : 0 < INR N + 1) by (pose proof (pos_INR N); lra).
  assert (Hw' : w_0 * sqrt (INR N + 1) <> 0).
  { apply Rmult_integral_contrapositive_currified; [exact Hw|]. apply Rgt_not_eq, sqrt_lt_R0. exact HN. }
  erewrite map_ext_in.
  2:{ intros n Hn. apply in_seq in Hn. unfold flattened_mode, LaguerreGaussPulse. cbn [f_env].
      rewrite laguerre_shape by assumption. unfold lg_mode. cbv zeta.
      replace (xi_c - xi_c + z_foc - z_foc) with 0 by ring.
      match goal with |- context[0 / (PI * ?a / ?b)] =>
        replace (0 / (PI * a / b)) with 0 by (unfold Rdiv; ring) end.
      rewrite atan_0. replace (xi_c - xi_c) with 0 by ring.
      replace (1 + 0 ^ 2) with 1 by ring. rewrite sqrt_1, !Rmult_1_r.
      set (W := w_0 * sqrt (INR N + 1)) in *.
      replace (2 * 0 ^ 2 / W ^ 2) with 0 by (field; assumption).
      rewrite laguerre_axis. replace (0 / W) with 0 by (field; assumption).
      replace (W / W) with 1 by (field; assumption).
      assert (Hc : c_SI <> 0) by (unfold c_SI; lra).
      replace (0 / (c_SI * tau)) with 0 by (field; split; assumption).
      replace (- 0 ^ 2) with 0 by ring. replace (- 2 * ln 2 * 0 ^ 2) with 0 by ring.
      rewrite exp_0, !Rmult_1_r.
      replace (- (cep + 2 * INR n * PI / 2) - (2 * INR n + 1) * 0 + 0 ^ 2 * 0)
        with (- cep - INR n * PI) by field.
      assert (P : polar (flattened_coef N n * a_0) (- cep - INR n * PI)
                  = polar ((-1) ^ n * flattened_coef N n * a_0) (- cep)).
      { unfold polar. destruct (cos_npi (- cep) n) as [-> ->]. f_equal; ring. }
      exact P. }
  rewrite csum_polar. f_equal.
  rewrite (sum_eq _ (fun n => sum_f_R0 (fun i => 0.5 ^ (n + i) * Binomial.C (n + i) n) (N - n)
                             * (a_0 / (INR N + 1)))).
  2:{ intros n Hn. unfold flattened_coef. set (S := sum_f_R0 _ _).
      assert (Q : (-1) ^ n * (-1) ^ n = 1).
      { rewrite <- Rpow_mult_distr. replace (-1 * -1) with 1 by ring. apply pow1. }
      transitivity (((-1) ^ n * (-1) ^ n) * (S * (a_0 / (INR N + 1)))); [field; lra|].
      rewrite Q. ring. }
  rewrite <- scal_sum, triangle_sum. field. lra.
Qed.
Lemma flattened_0 xi_c a_0 w_0 tau z_foc l_0 cep pol :
  exists p, FlattenedGaussianPulse xi_c a_0 w_0 tau 0 z_foc l_0 cep pol = Some p /\
    forall xi r z, f_env p xi r z = gaussian_env xi_c a_0 w_0 tau z_foc l_0 cep xi r z.
Proof.
  eexists. split; [reflexivity|]. intros. cbn [f_env flattened_mode LaguerreGaussPulse].
  rewrite gaussian_is_lg. unfold flattened_coef. cbn [Nat.sub sum_f_R0 INR Nat.add].
  f_equal.
  - unfold Binomial.C. cbn. field.
  - rewrite Rplus_0_l, sqrt_1. ring.
  - field.
Qed.

(** ** Group velocity *)
Section VG.
Variables e_ch m_e eps_0 l0 : R.
Hypothesis He : 0 < e_ch.
Hypothesis Hm : 0 < m_e.
Hypothesis Hp : 0 < eps_0.
Hypothesis Hl : 0 < l0.
Lemma vg_formula n_p : 0 <= n_p ->
  let k := 2 * PI / l0 in
  let kp2 := n_p * e_ch ^ 2 / (m_e * eps_0) / c_SI ^ 2 in
  0 < k /\ 0 <= kp2 /\ get_group_velocity e_ch m_e eps_0 l0 n_p = k / sqrt (k ^ 2 + kp2).
Proof.
  intros Hn k kp2. assert (Hc : 0 < c_SI) by (unfold c_SI; lra).
  assert (Hk : 0 < k).
  { unfold k. apply Rmult_lt_0_compat; [pose proof PI_RGT_0; lra | apply Rinv_0_lt_compat; exact Hl]. }
  assert (Hw : 0 <= n_p * e_ch ^ 2 / (m_e * eps_0)).
  { apply Rmult_le_pos; [apply Rmult_le_pos; [exact Hn | apply pow2_ge_0]|].
    left. apply Rinv_0_lt_compat, Rmult_lt_0_compat; assumption. }
  assert (H2 : 0 <= kp2).
  { apply Rmult_le_pos; [exact Hw|]. left. apply Rinv_0_lt_compat, pow_lt. exact Hc. }
  split; [exact Hk|]. split; [exact H2|]. unfold get_group_velocity. fold k.
  assert (Hk2 : 0 < k ^ 2) by (apply pow_lt; exact Hk).
  rewrite (pow2_sqrt (n_p * e_ch ^ 2 / (m_e * eps_0))) by exact Hw.
  replace (n_p * e_ch ^ 2 / (m_e * eps_0) + k ^ 2 * c_SI ^ 2) with (c_SI ^ 2 * (k ^ 2 + kp2)).
  2:{ unfold kp2. field. repeat split; lra. }
  rewrite sqrt_mult, sqrt_pow2 by (try apply pow2_ge_0; lra).
  assert (0 < sqrt (k ^ 2 + kp2)) by (apply sqrt_lt_R0; lra). field. split; lra.
Qed.
Lemma vg_bounds n_p : 0 <= n_p -> 0 < get_group_velocity e_ch m_e eps_0 l0 n_p <= 1.
Proof.
  intros Hn. destruct (vg_formula n_p Hn) as (Hk & H2 & ->).
  set (k := 2 * PI / l0) in *. set (kp2 := _ / c_SI ^ 2) in *.
  assert (Hk2 : 0 < k ^ 2) by (apply pow_lt; exact Hk).
  assert (Hs : k <= sqrt (k ^ 2 + kp2)).
  { rewrite <- (sqrt_pow2 k) at 1 by lra. apply sqrt_le_1_alt. lra. }
  split.
  - apply Rmult_lt_0_compat; [exact Hk|]. apply Rinv_0_lt_compat. lra.
  - apply Rmult_le_reg_r with (sqrt (k ^ 2 + kp2)); [lra|]. unfold Rdiv.
    rewrite Rmult_assoc, Rinv_l by lra. lra.
Qed.
Lemma vg_decreasing n1 n2 : 0 <= n1 -> n1 < n2 ->
  get_group_velocity e_ch m_e eps_0 l0 n2 < get_group_velocity e_ch m_e eps_0 l0 n1.
Proof.
  intros H1 H12. destruct (vg_formula n1 H1) as (Hk & A1 & ->).
  destruct (vg_formula n2 ltac:(lra)) as (_ & A2 & ->).
  set (k := 2 * PI / l0) in *. assert (Hk2 : 0 < k ^ 2) by (apply pow_lt; exact Hk).
  assert (Hc : 0 < c_SI) by (unfold c_SI; lra).
  assert (L : n1 * e_ch ^ 2 / (m_e * eps_0) / c_SI ^ 2 < n2 * e_ch ^ 2 / (m_e * eps_0) / c_SI ^ 2).
  { unfold Rdiv. repeat apply Rmult_lt_compat_r; try exact H12.
    - apply Rinv_0_lt_compat, pow_lt. exact Hc.
    - apply Rinv_0_lt_compat, Rmult_lt_0_compat; assumption.
    - apply pow_lt. exact He. }
  apply Rmult_lt_compat_l; [exact Hk|]. apply Rinv_lt_contravar.
  - apply Rmult_lt_0_compat; apply sqrt_lt_R0; lra.
  - apply sqrt_lt_1_alt. lra.
Qed.
Lemma vg_vacuum : get_group_velocity e_ch m_e eps_0 l0 0 = 1.
Proof.
  destruct (vg_formula 0 (Rle_refl 0)) as (Hk & _ & ->). set (k := 2 * PI / l0) in *.
  replace (k ^ 2 + 0 * e_ch ^ 2 / (m_e * eps_0) / c_SI ^ 2) with (k ^ 2).
  - rewrite sqrt_pow2 by lra. field. lra.
  - unfold Rdiv. ring.
Qed.
End VG.

(** The flattened pulse everywhere. *)
Lemma flattened_modes xi_c a_0 w_0 tau N z_foc l_0 cep pol : w_0 <> 0 -> tau <> 0 ->
  exists p, FlattenedGaussianPulse xi_c a_0 w_0 tau N z_foc l_0 cep pol = Some p /\
    forall xi r z, f_env p xi r z = csum (map (fun n =>
      lg_mode xi_c n (a_0 / INR (N + 1) * sum_f_R0 (fun i => Binomial.C (n + i) n / 2 ^ (n + i)) (N - n))
        (w_0 * sqrt (INR (N + 1))) tau z_foc l_0 cep xi r z) (seq 0 (N + 1))).
Proof.
  intros Hw Ht. unfold FlattenedGaussianPulse.
  destruct (flattened_sum_spec (flattened_mode xi_c a_0 w_0 tau N z_foc l_0 cep pol) l_0
              (fun _ => eq_refl) N) as (p & E & L & F).
  rewrite E. eexists. split; [reflexivity|]. cbn [f_env]. intros. rewrite F.
  replace (N + 1)%nat with (S N) by lia. rewrite S_INR.
  assert (HN : 0 < INR N + 1) by (pose proof (pos_INR N); lra).
  assert (Hw' : w_0 * sqrt (INR N + 1) <> 0).
  { apply Rmult_integral_contrapositive_currified; [exact Hw|]. apply Rgt_not_eq, sqrt_lt_R0. exact HN. }
  f_equal. apply map_ext. intros n. unfold flattened_mode, LaguerreGaussPulse. cbn [f_env].
  rewrite laguerre_shape by assumption. unfold lg_mode. cbv zeta.
  set (u := (xi - xi_c + z - z_foc) / (PI * (w_0 * sqrt (INR N + 1)) ^ 2 / l_0)). set (W := w_0 * sqrt (INR N + 1) * sqrt (1 + u ^ 2)).
  replace (cep + 2 * INR n * PI / 2) with (cep + INR n * PI) by field.
  replace (- (cep + INR n * PI) - (2 * INR n + 1) * atan u + (r / W) ^ 2 * u)
    with ((- cep - (2 * INR n + 1) * atan u + (r / W) ^ 2 * u) - INR n * PI) by ring.
  assert (Q : (-1) ^ n * (-1) ^ n = 1).
  { rewrite <- Rpow_mult_distr. replace (-1 * -1) with 1 by ring. apply pow1. }
  assert (K : (-1) ^ n * flattened_coef N n
              = / (INR N + 1) * sum_f_R0 (fun i => Binomial.C (n + i) n / 2 ^ (n + i)) (N - n)).
  { unfold flattened_coef.
    rewrite (sum_eq (fun i => 0.5 ^ (n + i) * Binomial.C (n + i) n)
                    (fun i => Binomial.C (n + i) n / 2 ^ (n + i))).
    2:{ intros i _. replace 0.5 with (/ 2) by lra. rewrite pow_inv. unfold Rdiv. ring. }
    set (S := sum_f_R0 _ _). transitivity ((-1) ^ n * (-1) ^ n * (S / (INR N + 1))); [field; lra|].
    rewrite Q. field. lra. }
  unfold polar. destruct (cos_npi (- cep - (2 * INR n + 1) * atan u + (r / W) ^ 2 * u) n) as [-> ->].
  set (S := sum_f_R0 _ _) in *.
  replace (a_0 / (INR N + 1) * S) with (a_0 * ((-1) ^ n * flattened_coef N n)) by (rewrite K; field; lra).
  f_equal; ring.
Qed.
