(** Energy of Laguerre-Gauss pulses: orthogonality of the Laguerre polynomials with respect to
    exp(-x), and the integral of the squared envelope over the transverse plane. *)
From Coq Require Import Reals List Lia Lra Psatz FunctionalExtensionality.
From Coquelicot Require Import Coquelicot.
From Verif Require Import Model_Push Model_Laser Spec_Laser Proofs_Profile.
Import ListNotations.
Open Scope R_scope.

(** ** Alternating sums of binomial coefficients *)
Definition alt (f : nat -> R) (p : nat) : R := sum_f_R0 (fun k => (-1) ^ k * Binomial.C p k * f k) p.
Lemma C_0 n : Binomial.C n 0 = 1.
Proof. unfold Binomial.C. rewrite Nat.sub_0_r. cbn [fact INR]. field. apply INR_fact_neq_0. Qed.
Lemma C_n n : Binomial.C n n = 1.
Proof. unfold Binomial.C. rewrite Nat.sub_diag. cbn [fact INR]. field. apply INR_fact_neq_0. Qed.
Lemma alt_ext f g p : (forall k, (k <= p)%nat -> f k = g k) -> alt f p = alt g p.
Proof. intros H. apply sum_eq. intros k Hk. rewrite H by exact Hk. reflexivity. Qed.
Lemma sum_peel f n : sum_f_R0 f (S n) = f 0%nat + sum_f_R0 (fun k => f (S k)) n.
Proof. rewrite decomp_sum by lia. reflexivity. Qed.
Lemma alt_S f p : alt f (S p) = alt (fun k => f k - f (S k)) p.
Proof.
  unfold alt.
  replace (sum_f_R0 (fun k => (-1) ^ k * Binomial.C p k * (f k - f (S k))) p)
    with (sum_f_R0 (fun k => (-1) ^ k * Binomial.C p k * f k) p
          + sum_f_R0 (fun k => (-1) ^ S k * Binomial.C p k * f (S k)) p).
  2:{ rewrite <- sum_plus. apply sum_eq. intros k _. cbn [pow]. ring. }
  rewrite sum_peel. cbn [sum_f_R0].
  destruct p as [|p].
  - cbn [sum_f_R0]. rewrite !C_0, (C_n 1). cbn [pow]. ring.
  - rewrite (sum_peel (fun k => (-1) ^ k * Binomial.C (S p) k * f k) p).
    replace (sum_f_R0 (fun k => (-1) ^ S k * Binomial.C (S (S p)) (S k) * f (S k)) (S p))
      with (sum_f_R0 (fun k => (-1) ^ S k * Binomial.C (S p) (S k) * f (S k)) p
            + sum_f_R0 (fun k => (-1) ^ S k * Binomial.C (S p) k * f (S k)) (S p)).
    2:{ cbn [sum_f_R0]. rewrite C_n, (C_n (S (S p))), <- Rplus_assoc, <- sum_plus. f_equal.
        apply sum_eq. intros k Hk. rewrite <- (pascal (S p) k) by lia. ring. }
    rewrite !C_0. cbn [pow]. ring.
Qed.
Lemma C_step m j : Binomial.C (S j + S m) (S j) = Binomial.C (j + S m) j + Binomial.C (S j + m) (S j).
Proof.
  replace (S j + S m)%nat with (S (j + S m)) by lia. rewrite <- pascal by lia.
  replace (j + S m)%nat with (S j + m)%nat by lia. reflexivity.
Qed.
Definition rising (j m k : nat) : R := Binomial.C (j + m + k) j.
Lemma alt_const c p : alt (fun _ => c) (S p) = 0.
Proof.
  rewrite alt_S. unfold alt. rewrite (sum_eq _ (fun _ => 0)); [|intros; ring].
  rewrite sum_cte. ring.
Qed.
Lemma alt_low p j m : (j < p)%nat -> alt (rising j m) p = 0.
Proof.
  revert j m. induction p as [|p IH]; intros j m H; [lia|].
  destruct j as [|j].
  - rewrite (alt_ext _ (fun _ => 1)); [apply alt_const|]. intros k _. apply C_0.
  - rewrite alt_S, (alt_ext _ (fun k => - rising j (S m) k)).
    + unfold alt. rewrite (sum_eq _ (fun k => (-1) ^ k * Binomial.C p k * rising j (S m) k * (-1)))
        by (intros; ring).
      rewrite <- scal_sum. fold (alt (rising j (S m)) p). rewrite IH by lia. ring.
    + intros k _. unfold rising.
      replace (S j + m + S k)%nat with (S j + S (m + k))%nat by lia.
      replace (S j + m + k)%nat with (S j + (m + k))%nat by lia.
      replace (j + S m + k)%nat with (j + S (m + k))%nat by lia. rewrite C_step. ring.
Qed.
Lemma alt_diag p m : alt (rising p m) p = (-1) ^ p.
Proof.
  revert m. induction p as [|p IH]; intros m.
  - unfold alt, rising. cbn [sum_f_R0 pow]. rewrite !C_0. ring.
  - rewrite alt_S, (alt_ext _ (fun k => - rising p (S m) k)).
    + unfold alt. rewrite (sum_eq _ (fun k => (-1) ^ k * Binomial.C p k * rising p (S m) k * (-1)))
        by (intros; ring).
      rewrite <- scal_sum. fold (alt (rising p (S m)) p). rewrite IH. cbn [pow]. ring.
    + intros k _. unfold rising.
      replace (S p + m + S k)%nat with (S p + S (m + k))%nat by lia.
      replace (S p + m + k)%nat with (S p + (m + k))%nat by lia.
      replace (p + S m + k)%nat with (p + S (m + k))%nat by lia. rewrite C_step. ring.
Qed.
Lemma alt_alt p : alt (fun j => alt (rising j 0) p) p = 1.
Proof.
  unfold alt at 1. destruct p as [|p].
  - cbn [sum_f_R0]. rewrite alt_diag, C_0. cbn. ring.
  - cbn [sum_f_R0]. rewrite (sum_eq _ (fun _ => 0)).
    + rewrite sum_cte, alt_diag, C_n, Rmult_1_r, <- Rpow_mult_distr.
      replace (-1 * -1) with 1 by ring. rewrite pow1. ring.
    + intros j Hj. rewrite alt_low by lia. ring.
Qed.

(** ** The weight exp(-x) *)
Fixpoint partial_exp (n : nat) (x : R) : R :=
  match n with O => 1 | S m => x ^ S m + INR (S m) * partial_exp m x end.
Lemma partial_exp_derive n x : is_derive (partial_exp n) x
  (match n with O => 0 | S m => INR (S m) * partial_exp m x end).
Proof.
  revert x. induction n as [|n IH]; intros x.
  - apply is_derive_ext with (fun _ => 1); [reflexivity|]. apply (is_derive_const 1 x).
  - apply is_derive_ext with (fun x => x ^ S n + INR (S n) * partial_exp n x); [reflexivity|].
    evar_last.
    + apply (is_derive_plus (V := R_NormedModule)); [apply is_derive_pow, is_derive_id|].
      apply is_derive_scal. apply IH.
    + unfold plus, one. cbn -[INR partial_exp pow].
      destruct n as [|n]; [cbn; ring|]. cbn [pred partial_exp]. ring.
Qed.
Lemma partial_exp_0 n : partial_exp n 0 = INR (fact n).
Proof.
  induction n as [|n IH]; [reflexivity|]. cbn [partial_exp]. rewrite IH, pow_i by lia.
  change (fact (S n)) with (S n * fact n)%nat. rewrite mult_INR. ring.
Qed.
Lemma lim_ext_loc f g (l : R) : (forall x, 0 < x -> f x = g x) -> is_lim f p_infty l -> is_lim g p_infty l.
Proof. intros H. apply is_lim_ext_loc. exists 0. exact H. Qed.
Lemma lim_inv (c : R) : is_lim (fun x => c * / x) p_infty 0.
Proof.
  evar_last; [apply is_lim_scal_l, is_lim_inv; [apply is_lim_id | discriminate]|].
  cbn. f_equal. ring.
Qed.
Lemma pow_exp n : is_lim (fun x => x ^ n * exp (- x)) p_infty 0.
Proof.
  apply (is_lim_le_le_loc (fun _ => 0) (fun x => INR (fact (S n)) * / x)).
  - exists 0. intros x Hx. split; [apply Rmult_le_pos; [apply pow_le; lra | apply Rlt_le, exp_pos]|].
    assert (T : x ^ S n / INR (fact (S n)) <= exp x).
    { eapply Rle_trans; [|apply (exp_ge_taylor x (S n)); lra].
      cbn [sum_f_R0]. pose proof (cond_pos_sum (fun k => x ^ k / INR (fact k)) n) as P.
      assert (0 <= sum_f_R0 (fun k => x ^ k / INR (fact k)) n); [|lra].
      apply P. intros k. apply Rmult_le_pos; [apply pow_le; lra|].
      apply Rlt_le, Rinv_0_lt_compat, INR_fact_lt_0. }
    pose proof (INR_fact_lt_0 (S n)) as F. pose proof (exp_pos (- x)) as E.
    apply (Rmult_le_reg_r x); [exact Hx|]. rewrite (Rmult_assoc (INR (fact (S n))) (/ x) x), Rinv_l, Rmult_1_r by lra.
    replace (x ^ n * exp (- x) * x) with (x ^ S n / INR (fact (S n)) * (INR (fact (S n)) * exp (- x)))
      by (cbn [pow]; field; lra).
    apply Rle_trans with (exp x * (INR (fact (S n)) * exp (- x))).
    + apply Rmult_le_compat_r; [|exact T]. apply Rmult_le_pos; lra.
    + replace (exp x * (INR (fact (S n)) * exp (- x))) with (INR (fact (S n)) * (exp x * exp (- x))) by ring.
      rewrite <- exp_plus, Rplus_opp_r, exp_0. lra.
  - apply is_lim_const.
  - apply lim_inv.
Qed.
Lemma partial_exp_lim n : is_lim (fun x => partial_exp n x * exp (- x)) p_infty 0.
Proof.
  induction n as [|n IH].
  - apply is_lim_ext with (fun x => x ^ 0 * exp (- x)); [reflexivity | apply pow_exp].
  - apply is_lim_ext with (fun x => x ^ S n * exp (- x) + INR (S n) * (partial_exp n x * exp (- x))).
    { intros x. cbn [partial_exp]. ring. }
    evar_last; [eapply is_lim_plus; [apply pow_exp | apply is_lim_scal_l, IH | reflexivity]|].
    cbn -[INR]. f_equal. ring.
Qed.

(** Integral of exp(-x) f(x) from 0 to infinity, by an antiderivative. *)
Definition weighs (f : R -> R) (I : R) : Prop := exists F : R -> R,
  (forall x, is_derive F x (exp (- x) * f x)) /\ is_lim F p_infty 0 /\ F 0 = - I.
Lemma weighs_ext f g I J : (forall x, f x = g x) -> I = J -> weighs f I -> weighs g J.
Proof.
  intros H <- (F & D & L & Z). exists F. split; [|split; assumption]. intros x. rewrite <- H. apply D.
Qed.
Lemma weighs_pow n : weighs (fun x => x ^ n) (INR (fact n)).
Proof.
  exists (fun x => - (partial_exp n x * exp (- x))). split; [|split].
  - intros x. evar_last.
    + apply (is_derive_opp (V := R_NormedModule)), (is_derive_mult (K := R_AbsRing)).
      * apply partial_exp_derive.
      * apply (is_derive_comp (V := R_NormedModule)); [apply is_derive_Reals, derivable_pt_lim_exp|].
        apply (is_derive_opp (V := R_NormedModule)), (is_derive_id (K := R_AbsRing)).
      * intros; apply Rmult_comm.
    + unfold opp, plus, mult, scal, one. cbn -[INR partial_exp pow]. unfold mult. cbn -[INR partial_exp pow].
      destruct n as [|n]; cbn [partial_exp pow]; ring.
  - evar_last; [apply is_lim_opp, partial_exp_lim|]. cbn. f_equal. ring.
  - rewrite partial_exp_0, Ropp_0, exp_0. ring.
Qed.
Lemma weighs_scal c f I : weighs f I -> weighs (fun x => c * f x) (c * I).
Proof.
  intros (F & D & L & Z). exists (fun x => c * F x). split; [|split].
  - intros x. evar_last; [apply is_derive_scal, D|]. cbn. ring.
  - evar_last; [apply is_lim_scal_l, L|]. cbn. f_equal. ring.
  - rewrite Z. ring.
Qed.
Lemma weighs_plus f g I J : weighs f I -> weighs g J -> weighs (fun x => f x + g x) (I + J).
Proof.
  intros (F & D & L & Z) (G & D' & L' & Z'). exists (fun x => F x + G x). split; [|split].
  - intros x. evar_last; [apply (is_derive_plus (V := R_NormedModule)); [apply D | apply D']|].
    unfold plus. cbn. ring.
  - evar_last; [eapply is_lim_plus; [exact L | exact L' | reflexivity]|]. cbn. f_equal. ring.
  - rewrite Z, Z'. ring.
Qed.
Lemma weighs_sum f I n : (forall k, (k <= n)%nat -> weighs (f k) (I k)) ->
  weighs (fun x => sum_f_R0 (fun k => f k x) n) (sum_f_R0 I n).
Proof.
  induction n as [|n IH]; intros H; cbn [sum_f_R0]; [apply H; lia|].
  apply (weighs_plus (fun x => sum_f_R0 (fun k => f k x) n)); [apply IH; intros; apply H; lia | apply H; lia].
Qed.
Lemma laguerre_terms p x :
  laguerre p x = sum_f_R0 (fun k => (-1) ^ k * Binomial.C p k / INR (fact k) * x ^ k) p.
Proof.
  unfold laguerre. apply sum_eq. intros k _. replace (- x) with ((-1) * x) by ring.
  rewrite Rpow_mult_distr. unfold Rdiv. ring.
Qed.
Lemma pow_laguerre j p : weighs (fun x => x ^ j * laguerre p x) (INR (fact j) * alt (rising j 0) p).
Proof.
  apply weighs_ext with (fun x => sum_f_R0 (fun k => (-1) ^ k * Binomial.C p k / INR (fact k) * x ^ (j + k)) p)
    (sum_f_R0 (fun k => (-1) ^ k * Binomial.C p k / INR (fact k) * INR (fact (j + k))) p).
  - intros x. rewrite laguerre_terms, scal_sum. apply sum_eq. intros k _. rewrite pow_add. ring.
  - unfold alt. rewrite scal_sum. apply sum_eq. intros k _. unfold rising, Binomial.C.
    rewrite Nat.add_0_r. replace (j + k - j)%nat with k by lia. field. repeat split; apply INR_fact_neq_0.
  - apply (weighs_sum (fun k x => (-1) ^ k * Binomial.C p k / INR (fact k) * x ^ (j + k))
             (fun k => (-1) ^ k * Binomial.C p k / INR (fact k) * INR (fact (j + k)))).
    intros k _. apply weighs_scal, weighs_pow.
Qed.
Lemma laguerre_laguerre p q : weighs (fun x => laguerre q x * laguerre p x) (alt (fun j => alt (rising j 0) p) q).
Proof.
  apply weighs_ext with
    (fun x => sum_f_R0 (fun j => (-1) ^ j * Binomial.C q j / INR (fact j) * (x ^ j * laguerre p x)) q)
    (sum_f_R0 (fun j => (-1) ^ j * Binomial.C q j / INR (fact j) * (INR (fact j) * alt (rising j 0) p)) q).
  - intros x. rewrite (laguerre_terms q), Rmult_comm, scal_sum. apply sum_eq. intros k _. ring.
  - unfold alt at 2. apply sum_eq. intros k _. field. apply INR_fact_neq_0.
  - apply (weighs_sum (fun j x => (-1) ^ j * Binomial.C q j / INR (fact j) * (x ^ j * laguerre p x))
             (fun j => (-1) ^ j * Binomial.C q j / INR (fact j) * (INR (fact j) * alt (rising j 0) p))).
    intros k _. apply weighs_scal, pow_laguerre.
Qed.
Lemma laguerre_square p : weighs (fun x => laguerre p x ^ 2) 1.
Proof.
  apply weighs_ext with (fun x => laguerre p x * laguerre p x) (alt (fun j => alt (rising j 0) p) p).
  - intros x. ring.
  - apply alt_alt.
  - apply laguerre_laguerre.
Qed.
Lemma laguerre_orthogonal p q : p <> q -> weighs (fun x => laguerre p x * laguerre q x) 0.
Proof.
  assert (L : forall p q, (q < p)%nat -> alt (fun j => alt (rising j 0) p) q = 0).
  { intros a b H. unfold alt at 1. rewrite (sum_eq _ (fun _ => 0)); [rewrite sum_cte; ring|].
    intros j Hj. rewrite alt_low by lia. ring. }
  intros H. destruct (Nat.lt_ge_cases q p) as [C|C].
  - rewrite <- (L p q C). apply weighs_ext with (fun x => laguerre q x * laguerre p x) (alt (fun j => alt (rising j 0) p) q);
      [intros; ring | reflexivity | apply laguerre_laguerre].
  - rewrite <- (L q p ltac:(lia)). apply laguerre_laguerre.
Qed.

(** ** The transverse plane *)
Lemma improper (h G : R -> R) (l : R) : (forall x, is_derive G x (h x)) -> (forall x, continuous h x) ->
  is_lim G p_infty l -> is_RInt_gen h (at_point 0) (Rbar_locally p_infty) (l - G 0).
Proof.
  intros D Cn L. 
  assert (E : forall x, Derive G x = h x) by (intros x; apply is_derive_unique, D).
  apply is_RInt_gen_ext with (Derive G).
  { apply filter_forall. intros ab x _. apply E. }
  apply is_RInt_gen_Derive.
  - apply filter_forall. intros ab x _. eexists. apply D.
  - apply filter_forall. intros ab x _. apply continuous_ext with h; [intros; symmetry; apply E | apply Cn].
  - intros P HP. unfold filtermap, at_point. apply locally_singleton, HP.
  - exact L.
Qed.
Lemma weighs_gauss f I K s : 0 < s -> (forall x, continuous f x) -> weighs f I ->
  is_RInt_gen (fun r => K * (f (s * r ^ 2) * exp (- (s * r ^ 2))) * r) (at_point 0) (Rbar_locally p_infty)
    (K * I / (2 * s)).
Proof.
  intros Hs Hf (F & D & L & Z).
  replace (K * I / (2 * s)) with (0 - K / (2 * s) * F (s * 0 ^ 2)).
  2:{ replace (s * 0 ^ 2) with 0 by ring. rewrite Z. field. lra. }
  apply (improper _ (fun r => K / (2 * s) * F (s * r ^ 2))).
  - intros x. evar_last.
    + apply is_derive_scal, (is_derive_comp (V := R_NormedModule) F (fun r => s * r ^ 2)); [apply D|].
      apply is_derive_scal, is_derive_pow, (is_derive_id (K := R_AbsRing)).
    + change (K / (2 * s) * ((s * (INR 2 * 1 * x ^ 1)) * (exp (- (s * x ^ 2)) * f (s * x ^ 2)))
        = K * (f (s * x ^ 2) * exp (- (s * x ^ 2))) * x).
      cbn [INR]. rewrite pow_1. field. lra.
  - intros x.
    assert (Q : continuous (fun r => s * r ^ 2) x).
    { apply (ex_derive_continuous (V := R_NormedModule)). auto_derive. exact Logic.I. }
    apply (continuous_mult (K := R_AbsRing)); [|apply continuous_id].
    apply (continuous_mult (K := R_AbsRing)); [apply continuous_const|].
    apply (continuous_mult (K := R_AbsRing)).
    + apply (continuous_comp (fun r => s * r ^ 2) f); [exact Q | apply Hf].
    + apply (ex_derive_continuous (V := R_NormedModule)). auto_derive. exact Logic.I.
  - evar_last.
    + apply is_lim_scal_l. apply (is_lim_comp F (fun r => s * r ^ 2) p_infty 0 p_infty); [exact L| |].
      * apply is_lim_ext with (fun r => s * r * r); [intros; ring|].
        evar_last. eapply is_lim_mult; [apply is_lim_scal_l, is_lim_id | apply is_lim_id |].
        -- cbn. destruct (Rle_dec 0 s); [|lra]. destruct (Rle_lt_or_eq_dec 0 s r); [exact Logic.I | lra].
        -- cbn. destruct (Rle_dec 0 s); [|lra]. destruct (Rle_lt_or_eq_dec 0 s r); [reflexivity | lra].
      * exists 0. intros x _. discriminate.
    + cbn. f_equal. ring.
Qed.
Lemma poly_continuous (c : nat -> R) p x : continuous (fun x => sum_f_R0 (fun k => c k * x ^ k) p) x.
Proof.
  induction p as [|p IH]; cbn [sum_f_R0].
  - apply (continuous_mult (K := R_AbsRing)); [apply continuous_const | apply continuous_const].
  - apply (continuous_plus (V := R_NormedModule)); [exact IH|].
    apply (ex_derive_continuous (V := R_NormedModule)). auto_derive. exact Logic.I.
Qed.
Lemma laguerre_continuous p x : continuous (laguerre p) x.
Proof.
  apply continuous_ext with (fun x => sum_f_R0 (fun k => (-1) ^ k * Binomial.C p k / INR (fact k) * x ^ k) p).
  { intros y. symmetry. apply laguerre_terms. }
  apply (poly_continuous (fun k => (-1) ^ k * Binomial.C p k / INR (fact k))).
Qed.
Lemma lg_energy xi_c p a_0 w_0 tau z_foc l_0 cep xi z_pos : w_0 <> 0 -> tau <> 0 ->
  is_RInt_gen (fun r => Cmod (laguerre_env xi_c p a_0 w_0 tau z_foc l_0 cep xi r z_pos) ^ 2 * r)
    (at_point 0) (Rbar_locally p_infty)
    (a_0 ^ 2 * w_0 ^ 2 / 4 * exp (- 4 * ln 2 * ((xi - xi_c) / (c_SI * tau)) ^ 2)).
Proof.
  intros Hw Ht.
  set (u := (xi - xi_c + z_pos - z_foc) / (PI * w_0 ^ 2 / l_0)).
  pose proof (sqrt_1u_pos u) as Hs. pose proof (pow2_ge_0 u) as Hu.
  assert (S2 : sqrt (1 + u ^ 2) * sqrt (1 + u ^ 2) = 1 + u ^ 2) by (apply sqrt_sqrt; lra).
  set (E := exp (- 2 * ln 2 * ((xi - xi_c) / (c_SI * tau)) ^ 2)).
  set (s := 2 / (w_0 ^ 2 * (1 + u ^ 2))).
  assert (W2 : 0 < w_0 ^ 2) by (apply pow2_gt_0; exact Hw).
  assert (Ps : 0 < s) by (apply Rdiv_lt_0_compat; [lra | apply Rmult_lt_0_compat; lra]).
  set (K := a_0 ^ 2 / (1 + u ^ 2) * E ^ 2).
  replace (a_0 ^ 2 * w_0 ^ 2 / 4 * exp _) with (K * 1 / (2 * s)).
  2:{ replace (exp (- 4 * ln 2 * ((xi - xi_c) / (c_SI * tau)) ^ 2)) with (E ^ 2).
      - unfold K, s. field. repeat split; first [exact Hw | lra].
      - unfold E. replace (exp (- 2 * ln 2 * ((xi - xi_c) / (c_SI * tau)) ^ 2) ^ 2)
          with (exp (- 2 * ln 2 * ((xi - xi_c) / (c_SI * tau)) ^ 2) * exp (- 2 * ln 2 * ((xi - xi_c) / (c_SI * tau)) ^ 2))
          by ring.
        rewrite <- exp_plus. f_equal. ring. }
  eapply is_RInt_gen_ext; [|apply (weighs_gauss (fun x => laguerre p x ^ 2) 1 K s Ps)].
  - apply filter_forall. intros ab r _. rewrite laguerre_shape by assumption. unfold lg_mode. cbv zeta.
    fold u. fold E. rewrite polar_mod, pow2_abs.
    replace (2 * r ^ 2 / (w_0 * sqrt (1 + u ^ 2)) ^ 2) with (s * r ^ 2).
    2:{ unfold s. replace ((w_0 * sqrt (1 + u ^ 2)) ^ 2) with (w_0 ^ 2 * (sqrt (1 + u ^ 2) * sqrt (1 + u ^ 2))) by ring.
        rewrite S2. field. repeat split; first [exact Hw | lra]. }
    replace (exp (- (s * r ^ 2))) with (exp (- (r / (w_0 * sqrt (1 + u ^ 2))) ^ 2) * exp (- (r / (w_0 * sqrt (1 + u ^ 2))) ^ 2)).
    2:{ rewrite <- exp_plus. f_equal. unfold s.
        replace ((r / (w_0 * sqrt (1 + u ^ 2))) ^ 2) with (r ^ 2 / (w_0 ^ 2 * (sqrt (1 + u ^ 2) * sqrt (1 + u ^ 2)))).
        - rewrite S2. field. repeat split; first [exact Hw | lra].
        - field. repeat split; first [exact Hw | lra]. }
    replace K with (a_0 ^ 2 / (sqrt (1 + u ^ 2) * sqrt (1 + u ^ 2)) * E ^ 2) by (unfold K; rewrite S2; reflexivity).
    match goal with |- @eq _ ?a ?b => change (@eq R a b) end.
    field. repeat split; first [exact Hw | lra].
  - intros x. apply continuous_ext with (fun x : R => (laguerre p x * laguerre p x)%R);
      [intros y; match goal with |- @eq _ ?a ?b => change (@eq R a b) end; ring|].
    apply (continuous_mult (K := R_AbsRing)); apply laguerre_continuous.
  - apply laguerre_square.
Qed.

(** ** Sums of modes *)
Lemma weighs_series (al : nat -> R) N :
  weighs (fun x => sum_f_R0 (fun n => al n * laguerre n x) N ^ 2) (sum_f_R0 (fun n => al n ^ 2) N).
Proof.
  assert (X : forall m N, (N < m)%nat ->
    weighs (fun x => sum_f_R0 (fun n => al n * laguerre n x) N * laguerre m x) 0).
  { intros m M. induction M as [|M IH]; intros H; cbn [sum_f_R0].
    - apply weighs_ext with (fun x => al 0%nat * (laguerre 0 x * laguerre m x)) (al 0%nat * 0);
        [intros; ring | ring | apply weighs_scal, laguerre_orthogonal; lia].
    - apply weighs_ext with (fun x => sum_f_R0 (fun n => al n * laguerre n x) M * laguerre m x
        + al (S M) * (laguerre (S M) x * laguerre m x)) (0 + al (S M) * 0);
        [intros; ring | ring |].
      apply weighs_plus; [apply IH; lia | apply weighs_scal, laguerre_orthogonal; lia]. }
  induction N as [|N IH]; cbn [sum_f_R0].
  - apply weighs_ext with (fun x => al 0%nat ^ 2 * laguerre 0 x ^ 2) (al 0%nat ^ 2 * 1);
      [intros; ring | ring | apply weighs_scal, laguerre_square].
  - apply weighs_ext with (fun x => sum_f_R0 (fun n => al n * laguerre n x) N ^ 2
      + (2 * al (S N) * (sum_f_R0 (fun n => al n * laguerre n x) N * laguerre (S N) x)
         + al (S N) ^ 2 * laguerre (S N) x ^ 2))
      (sum_f_R0 (fun n => al n ^ 2) N + (2 * al (S N) * 0 + al (S N) ^ 2 * 1)); [intros; ring | ring |].
    apply weighs_plus; [exact IH|]. apply weighs_plus.
    + apply weighs_scal, X. lia.
    + apply weighs_scal, laguerre_square.
Qed.
Lemma csum_components (f : nat -> C) N :
  csum (map f (seq 0 (S N))) = (sum_f_R0 (fun n => fst (f n)) N, sum_f_R0 (fun n => snd (f n)) N).
Proof.
  induction N as [|N IH].
  - cbn. unfold Cplus. cbn. f_equal; ring.
  - rewrite seq_S, map_app, csum_app, IH. cbn [map csum fold_right Nat.add sum_f_R0]. unfold Cplus. cbn [fst snd].
    f_equal; cbn; ring.
Qed.
Lemma series_continuous (al : nat -> R) N x : continuous (fun x => sum_f_R0 (fun n => al n * laguerre n x) N) x.
Proof.
  induction N as [|N IH]; cbn [sum_f_R0].
  - apply (continuous_mult (K := R_AbsRing)); [apply continuous_const | apply laguerre_continuous].
  - apply (continuous_plus (V := R_NormedModule)); [exact IH|].
    apply (continuous_mult (K := R_AbsRing)); [apply continuous_const | apply laguerre_continuous].
Qed.
Lemma Cmod_2 z : Cmod z ^ 2 = fst z ^ 2 + snd z ^ 2.
Proof.
  unfold Cmod. rewrite <- Rsqr_pow2, Rsqr_sqrt; [reflexivity|].
  pose proof (pow2_ge_0 (fst z)). pose proof (pow2_ge_0 (snd z)). lra.
Qed.
Lemma modes_energy xi_c (A cep : nat -> R) N w_0 tau z_foc l_0 xi z_pos : w_0 <> 0 -> tau <> 0 ->
  is_RInt_gen (fun r => Cmod (csum (map (fun n => lg_mode xi_c n (A n) w_0 tau z_foc l_0 (cep n) xi r z_pos)
                                      (seq 0 (S N)))) ^ 2 * r)
    (at_point 0) (Rbar_locally p_infty)
    (sum_f_R0 (fun n => A n ^ 2) N * w_0 ^ 2 / 4 * exp (- 4 * ln 2 * ((xi - xi_c) / (c_SI * tau)) ^ 2)).
Proof.
  intros Hw Ht.
  set (u := (xi - xi_c + z_pos - z_foc) / (PI * w_0 ^ 2 / l_0)).
  pose proof (sqrt_1u_pos u) as Hs. pose proof (pow2_ge_0 u) as Hu.
  set (q := sqrt (1 + u ^ 2)) in *.
  assert (S2 : q * q = 1 + u ^ 2) by (apply sqrt_sqrt; lra).
  set (E := exp (- 2 * ln 2 * ((xi - xi_c) / (c_SI * tau)) ^ 2)).
  set (s := 2 / (w_0 ^ 2 * (q * q))).
  assert (W2 : 0 < w_0 ^ 2) by (apply pow2_gt_0; exact Hw).
  assert (Ps : 0 < s) by (apply Rdiv_lt_0_compat; [lra | apply Rmult_lt_0_compat; nra]).
  set (K := 1 / (q * q) * E ^ 2).
  set (th := fun n => - cep n - (2 * INR n + 1) * atan u).
  set (ac := fun n => A n * cos (th n)). set (as_ := fun n => A n * sin (th n)).
  set (f := fun x => sum_f_R0 (fun n => ac n * laguerre n x) N ^ 2 + sum_f_R0 (fun n => as_ n * laguerre n x) N ^ 2).
  assert (Wf : weighs f (sum_f_R0 (fun n => A n ^ 2) N)).
  { apply weighs_ext with f (sum_f_R0 (fun n => ac n ^ 2) N + sum_f_R0 (fun n => as_ n ^ 2) N).
    - reflexivity.
    - rewrite <- sum_plus. apply sum_eq. intros n _. unfold ac, as_.
      replace ((A n * cos (th n)) ^ 2 + (A n * sin (th n)) ^ 2)
        with (A n ^ 2 * (Rsqr (sin (th n)) + Rsqr (cos (th n)))) by (unfold Rsqr; ring).
      rewrite sin2_cos2. ring.
    - apply weighs_plus; apply weighs_series. }
  assert (Cf : forall x, continuous f x).
  { intros x. apply (continuous_plus (V := R_NormedModule)).
    - apply continuous_ext with (fun x : R => (sum_f_R0 (fun n => ac n * laguerre n x) N * sum_f_R0 (fun n => ac n * laguerre n x) N)%R);
        [intros y; match goal with |- @eq _ ?a ?b => change (@eq R a b) end; ring|].
      apply (continuous_mult (K := R_AbsRing)); apply series_continuous.
    - apply continuous_ext with (fun x : R => (sum_f_R0 (fun n => as_ n * laguerre n x) N * sum_f_R0 (fun n => as_ n * laguerre n x) N)%R);
        [intros y; match goal with |- @eq _ ?a ?b => change (@eq R a b) end; ring|].
      apply (continuous_mult (K := R_AbsRing)); apply series_continuous. }
  replace (sum_f_R0 (fun n => A n ^ 2) N * w_0 ^ 2 / 4 * exp _) with (K * sum_f_R0 (fun n => A n ^ 2) N / (2 * s)).
  2:{ replace (exp (- 4 * ln 2 * ((xi - xi_c) / (c_SI * tau)) ^ 2)) with (E ^ 2).
      - unfold K, s. field. repeat split; first [exact Hw | lra].
      - unfold E. replace (exp (- 2 * ln 2 * ((xi - xi_c) / (c_SI * tau)) ^ 2) ^ 2)
          with (exp (- 2 * ln 2 * ((xi - xi_c) / (c_SI * tau)) ^ 2) * exp (- 2 * ln 2 * ((xi - xi_c) / (c_SI * tau)) ^ 2))
          by ring.
        rewrite <- exp_plus. f_equal. ring. }
  eapply is_RInt_gen_ext; [|apply (weighs_gauss f _ K s Ps Cf Wf)].
  apply filter_forall. intros ab r _.
  set (g := 1 / q * exp (- (r / (w_0 * q)) ^ 2) * E).
  set (ph := (r / (w_0 * q)) ^ 2 * u).
  rewrite csum_components, Cmod_2. cbn [fst snd].
  assert (M : forall n, lg_mode xi_c n (A n) w_0 tau z_foc l_0 (cep n) xi r z_pos
                = polar (g * (A n * laguerre n (s * r ^ 2))) (th n + ph)).
  { intros n. unfold lg_mode. cbv zeta. fold u. fold q. fold E. f_equal.
    replace (2 * r ^ 2 / (w_0 * q) ^ 2) with (s * r ^ 2); unfold s, g; field; repeat split; first [exact Hw | lra]. }
  rewrite (sum_eq (fun n => fst (lg_mode xi_c n (A n) w_0 tau z_foc l_0 (cep n) xi r z_pos))
    (fun n => g * cos ph * (ac n * laguerre n (s * r ^ 2)) - g * sin ph * (as_ n * laguerre n (s * r ^ 2)))).
  2:{ intros n _. rewrite M. unfold polar. cbn [fst]. rewrite cos_plus. unfold ac, as_. ring. }
  rewrite (sum_eq (fun n => snd (lg_mode xi_c n (A n) w_0 tau z_foc l_0 (cep n) xi r z_pos))
    (fun n => g * cos ph * (as_ n * laguerre n (s * r ^ 2)) + g * sin ph * (ac n * laguerre n (s * r ^ 2)))).
  2:{ intros n _. rewrite M. unfold polar. cbn [snd]. rewrite sin_plus. unfold ac, as_. ring. }
  rewrite minus_sum, sum_plus.
  assert (Sc : forall k (h : nat -> R), sum_f_R0 (fun n => k * h n) N = k * sum_f_R0 h N).
  { intros k h. rewrite scal_sum. apply sum_eq. intros; ring. }
  rewrite !Sc. unfold f.
  set (a1 := sum_f_R0 (fun n => ac n * laguerre n (s * r ^ 2)) N).
  set (a2 := sum_f_R0 (fun n => as_ n * laguerre n (s * r ^ 2)) N).
  replace (exp (- (s * r ^ 2))) with (exp (- (r / (w_0 * q)) ^ 2) * exp (- (r / (w_0 * q)) ^ 2)).
  2:{ rewrite <- exp_plus. f_equal. unfold s. field. repeat split; first [exact Hw | lra]. }
  match goal with |- @eq _ ?a ?b => change (@eq R a b) end.
  replace ((g * cos ph * a1 - g * sin ph * a2) ^ 2 + (g * cos ph * a2 + g * sin ph * a1) ^ 2)
    with (g ^ 2 * (Rsqr (sin ph) + Rsqr (cos ph)) * (a1 ^ 2 + a2 ^ 2)) by (unfold Rsqr; ring).
  rewrite sin2_cos2. unfold K, g. field. lra.
Qed.
