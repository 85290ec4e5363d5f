(** Diffraction of Laguerre-Gauss pulses: relations between Laguerre polynomials, the paraxial
    wave equation, and the far field of flattened Gaussian pulses. *)
From Coq Require Import Reals List Lia Lra Psatz.
From Coquelicot Require Import Coquelicot.
From Verif Require Import Model_Push Model_Laser Spec_Laser Spec_Diffraction Proofs_Profile Proofs_Energy.
Import ListNotations.
Open Scope R_scope.

Ltac inR := match goal with |- @eq _ ?a ?b => change (@eq R a b) end.
(** ** Polynomials *)
Definition coef (p k : nat) : R := (-1) ^ k * Binomial.C p k / INR (fact k).
Lemma laguerre_coef p x : laguerre p x = sum_f_R0 (fun k => coef p k * x ^ k) p.
Proof. exact (laguerre_terms p x). Qed.
Definition dpoly (c : nat -> R) (n : nat) (x : R) : R := sum_f_R0 (fun k => c k * (INR k * x ^ pred k)) n.
Lemma poly_derive c n x : is_derive (fun x => sum_f_R0 (fun k => c k * x ^ k) n) x (dpoly c n x).
Proof.
  induction n as [|n IH]; unfold dpoly in *; cbn [sum_f_R0].
  - evar_last; [apply (is_derive_const (c 0%nat * x ^ 0))|]. cbn. ring.
  - evar_last.
    + apply (is_derive_plus (V := R_NormedModule)); [exact IH|].
      apply is_derive_scal, is_derive_pow, (is_derive_id (K := R_AbsRing)).
    + change (sum_f_R0 (fun k => c k * (INR k * x ^ pred k)) n + c (S n) * (INR (S n) * 1 * x ^ pred (S n))
        = sum_f_R0 (fun k => c k * (INR k * x ^ pred k)) n + c (S n) * (INR (S n) * x ^ pred (S n))). ring.
Qed.
Definition laguerre' (p : nat) (x : R) : R := dpoly (coef p) p x.
Lemma laguerre_derive p x : is_derive (laguerre p) x (laguerre' p x).
Proof.
  apply is_derive_ext with (fun x => sum_f_R0 (fun k => coef p k * x ^ k) p); [|apply poly_derive].
  intros t. symmetry. apply laguerre_coef.
Qed.
Lemma C_up n k : (k <= n)%nat -> INR (S k) * Binomial.C (S n) (S k) = INR (S n) * Binomial.C n k.
Proof.
  intros H. unfold Binomial.C. change (S n - S k)%nat with (n - k)%nat.
  change (fact (S n)) with (S n * fact n)%nat. change (fact (S k)) with (S k * fact k)%nat.
  rewrite !mult_INR. field. repeat split; try apply INR_fact_neq_0. apply not_0_INR. lia.
Qed.
(** L_n - L_(n+1) and its derivative L_n *)
Lemma laguerre_diff n x :
  laguerre n x - laguerre (S n) x = sum_f_R0 (fun k => coef n k * x ^ S k / INR (S k)) n.
Proof.
  rewrite !laguerre_coef.
  assert (E : forall k, (k < n)%nat -> coef n (S k) - coef (S n) (S k) = coef n k / INR (S k)).
  { intros k Hk. unfold coef. rewrite <- (pascal n k) by exact Hk.
    change (fact (S k)) with (S k * fact k)%nat. rewrite mult_INR. cbn [pow]. field.
    split; [apply INR_fact_neq_0 | apply not_0_INR; lia]. }
  assert (L : - coef (S n) (S n) = coef n n / INR (S n)).
  { unfold coef. rewrite !C_n. change (fact (S n)) with (S n * fact n)%nat. rewrite mult_INR. cbn [pow]. field.
    split; [apply INR_fact_neq_0 | apply not_0_INR; lia]. }
  rewrite (sum_peel (fun k => coef (S n) k * x ^ k)).
  destruct n as [|n].
  - cbn [sum_f_R0]. replace (coef 1 1) with (- (coef 0 0 / INR 1)) by lra.
    replace (coef 1 0) with (coef 0 0) by (unfold coef; rewrite !C_0; reflexivity). cbn. field.
  - rewrite (sum_peel (fun k => coef (S n) k * x ^ k)). cbn [sum_f_R0].
    replace (coef (S (S n)) 0) with (coef (S n) 0) by (unfold coef; rewrite !C_0; reflexivity).
    replace (coef (S (S n)) (S (S n))) with (- (coef (S n) (S n) / INR (S (S n)))) by lra.
    replace (sum_f_R0 (fun k => coef (S n) k * x ^ S k / INR (S k)) n)
      with (sum_f_R0 (fun k => coef (S n) (S k) * x ^ S k) n - sum_f_R0 (fun k => coef (S (S n)) (S k) * x ^ S k) n).
    + unfold Rdiv. ring.
    + rewrite <- minus_sum. apply sum_eq. intros k Hk.
      replace (coef (S n) (S k) * x ^ S k - coef (S (S n)) (S k) * x ^ S k)
        with ((coef (S n) (S k) - coef (S (S n)) (S k)) * x ^ S k) by ring.
      rewrite E by lia. unfold Rdiv. ring.
Qed.
Lemma diff_derive n x : is_derive (fun x => laguerre n x - laguerre (S n) x) x (laguerre n x).
Proof.
  apply is_derive_ext with (fun x => sum_f_R0 (fun k => coef n k * x ^ S k / INR (S k)) n).
  { intros t. symmetry. apply laguerre_diff. }
  rewrite laguerre_coef. generalize (coef n) as c. intros c.
  induction n as [|n IH]; cbn [sum_f_R0].
  - evar_last.
    + apply is_derive_ext with (fun t => c 0%nat * t); [intros; cbn; inR; field|].
      apply is_derive_scal, (is_derive_id (K := R_AbsRing)).
    + change (c 0%nat * 1 = c 0%nat * x ^ 0). cbn. ring.
  - evar_last.
    + apply (is_derive_plus (V := R_NormedModule)); [exact IH|].
      apply is_derive_ext with (fun t => c (S n) / INR (S (S n)) * t ^ S (S n)); [intros; inR; unfold Rdiv; ring|].
      apply is_derive_scal, is_derive_pow, (is_derive_id (K := R_AbsRing)).
    + change (sum_f_R0 (fun k => c k * x ^ k) n + c (S n) / INR (S (S n)) * (INR (S (S n)) * 1 * x ^ S n)
        = sum_f_R0 (fun k => c k * x ^ k) n + c (S n) * x ^ S n).
      field. apply not_0_INR. lia.
Qed.
(** x L_n' = n (L_n - L_(n-1)) *)
Lemma laguerre_x n x : x * laguerre' (S n) x = INR (S n) * (laguerre (S n) x - laguerre n x).
Proof.
  unfold laguerre', dpoly. rewrite !laguerre_coef, scal_sum. cbn [sum_f_R0].
  assert (Sc : forall k (h : nat -> R), k * sum_f_R0 h n = sum_f_R0 (fun i => k * h i) n).
  { intros k h. rewrite scal_sum. apply sum_eq. intros; ring. }
  replace (INR (S n) * (sum_f_R0 (fun k => coef (S n) k * x ^ k) n + coef (S n) (S n) * x ^ S n
             - sum_f_R0 (fun k => coef n k * x ^ k) n))
    with (sum_f_R0 (fun k => INR (S n) * (coef (S n) k * x ^ k - coef n k * x ^ k)) n
          + INR (S n) * coef (S n) (S n) * x ^ S n).
  2:{ rewrite <- Sc, minus_sum. ring. }
  replace (pred (S n)) with n by reflexivity.
  f_equal; [|cbn [pow]; ring].
  apply sum_eq. intros k Hk. destruct k as [|k].
  - unfold coef. rewrite !C_0. cbn. ring.
  - cbn [pred]. unfold coef.
    assert (E : INR (S k) * Binomial.C (S n) (S k) = INR (S n) * (Binomial.C (S n) (S k) - Binomial.C n (S k))).
    { rewrite C_up by lia. rewrite <- (pascal n k) by lia. ring. }
    transitivity ((-1) ^ S k / INR (fact (S k)) * (INR (S k) * Binomial.C (S n) (S k)) * x ^ S k).
    + cbn [pow]. field. apply INR_fact_neq_0.
    + rewrite E. field. apply INR_fact_neq_0.
Qed.
(** Laguerre's equation *)
Definition laguerre'' (p : nat) (x : R) : R := dpoly (fun k => INR (S k) * coef p (S k)) (pred p) x.
Lemma laguerre'_derive p x : is_derive (laguerre' p) x (laguerre'' p x).
Proof.
  destruct p as [|p].
  - apply is_derive_ext with (fun _ => 0).
    { intros t. unfold laguerre', dpoly. cbn. ring. }
    evar_last; [apply (is_derive_const 0)|]. unfold laguerre'', dpoly. cbn. ring.
  - apply is_derive_ext with (fun x => sum_f_R0 (fun k => (INR (S k) * coef (S p) (S k)) * x ^ k) p); [|apply poly_derive].
    intros t. unfold laguerre', dpoly. rewrite sum_peel. cbn [pred].
    rewrite (sum_eq (fun k => coef (S p) (S k) * (INR (S k) * t ^ k)) (fun k => INR (S k) * coef (S p) (S k) * t ^ k))
      by (intros; ring).
    replace (coef (S p) 0 * (INR 0 * t ^ 0)) with 0 by (cbn [INR]; ring). 
    inR. ring.
Qed.
Lemma derive_unique (f : R -> R) (x a b : R) : is_derive f x a -> is_derive f x b -> a = b.
Proof. intros H1 H2. rewrite <- (is_derive_unique _ _ _ H1). exact (is_derive_unique _ _ _ H2). Qed.
Lemma laguerre_equation p x : x * laguerre'' p x + (1 - x) * laguerre' p x + INR p * laguerre p x = 0.
Proof.
  destruct p as [|p].
  - unfold laguerre'', laguerre', dpoly. cbn [sum_f_R0 pred INR]. unfold coef. cbn. unfold Binomial.C. cbn. field.
  - assert (D1 : is_derive (fun x => x * laguerre' (S p) x) x (laguerre' (S p) x + x * laguerre'' (S p) x)).
    { evar_last; [apply (is_derive_mult (K := R_AbsRing)); [apply (is_derive_id (K := R_AbsRing)) | apply laguerre'_derive | intros; apply Rmult_comm]|].
      unfold plus, mult, one. cbn -[laguerre' laguerre'']. ring. }
    assert (D2 : is_derive (fun x => x * laguerre' (S p) x) x (- INR (S p) * laguerre p x)).
    { apply is_derive_ext with (fun x => - INR (S p) * (laguerre p x - laguerre (S p) x)).
      - intros t. inR. rewrite laguerre_x. ring.
      - apply is_derive_scal, diff_derive. }
    pose proof (derive_unique _ _ _ _ D1 D2) as E.
    pose proof (laguerre_x p x) as E2. lra.
Qed.
(** x^m/m! in terms of Laguerre polynomials *)
Lemma same_derive (f g d : R -> R) x : (forall t, is_derive f t (d t)) -> (forall t, is_derive g t (d t)) ->
  f 0 = g 0 -> f x = g x.
Proof.
  intros Df Dg E.
  assert (D : forall t, is_derive (fun t => f t - g t) t 0).
  { intros t. evar_last; [apply (is_derive_minus (V := R_NormedModule)); [apply Df | apply Dg]|].
    unfold minus, plus, opp. cbn. ring. }
  destruct (MVT_gen (fun t => f t - g t) 0 x (fun _ => 0)) as (c & _ & M).
  - intros t _. apply D.
  - intros t _. apply derivable_continuous_pt. exists 0. apply is_derive_Reals, D.
  - lra.
Qed.
Lemma laguerre_inverse m x : alt (fun n => laguerre n x) m = x ^ m / INR (fact m).
Proof.
  revert x. induction m as [|m IH]; intros x.
  - unfold alt. cbn [sum_f_R0]. rewrite laguerre_0, C_0. cbn. field.
  - rewrite alt_S.
    apply (same_derive (fun x => alt (fun k => laguerre k x - laguerre (S k) x) m) (fun x => x ^ S m / INR (fact (S m)))
             (fun x => x ^ m / INR (fact m))).
    + intros t. rewrite <- IH. unfold alt.
      assert (G : forall n, is_derive (fun x => sum_f_R0 (fun k => (-1) ^ k * Binomial.C m k * (laguerre k x - laguerre (S k) x)) n) t
                  (sum_f_R0 (fun k => (-1) ^ k * Binomial.C m k * laguerre k t) n)).
      { induction n as [|n IHn]; cbn [sum_f_R0].
        - apply is_derive_scal, diff_derive.
        - apply (is_derive_plus (V := R_NormedModule)); [exact IHn|]. apply is_derive_scal, diff_derive. }
      apply G.
    + intros t. evar_last.
      * apply is_derive_ext with (fun t => / INR (fact (S m)) * t ^ S m); [intros; inR; unfold Rdiv; ring|].
        apply is_derive_scal, is_derive_pow, (is_derive_id (K := R_AbsRing)).
      * change (/ INR (fact (S m)) * (INR (S m) * 1 * t ^ m) = t ^ m / INR (fact m)).
        change (fact (S m)) with (S m * fact m)%nat. rewrite mult_INR. field.
        split; [apply INR_fact_neq_0 | apply not_0_INR; lia].
    + rewrite pow_i by lia. unfold alt. rewrite (sum_eq _ (fun _ => 0)).
      * rewrite sum_cte. unfold Rdiv. ring.
      * intros k _. rewrite !laguerre_axis. ring.
Qed.

(** ** Paraxial wave equation *)
Definition Gm p y := laguerre p (2 * y) * exp (- y).
Definition Gm1 p y := (2 * laguerre' p (2 * y) - laguerre p (2 * y)) * exp (- y).
Definition Gm2 p y := (4 * laguerre'' p (2 * y) - 4 * laguerre' p (2 * y) + laguerre p (2 * y)) * exp (- y).
Lemma at_2 (f f' : R -> R) y : (forall x, is_derive f x (f' x)) -> is_derive (fun y => f (2 * y)) y (2 * f' (2 * y)).
Proof.
  intros H. evar_last.
  - apply (is_derive_comp (V := R_NormedModule) f (fun y => 2 * y)); [apply H|].
    apply is_derive_scal, (is_derive_id (K := R_AbsRing)).
  - change (2 * 1 * f' (2 * y) = 2 * f' (2 * y)). ring.
Qed.
Lemma exp_neg y : is_derive (fun y => exp (- y)) y (- exp (- y)).
Proof. auto_derive; [exact Logic.I | ring]. Qed.
Lemma Gm_derive p y : is_derive (Gm p) y (Gm1 p y).
Proof.
  evar_last.
  - apply (is_derive_mult (K := R_AbsRing)); [apply (at_2 _ (laguerre' p)), laguerre_derive | apply exp_neg | intros; apply Rmult_comm].
  - change (2 * laguerre' p (2 * y) * exp (- y) + laguerre p (2 * y) * - exp (- y) = Gm1 p y). unfold Gm1. ring.
Qed.
Lemma Gm1_derive p y : is_derive (Gm1 p) y (Gm2 p y).
Proof.
  evar_last.
  - apply (is_derive_mult (K := R_AbsRing)); [|apply exp_neg | intros; apply Rmult_comm].
    apply (is_derive_minus (V := R_NormedModule)).
    + apply is_derive_scal, (at_2 _ (laguerre'' p)). intros; apply laguerre'_derive.
    + apply (at_2 _ (laguerre' p)). intros; apply laguerre_derive.
  - change ((2 * (2 * laguerre'' p (2 * y)) + - (2 * laguerre' p (2 * y))) * exp (- y)
      + (2 * laguerre' p (2 * y) - laguerre p (2 * y)) * - exp (- y) = Gm2 p y). unfold Gm2. ring.
Qed.
Lemma Gm_equation p y : y * Gm2 p y + Gm1 p y + (2 * INR p + 1 - y) * Gm p y = 0.
Proof.
  pose proof (laguerre_equation p (2 * y)) as E. unfold Gm, Gm1, Gm2.
  transitivity (2 * exp (- y) * (2 * y * laguerre'' p (2 * y) + (1 - 2 * y) * laguerre' p (2 * y) + INR p * laguerre p (2 * y))).
  - ring.
  - rewrite E. ring.
Qed.

(** Along r: B G(kap r^2) cos(f0 + kap r^2 u) *)
Section Radial.
  Variables G G1 G2 : R -> R.
  Hypothesis D1 : forall y, is_derive G y (G1 y).
  Hypothesis D2 : forall y, is_derive G1 y (G2 y).
  Variables B kap f0 u : R.
  Definition Xr r := B * G (kap * r ^ 2) * cos (f0 + kap * r ^ 2 * u).
  Definition Xr1 r := 2 * kap * r * (B * (G1 (kap * r ^ 2) * cos (f0 + kap * r ^ 2 * u)
                                         - u * G (kap * r ^ 2) * sin (f0 + kap * r ^ 2 * u))).
  Definition Xr2 r := let y := kap * r ^ 2 in let f := f0 + y * u in
    2 * kap * (B * (G1 y * cos f - u * G y * sin f))
    + (2 * kap * r) ^ 2 * (B * (G2 y * cos f - 2 * u * G1 y * sin f - u ^ 2 * G y * cos f)).
  Lemma E1 y : Derive (fun x : R => G x) y = G1 y.
  Proof. apply is_derive_unique, D1. Qed.
  Lemma E2 y : Derive (fun x : R => G1 x) y = G2 y.
  Proof. apply is_derive_unique, D2. Qed.
  Lemma Xr_derive r : is_derive Xr r (Xr1 r).
  Proof.
    unfold Xr, Xr1. auto_derive; [eexists; apply D1|].
    rewrite E1.
    replace (kap * (r * (r * 1))) with (kap * r ^ 2) by ring. ring.
  Qed.
  Lemma Xr1_derive r : is_derive Xr1 r (Xr2 r).
  Proof.
    unfold Xr1, Xr2. auto_derive.
    - repeat split; try exact Logic.I; eexists; first [apply D1 | apply D2].
    - rewrite E1, E2.
      replace (kap * (r * (r * 1))) with (kap * r ^ 2) by ring. ring.
  Qed.
End Radial.
(** Along u: A / sqrt(1+u^2) G(R0/(1+u^2)) sin(f0 - c atan u + R0/(1+u^2) u) *)
Section Axial.
  Variables G G1 : R -> R.
  Hypothesis D1 : forall y, is_derive G y (G1 y).
  Variables A R0 f0 c : R.
  Definition Yu u := A / sqrt (1 + u ^ 2) * G (R0 / (1 + u ^ 2)) * sin (f0 - c * atan u + R0 / (1 + u ^ 2) * u).
  Definition Yu1 u := let v := 1 + u ^ 2 in let y := R0 / v in let f := f0 - c * atan u + y * u in
    A / sqrt v * (- u / v * G y * sin f - 2 * u * y / v * G1 y * sin f + G y * cos f * ((y * (1 - u ^ 2) - c) / v)).
  Lemma Yu_derive u : is_derive Yu u (Yu1 u).
  Proof.
    pose proof (sqrt_1u_pos u) as Hs. pose proof (pow2_ge_0 u) as Hu.
    assert (S2 : sqrt (1 + u ^ 2) * sqrt (1 + u ^ 2) = 1 + u ^ 2) by (apply sqrt_sqrt; lra).
    unfold Yu, Yu1. auto_derive.
    - replace (u * (u * 1)) with (u ^ 2) by ring.
      split; [lra|]. split; [lra|]. split; [eexists; apply D1|]. split; [lra|]. split; [lra | exact Logic.I].
    - assert (E1 : forall y, Derive (fun x : R => G x) y = G1 y) by (intros; apply is_derive_unique, D1).
      rewrite E1.
      replace (u * (u * 1)) with (u ^ 2) by ring.
      change (R0 * / (1 + u ^ 2)) with (R0 / (1 + u ^ 2)).
      rewrite S2. change (f0 + - (c * atan u)) with (f0 - c * atan u).
      generalize (G (R0 / (1 + u ^ 2))) (G1 (R0 / (1 + u ^ 2))) (sin (f0 - c * atan u + R0 / (1 + u ^ 2) * u))
        (cos (f0 - c * atan u + R0 / (1 + u ^ 2) * u)). intros g g1 sn cs.
      inR. field. split; lra.
  Qed.
End Axial.

(** ** The modes *)
Definition zr (w_0 l_0 : R) : R := PI * w_0 ^ 2 / l_0.
Section Mode.
  Variables (xi_c : R) (p : nat) (a_0 w_0 tau z_foc l_0 cep xi : R).
  Hypothesis Hw : w_0 <> 0.
  Hypothesis Hl : l_0 <> 0.
  Let E := exp (- 2 * ln 2 * ((xi - xi_c) / (c_SI * tau)) ^ 2).
  Let U z := (xi - xi_c + z - z_foc) / zr w_0 l_0.
  Let kap z := / (w_0 ^ 2 * (1 + U z ^ 2)).
  Lemma mode_radial z r :
    lg_mode xi_c p a_0 w_0 tau z_foc l_0 cep xi r z
    = (Xr (Gm p) (a_0 * E / sqrt (1 + U z ^ 2)) (kap z) (- cep - (2 * INR p + 1) * atan (U z)) (U z) r,
       Xr (Gm p) (a_0 * E / sqrt (1 + U z ^ 2)) (kap z) (- cep - (2 * INR p + 1) * atan (U z) - PI / 2) (U z) r).
  Proof.
    unfold lg_mode. cbv zeta. change ((xi - xi_c + z - z_foc) / (PI * w_0 ^ 2 / l_0)) with (U z). fold E.
    pose proof (sqrt_1u_pos (U z)) as Hs. pose proof (pow2_ge_0 (U z)) as Hu.
    assert (S2 : sqrt (1 + U z ^ 2) * sqrt (1 + U z ^ 2) = 1 + U z ^ 2) by (apply sqrt_sqrt; lra).
    set (q := sqrt (1 + U z ^ 2)) in *.
    assert (Ek : (r / (w_0 * q)) ^ 2 = kap z * r ^ 2).
    { unfold kap. rewrite <- S2. field. repeat split; first [exact Hw | lra]. }
    assert (Ek2 : 2 * r ^ 2 / (w_0 * q) ^ 2 = 2 * (kap z * r ^ 2)).
    { rewrite <- Ek. field. repeat split; first [exact Hw | lra]. }
    rewrite Ek, Ek2. unfold polar, Xr, Gm.
    replace (w_0 / (w_0 * q)) with (/ q) by (field; repeat split; first [exact Hw | lra]).
    f_equal; [unfold Rdiv; ring|].
    replace (- cep - (2 * INR p + 1) * atan (U z) - PI / 2 + kap z * r ^ 2 * U z)
      with (- (PI / 2 - (- cep - (2 * INR p + 1) * atan (U z) + kap z * r ^ 2 * U z))) by ring.
    rewrite cos_neg, cos_shift. unfold Rdiv. ring.
  Qed.
  Lemma mode_axial z r :
    lg_mode xi_c p a_0 w_0 tau z_foc l_0 cep xi r z
    = (Yu (Gm p) (a_0 * E) (r ^ 2 / w_0 ^ 2) (- cep + PI / 2) (2 * INR p + 1) (U z),
       Yu (Gm p) (a_0 * E) (r ^ 2 / w_0 ^ 2) (- cep) (2 * INR p + 1) (U z)).
  Proof.
    unfold lg_mode. cbv zeta. change ((xi - xi_c + z - z_foc) / (PI * w_0 ^ 2 / l_0)) with (U z). fold E.
    pose proof (sqrt_1u_pos (U z)) as Hs. pose proof (pow2_ge_0 (U z)) as Hu.
    assert (S2 : sqrt (1 + U z ^ 2) * sqrt (1 + U z ^ 2) = 1 + U z ^ 2) by (apply sqrt_sqrt; lra).
    set (q := sqrt (1 + U z ^ 2)) in *.
    assert (Ek : (r / (w_0 * q)) ^ 2 = r ^ 2 / w_0 ^ 2 / (1 + U z ^ 2)).
    { rewrite <- S2. field. repeat split; first [exact Hw | lra]. }
    assert (Ek2 : 2 * r ^ 2 / (w_0 * q) ^ 2 = 2 * (r ^ 2 / w_0 ^ 2 / (1 + U z ^ 2))).
    { rewrite <- Ek. field. repeat split; first [exact Hw | lra]. }
    rewrite Ek, Ek2. unfold polar, Yu, Gm. fold q.
    replace (w_0 / (w_0 * q)) with (/ q) by (field; repeat split; first [exact Hw | lra]).
    f_equal; [|unfold Rdiv; ring].
    replace (- cep + PI / 2 - (2 * INR p + 1) * atan (U z) + r ^ 2 / w_0 ^ 2 / (1 + U z ^ 2) * U z)
      with (PI / 2 - - (- cep - (2 * INR p + 1) * atan (U z) + r ^ 2 / w_0 ^ 2 / (1 + U z ^ 2) * U z)) by ring.
    rewrite sin_shift, cos_neg. unfold Rdiv. ring.
  Qed.
  Lemma zr_neq : zr w_0 l_0 <> 0.
  Proof.
    unfold zr. pose proof PI_RGT_0. intros F. apply (f_equal (fun x => x * l_0)) in F. unfold Rdiv in F.
    rewrite Rmult_assoc, Rinv_l, Rmult_1_r, Rmult_0_l in F by exact Hl.
    apply Rmult_integral in F. destruct F as [F|F]; [lra|]. exact (pow_nonzero w_0 2 Hw F).
  Qed.
  Lemma U_derive z : is_derive U z (/ zr w_0 l_0).
  Proof. unfold U. auto_derive; [exact Logic.I|]. field. apply zr_neq. Qed.
  Lemma along_z (h h' : R -> R) z : (forall u, is_derive h u (h' u)) ->
    is_derive (fun z => h (U z)) z (h' (U z) / zr w_0 l_0).
  Proof.
    intros D. evar_last; [apply (is_derive_comp (V := R_NormedModule) h U); [apply D | apply U_derive]|].
    change (/ zr w_0 l_0 * h' (U z) = h' (U z) / zr w_0 l_0). unfold Rdiv. ring.
  Qed.
  Lemma key A0 r f0 c u : c = 2 * INR p + 1 -> r <> 0 ->
    let B := A0 / sqrt (1 + u ^ 2) in let k := / (w_0 ^ 2 * (1 + u ^ 2)) in let f := f0 - c * atan u in
    Xr2 (Gm p) (Gm1 p) (Gm2 p) B k f u r + Xr1 (Gm p) (Gm1 p) B k f u r / r
    = 4 / w_0 ^ 2 * Yu1 (Gm p) (Gm1 p) A0 (r ^ 2 / w_0 ^ 2) f0 c u.
  Proof.
    intros -> Hr B k f. unfold Xr2, Xr1, Yu1. cbv zeta.
    pose proof (sqrt_1u_pos u) as Hs. pose proof (pow2_ge_0 u) as Hu.
    assert (Ey : r ^ 2 / w_0 ^ 2 / (1 + u ^ 2) = k * r ^ 2) by (unfold k; field; repeat split; first [exact Hw | lra]).
    rewrite Ey. fold f. fold B. set (y := k * r ^ 2).
    pose proof (Gm_equation p y) as Q.
    assert (Hk : k = / w_0 ^ 2 / (1 + u ^ 2)) by (unfold k; field; repeat split; first [exact Hw | lra]).
    set (cs := cos (f + y * u)). set (sn := sin (f + y * u)).
    transitivity (4 * k * B * ((Gm1 p y * cs - u * Gm p y * sn)
      + y * (Gm2 p y * cs - 2 * u * Gm1 p y * sn - u ^ 2 * Gm p y * cs))).
    { unfold y. field. exact Hr. }
    replace (y * (Gm2 p y * cs - 2 * u * Gm1 p y * sn - u ^ 2 * Gm p y * cs))
      with ((y * Gm2 p y) * cs - y * (2 * u * Gm1 p y * sn + u ^ 2 * Gm p y * cs)) by ring.
    replace (y * Gm2 p y) with (- Gm1 p y - (2 * INR p + 1 - y) * Gm p y) by lra.
    rewrite Hk. field. repeat split; first [exact Hw | lra].
  Qed.
End Mode.
Lemma mode_paraxial xi_c p a_0 w_0 tau z_foc l_0 cep xi : w_0 <> 0 -> l_0 <> 0 ->
  paraxial (2 * PI / l_0) (fun r z => lg_mode xi_c p a_0 w_0 tau z_foc l_0 cep xi r z).
Proof.
  intros Hw Hl.
  set (E := exp (- 2 * ln 2 * ((xi - xi_c) / (c_SI * tau)) ^ 2)).
  set (U := fun z => (xi - xi_c + z - z_foc) / zr w_0 l_0).
  set (k := fun z => / (w_0 ^ 2 * (1 + U z ^ 2))).
  set (B := fun z => a_0 * E / sqrt (1 + U z ^ 2)).
  set (f := fun z => - cep - (2 * INR p + 1) * atan (U z)).
  exists (fun r z => (Xr1 (Gm p) (Gm1 p) (B z) (k z) (f z) (U z) r, Xr1 (Gm p) (Gm1 p) (B z) (k z) (f z - PI / 2) (U z) r)).
  exists (fun r z => (Xr2 (Gm p) (Gm1 p) (Gm2 p) (B z) (k z) (f z) (U z) r,
                      Xr2 (Gm p) (Gm1 p) (Gm2 p) (B z) (k z) (f z - PI / 2) (U z) r)).
  exists (fun r z => (Yu1 (Gm p) (Gm1 p) (a_0 * E) (r ^ 2 / w_0 ^ 2) (- cep + PI / 2) (2 * INR p + 1) (U z) / zr w_0 l_0,
                      Yu1 (Gm p) (Gm1 p) (a_0 * E) (r ^ 2 / w_0 ^ 2) (- cep) (2 * INR p + 1) (U z) / zr w_0 l_0)).
  split; [|split; [|split]].
  - intros r z. split; cbn [fst snd].
    + apply is_derive_ext with (Xr (Gm p) (B z) (k z) (f z) (U z)).
      { intros t. rewrite mode_radial by assumption. reflexivity. }
      apply Xr_derive, Gm_derive.
    + apply is_derive_ext with (Xr (Gm p) (B z) (k z) (f z - PI / 2) (U z)).
      { intros t. rewrite mode_radial by assumption. reflexivity. }
      apply Xr_derive, Gm_derive.
  - intros r z. split; cbn [fst snd]; apply Xr1_derive; first [apply Gm_derive | apply Gm1_derive].
  - intros r z. split; cbn [fst snd].
    + apply is_derive_ext with (fun z => Yu (Gm p) (a_0 * E) (r ^ 2 / w_0 ^ 2) (- cep + PI / 2) (2 * INR p + 1) (U z)).
      { intros t. rewrite mode_axial by assumption. reflexivity. }
      apply (along_z xi_c w_0 z_foc l_0 xi Hw Hl). intros u. apply Yu_derive, Gm_derive.
    + apply is_derive_ext with (fun z => Yu (Gm p) (a_0 * E) (r ^ 2 / w_0 ^ 2) (- cep) (2 * INR p + 1) (U z)).
      { intros t. rewrite mode_axial by assumption. reflexivity. }
      apply (along_z xi_c w_0 z_foc l_0 xi Hw Hl). intros u. apply Yu_derive, Gm_derive.
  - intros r z Hr.
    pose proof (key p w_0 Hw (a_0 * E) r (- cep) (2 * INR p + 1) (U z) eq_refl Hr) as K1. cbv zeta in K1.
    pose proof (key p w_0 Hw (a_0 * E) r (- cep - PI / 2) (2 * INR p + 1) (U z) eq_refl Hr) as K2. cbv zeta in K2.
    replace (- cep - PI / 2 - (2 * INR p + 1) * atan (U z)) with (f z - PI / 2) in K2 by (unfold f; ring).
    fold (f z) in K1. fold (k z) in K1, K2. fold (B z) in K1, K2.
    assert (T : forall u, Yu1 (Gm p) (Gm1 p) (a_0 * E) (r ^ 2 / w_0 ^ 2) (- cep - PI / 2) (2 * INR p + 1) u
              = - Yu1 (Gm p) (Gm1 p) (a_0 * E) (r ^ 2 / w_0 ^ 2) (- cep + PI / 2) (2 * INR p + 1) u).
    { intros u. unfold Yu1. cbv zeta. set (y := r ^ 2 / w_0 ^ 2 / (1 + u ^ 2)).
      replace (- cep + PI / 2 - (2 * INR p + 1) * atan u + y * u)
        with (- cep - PI / 2 - (2 * INR p + 1) * atan u + y * u + PI) by field.
      rewrite neg_cos, neg_sin. ring. }
    rewrite T in K2.
    assert (Z : 4 / w_0 ^ 2 = 2 * (2 * PI / l_0) / zr w_0 l_0).
    { unfold zr. pose proof PI_RGT_0. field. repeat split; first [assumption | lra]. }
    rewrite Z in K1, K2.
    set (x1 := Xr2 _ _ _ _ _ (f z) _ _) in *. set (x2 := Xr2 _ _ _ _ _ (f z - PI / 2) _ _) in *.
    set (d1 := Xr1 _ _ _ _ (f z) _ _) in *. set (d2 := Xr1 _ _ _ _ (f z - PI / 2) _ _) in *.
    set (y1 := Yu1 _ _ _ _ (- cep) _ _) in *. set (y2 := Yu1 _ _ _ _ (- cep + PI / 2) _ _) in *.
    unfold Cdiv. rewrite <- RtoC_inv by exact Hr.
    unfold Cplus, Cmult, RtoC, Ci. cbn [fst snd]. f_equal; unfold Rdiv in *; lra.
Qed.

(** ** Sums *)
Lemma cderive_plus f g x a b : cderive f x a -> cderive g x b -> cderive (fun t => Cplus (f t) (g t)) x (Cplus a b).
Proof.
  intros (H1 & H2) (H3 & H4). split.
  - exact (is_derive_plus (V := R_NormedModule) _ _ _ _ _ H1 H3).
  - exact (is_derive_plus (V := R_NormedModule) _ _ _ _ _ H2 H4).
Qed.
Lemma paraxial_ext k f g : (forall r z, f r z = g r z) -> paraxial k f -> paraxial k g.
Proof.
  intros H (a & b & c & D1 & D2 & D3 & E). exists a, b, c. split; [|split; [|split]]; try assumption.
  - intros r z. destruct (D1 r z) as (X & Y). split; (eapply is_derive_ext; [|eassumption]); intros t; cbn beta; rewrite H; reflexivity.
  - intros r z. destruct (D3 r z) as (X & Y). split; (eapply is_derive_ext; [|eassumption]); intros t; cbn beta; rewrite H; reflexivity.
Qed.
Lemma paraxial_plus k f g : paraxial k f -> paraxial k g -> paraxial k (fun r z => Cplus (f r z) (g r z)).
Proof.
  intros (a & b & c & D1 & D2 & D3 & E) (a' & b' & c' & D1' & D2' & D3' & E').
  exists (fun r z => Cplus (a r z) (a' r z)), (fun r z => Cplus (b r z) (b' r z)), (fun r z => Cplus (c r z) (c' r z)).
  split; [|split; [|split]]; try (intros; apply cderive_plus; auto; fail).
  intros r z Hr. pose proof (E r z Hr) as X. pose proof (E' r z Hr) as X'.
  transitivity (Cplus (RtoC 0) (RtoC 0)); [|ring]. rewrite <- X at 1. rewrite <- X'. unfold Cdiv. ring.
Qed.
Lemma paraxial_0 k : paraxial k (fun _ _ => RtoC 0).
Proof.
  exists (fun _ _ => RtoC 0), (fun _ _ => RtoC 0), (fun _ _ => RtoC 0).
  assert (D : forall x, cderive (fun _ => RtoC 0) x (RtoC 0)).
  { intros x. split; cbn [fst snd RtoC]; apply (is_derive_const (V := R_NormedModule)). }
  split; [|split; [|split]]; try (intros; apply D). intros. unfold Cdiv. ring.
Qed.
Lemma paraxial_sum {A} k (f : A -> R -> R -> C) l : (forall a, In a l -> paraxial k (f a)) ->
  paraxial k (fun r z => csum (map (fun a => f a r z) l)).
Proof.
  induction l as [|a l IH]; intros H.
  - apply paraxial_0.
  - apply paraxial_ext with (fun r z => Cplus (f a r z) (csum (map (fun a => f a r z) l))); [reflexivity|].
    apply paraxial_plus; [apply H; left; reflexivity | apply IH; intros; apply H; right; assumption].
Qed.

(** ** Far field of the flattened pulse *)
Lemma sum_swap (h : nat -> nat -> R) N :
  sum_f_R0 (fun n => sum_f_R0 (fun i => h n (n + i)%nat) (N - n)) N
  = sum_f_R0 (fun m => sum_f_R0 (fun n => h n m) m) N.
Proof.
  induction N as [|N IH]; [reflexivity|].
  cbn [sum_f_R0]. rewrite <- IH, Nat.sub_diag. cbn [sum_f_R0]. rewrite Nat.add_0_r.
  rewrite (sum_eq (fun n => sum_f_R0 (fun i => h n (n + i)%nat) (S N - n))
             (fun n => sum_f_R0 (fun i => h n (n + i)%nat) (N - n) + h n (S N))).
  - rewrite sum_plus. ring.
  - intros n Hn. replace (S N - n)%nat with (S (N - n)) by lia. cbn [sum_f_R0].
    replace (n + S (N - n))%nat with (S N) by lia. reflexivity.
Qed.
Definition amplitude (a_0 : R) (N n : nat) : R :=
  a_0 / INR (N + 1) * sum_f_R0 (fun i => Binomial.C (n + i) n / 2 ^ (n + i)) (N - n).
Lemma far_sum a_0 N y : sum_f_R0 (fun n => (-1) ^ n * (amplitude a_0 N n * laguerre n (2 * y))) N
  = a_0 / INR (N + 1) * sum_f_R0 (fun m => y ^ m / INR (fact m)) N.
Proof.
  rewrite (sum_eq _ (fun n => sum_f_R0 (fun i => (fun n m => (-1) ^ n * Binomial.C m n * laguerre n (2 * y) / 2 ^ m) n (n + i)%nat) (N - n)
                              * (a_0 / INR (N + 1)))).
  - rewrite <- scal_sum. f_equal. rewrite (sum_swap (fun n m => (-1) ^ n * Binomial.C m n * laguerre n (2 * y) / 2 ^ m) N). apply sum_eq. intros m _.
    transitivity (alt (fun n => laguerre n (2 * y)) m * / 2 ^ m).
    + rewrite (Rmult_comm (alt _ _)). unfold alt. rewrite scal_sum. apply sum_eq. intros n _. unfold Rdiv. ring.
    + rewrite laguerre_inverse, Rpow_mult_distr. field. repeat split; first [apply INR_fact_neq_0 | apply pow_nonzero; lra].
  - intros n _. unfold amplitude. cbv beta.
    rewrite (sum_eq (fun i => (-1) ^ n * Binomial.C (n + i) n * laguerre n (2 * y) / 2 ^ (n + i))
               (fun i => Binomial.C (n + i) n / 2 ^ (n + i) * ((-1) ^ n * laguerre n (2 * y)))) by (intros; unfold Rdiv; ring).
    rewrite <- scal_sum. ring.
Qed.
(** Modulus of a sum of modes, at a multiple x of the spot size *)
Definition beat (b : nat -> R) (N : nat) (t : R) : R :=
  sqrt (sum_f_R0 (fun n => b n * cos (2 * INR n * t)) N ^ 2 + sum_f_R0 (fun n => b n * sin (2 * INR n * t)) N ^ 2).
Lemma polar_beat (b : nat -> R) c t N :
  Cmod (csum (map (fun n => polar (b n) (c - 2 * INR n * t)) (seq 0 (S N)))) = beat b N t.
Proof.
  rewrite csum_components. unfold Cmod, beat. cbn [fst snd polar]. f_equal.
  rewrite (sum_eq (fun n => b n * cos (c - 2 * INR n * t))
             (fun n => b n * cos (2 * INR n * t) * cos c + b n * sin (2 * INR n * t) * sin c))
    by (intros; rewrite cos_minus; ring).
  rewrite (sum_eq (fun n => b n * sin (c - 2 * INR n * t))
             (fun n => b n * cos (2 * INR n * t) * sin c - b n * sin (2 * INR n * t) * cos c))
    by (intros; rewrite sin_minus; ring).
  rewrite sum_plus, minus_sum, <- !scal_sum.
  set (p := sum_f_R0 (fun n => b n * cos (2 * INR n * t)) N). set (q := sum_f_R0 (fun n => b n * sin (2 * INR n * t)) N).
  transitivity ((p ^ 2 + q ^ 2) * (Rsqr (sin c) + Rsqr (cos c))); [unfold Rsqr; ring|]. rewrite sin2_cos2. ring.
Qed.
Lemma trig_sum_continuous (b : nat -> R) (g : R -> R) N t : (forall x, continuous g x) ->
  continuous (fun t => sum_f_R0 (fun n => b n * g (2 * INR n * t)) N) t.
Proof.
  intros Hg. assert (T : forall n, continuous (fun t => b n * g (2 * INR n * t)) t).
  { intros n. apply (continuous_mult (K := R_AbsRing)); [apply continuous_const|].
    apply (continuous_comp (fun t => 2 * INR n * t) g); [|apply Hg].
    apply (continuous_mult (K := R_AbsRing)); [apply continuous_const | apply continuous_id]. }
  induction N as [|N IH]; cbn [sum_f_R0]; [apply T|].
  apply (continuous_plus (V := R_NormedModule)); [exact IH | apply T].
Qed.
Lemma beat_continuous b N t : continuous (beat b N) t.
Proof.
  unfold beat. apply (continuous_comp (fun t => sum_f_R0 (fun n => b n * cos (2 * INR n * t)) N ^ 2
    + sum_f_R0 (fun n => b n * sin (2 * INR n * t)) N ^ 2) sqrt); [|apply continuous_sqrt].
  assert (Sq : forall h : R -> R, continuous h t -> continuous (fun t => h t ^ 2) t).
  { intros h Hh. apply continuous_ext with (fun t : R => (h t * h t)%R); [intros; inR; ring|].
    apply (continuous_mult (K := R_AbsRing)); exact Hh. }
  apply (continuous_plus (V := R_NormedModule)).
  - apply (Sq (fun t => sum_f_R0 (fun n => b n * cos (2 * INR n * t)) N)), trig_sum_continuous. apply continuous_cos.
  - apply (Sq (fun t => sum_f_R0 (fun n => b n * sin (2 * INR n * t)) N)), trig_sum_continuous. apply continuous_sin.
Qed.
Lemma cos_nPI n : cos (INR n * PI) = (-1) ^ n.
Proof.
  induction n as [|n IH]; [cbn [INR pow]; rewrite Rmult_0_l; apply cos_0|].
  rewrite S_INR, Rmult_plus_distr_r, Rmult_1_l, neg_cos, IH. cbn [pow]. ring.
Qed.
Lemma sin_nPI n : sin (INR n * PI) = 0.
Proof.
  induction n as [|n IH]; [cbn [INR]; rewrite Rmult_0_l; apply sin_0|].
  rewrite S_INR, Rmult_plus_distr_r, Rmult_1_l, neg_sin, IH. ring.
Qed.
Lemma beat_edge b N s : (s = 1 \/ s = -1) -> beat b N (s * (PI / 2)) = Rabs (sum_f_R0 (fun n => (-1) ^ n * b n) N).
Proof.
  intros H. unfold beat.
  assert (Cn : forall n, cos (2 * INR n * (s * (PI / 2))) = (-1) ^ n).
  { intros n. destruct H as [->| ->].
    - replace (2 * INR n * (1 * (PI / 2))) with (INR n * PI) by field. apply cos_nPI.
    - replace (2 * INR n * (-1 * (PI / 2))) with (- (INR n * PI)) by field. rewrite cos_neg. apply cos_nPI. }
  assert (Sn : forall n, sin (2 * INR n * (s * (PI / 2))) = 0).
  { intros n. destruct H as [->| ->].
    - replace (2 * INR n * (1 * (PI / 2))) with (INR n * PI) by field. apply sin_nPI.
    - replace (2 * INR n * (-1 * (PI / 2))) with (- (INR n * PI)) by field. rewrite sin_neg, sin_nPI. ring. }
  rewrite (sum_eq (fun n => b n * cos _) (fun n => (-1) ^ n * b n)) by (intros; rewrite Cn; ring).
  rewrite (sum_eq (fun n => b n * sin _) (fun _ => 0)) by (intros; rewrite Sn; ring).
  rewrite sum_cte. replace (0 * INR (S N)) with 0 by ring.
  replace (0 ^ 2) with 0 by ring. rewrite Rplus_0_r, <- Rsqr_pow2. apply sqrt_Rsqr_abs.
Qed.
Lemma atan_p : is_lim atan p_infty (PI / 2).
Proof.
  apply is_lim_spec. intros eps. pose proof PI_RGT_0. pose proof (cond_pos eps).
  set (e := Rmin eps (PI / 4)).
  assert (He : 0 < e <= PI / 4) by (unfold e; split; [apply Rmin_glb_lt; lra | apply Rmin_r]).
  assert (e <= eps) by (unfold e; apply Rmin_l).
  exists (tan (PI / 2 - e)). intros x Hx. pose proof (atan_bound x).
  apply atan_increasing in Hx. rewrite atan_tan in Hx by lra.
  apply Rabs_def1; lra.
Qed.
Lemma atan_m : is_lim atan m_infty (- PI / 2).
Proof.
  replace (- PI / 2) with (- (PI / 2)) by field.
  apply is_lim_ext with (fun x => - atan (- x)); [intros; rewrite atan_opp; ring|].
  apply (is_lim_opp (fun x => atan (- x)) m_infty (PI / 2)).
  apply (is_lim_comp atan (fun x => - x) m_infty _ p_infty).
  - apply atan_p.
  - apply (is_lim_opp (fun x => x) m_infty m_infty), is_lim_id.
  - exists 0. discriminate.
Qed.
Lemma flattened_modulus xi_c a_0 w_0 tau N z_foc l_0 cep pol xi x z p : 0 < w_0 -> tau <> 0 ->
  FlattenedGaussianPulse xi_c a_0 w_0 tau N z_foc l_0 cep pol = Some p ->
  let W := w_0 * sqrt (INR (N + 1)) in let w := spot_size W l_0 z_foc (xi - xi_c + z) in
  Cmod (f_env p xi (x * w) z) * (w / W)
  = exp (- x ^ 2) * exp (- 2 * ln 2 * ((xi - xi_c) / (c_SI * tau)) ^ 2)
    * beat (fun n => amplitude a_0 N n * laguerre n (2 * x ^ 2)) N (atan ((xi - xi_c + z - z_foc) / zr W l_0)).
Proof.
  intros Hw Ht Hp W w.
  destruct (flattened_modes xi_c a_0 w_0 tau N z_foc l_0 cep pol ltac:(lra) Ht) as (p' & Hp' & F).
  rewrite Hp in Hp'. injection Hp' as <-.
  rewrite F. fold W. set (u := (xi - xi_c + z - z_foc) / zr W l_0).
  assert (PW : 0 < W).
  { unfold W. apply Rmult_lt_0_compat; [exact Hw|]. apply sqrt_lt_R0. apply lt_0_INR. lia. }
  pose proof (sqrt_1u_pos u) as Hs.
  assert (Ew : w = W * sqrt (1 + u ^ 2)) by reflexivity.
  set (q := sqrt (1 + u ^ 2)) in *.
  set (E := exp (- 2 * ln 2 * ((xi - xi_c) / (c_SI * tau)) ^ 2)).
  set (b := fun n => amplitude a_0 N n * laguerre n (2 * x ^ 2)).
  set (g := / q * exp (- x ^ 2) * E).
  replace (N + 1)%nat with (S N) by lia.
  rewrite (map_ext _ (fun n => polar (g * b n) ((- cep - atan u + x ^ 2 * u) - 2 * INR n * atan u))).
  - rewrite polar_beat.
    assert (Pg : 0 < g).
    { unfold g, E. apply Rmult_lt_0_compat; [|apply exp_pos]. apply Rmult_lt_0_compat; [|apply exp_pos].
      apply Rinv_0_lt_compat. exact Hs. }
    assert (Bs : beat (fun n => g * b n) N (atan u) = g * beat b N (atan u)).
    { unfold beat.
      rewrite (sum_eq (fun n => g * b n * cos (2 * INR n * atan u)) (fun n => b n * cos (2 * INR n * atan u) * g)) by (intros; ring).
      rewrite (sum_eq (fun n => g * b n * sin (2 * INR n * atan u)) (fun n => b n * sin (2 * INR n * atan u) * g)) by (intros; ring).
      rewrite <- !scal_sum. rewrite <- (sqrt_pow2 g) at 3 by lra. rewrite <- sqrt_mult.
      - f_equal. ring.
      - apply pow2_ge_0.
      - apply Rplus_le_le_0_compat; apply pow2_ge_0. }
    rewrite Bs. unfold g. rewrite Ew. field. split; lra.
  - intros n. unfold lg_mode. cbv zeta. change ((xi - xi_c + z - z_foc) / (PI * W ^ 2 / l_0)) with u.
    fold q. rewrite <- Ew. fold E.
    assert (Hw0 : w <> 0) by (rewrite Ew; apply Rgt_not_eq, Rmult_lt_0_compat; assumption).
    replace (x * w / w) with x by (field; exact Hw0).
    replace (2 * (x * w) ^ 2 / w ^ 2) with (2 * x ^ 2) by (field; exact Hw0).
    unfold g, b. fold (amplitude a_0 N n). f_equal; [|ring].
    replace (S N) with (N + 1)%nat by lia. fold (amplitude a_0 N n).
    replace (W / w) with (/ q) by (rewrite Ew; field; split; lra). ring.
Qed.
Lemma far_field xi_c a_0 w_0 tau N z_foc l_0 cep pol p : 0 < w_0 -> tau <> 0 -> 0 < l_0 ->
  FlattenedGaussianPulse xi_c a_0 w_0 tau N z_foc l_0 cep pol = Some p ->
  forall xi x side, side = p_infty \/ side = m_infty ->
  let W := w_0 * sqrt (INR (N + 1)) in
  is_lim (fun z => let w := spot_size W l_0 z_foc (xi - xi_c + z) in Cmod (f_env p xi (x * w) z) * (w / W)) side
    (Rabs a_0 / INR (N + 1) * flattened_gaussian N x * exp (- 2 * ln 2 * ((xi - xi_c) / (c_SI * tau)) ^ 2)).
Proof.
  intros Hw Ht Hl Hp xi x side Hside W.
  set (b := fun n => amplitude a_0 N n * laguerre n (2 * x ^ 2)).
  set (E := exp (- 2 * ln 2 * ((xi - xi_c) / (c_SI * tau)) ^ 2)).
  apply is_lim_ext with (fun z => exp (- x ^ 2) * E * beat b N (atan ((xi - xi_c + z - z_foc) / zr W l_0))).
  { intros z. symmetry. apply (flattened_modulus xi_c a_0 w_0 tau N z_foc l_0 cep pol xi x z p Hw Ht Hp). }
  assert (HN : 0 < INR (N + 1)) by (apply lt_0_INR; lia).
  assert (PW : 0 < W) by (unfold W; apply Rmult_lt_0_compat; [exact Hw | apply sqrt_lt_R0; exact HN]).
  assert (Pz : 0 < zr W l_0).
  { unfold zr. pose proof PI_RGT_0. apply Rdiv_lt_0_compat; [|exact Hl]. apply Rmult_lt_0_compat; [lra|]. apply pow_lt. exact PW. }
  assert (Lu : is_lim (fun z => (xi - xi_c + z - z_foc) / zr W l_0) side side).
  { apply is_lim_ext with (fun z => / zr W l_0 * z + (xi - xi_c - z_foc) / zr W l_0).
    { intros z. unfold Rdiv. ring. }
    assert (Pi : 0 < / zr W l_0) by (apply Rinv_0_lt_compat; exact Pz).
    assert (Mx : Rbar_mult (/ zr W l_0) side = side).
    { destruct Hside as [-> | ->]; unfold Rbar_mult, Rbar_mult'; destruct (Rle_dec 0 (/ zr W l_0)) as [Q1|Q1]; try lra;
        destruct (Rle_lt_or_eq_dec 0 (/ zr W l_0) Q1); try lra; reflexivity. }
    apply (is_lim_plus (fun z => / zr W l_0 * z) (fun _ => (xi - xi_c - z_foc) / zr W l_0) side side ((xi - xi_c - z_foc) / zr W l_0) side).
    - rewrite <- Mx at 2. apply is_lim_scal_l, is_lim_id.
    - apply is_lim_const.
    - destruct Hside as [-> | ->]; reflexivity. }
  assert (exists s, (s = 1 \/ s = -1) /\ is_lim (fun z => atan ((xi - xi_c + z - z_foc) / zr W l_0)) side (s * (PI / 2))) as (s & Hs & La).
  { destruct Hside as [-> | ->].
    - exists 1. split; [left; reflexivity|]. rewrite Rmult_1_l.
      apply (is_lim_comp atan _ p_infty _ p_infty); [apply atan_p | exact Lu | exists 0; discriminate].
    - exists (-1). split; [right; reflexivity|]. replace (-1 * (PI / 2)) with (- PI / 2) by field.
      apply (is_lim_comp atan _ m_infty _ m_infty); [apply atan_m | exact Lu | exists 0; discriminate]. }
  evar_last.
  - apply is_lim_scal_l, (is_lim_comp_continuous _ (beat b N) side _ La), beat_continuous.
  - rewrite beat_edge by exact Hs. unfold b. rewrite far_sum. apply (f_equal Finite). unfold flattened_gaussian.
    rewrite Rabs_mult, (Rabs_pos_eq (sum_f_R0 _ _)).
    + unfold Rdiv. rewrite Rabs_mult, Rabs_inv, (Rabs_pos_eq (INR (N + 1))) by lra. ring.
    + apply cond_pos_sum. intros n. apply Rmult_le_pos; [apply pow_le, pow2_ge_0|]. apply Rlt_le, Rinv_0_lt_compat, INR_fact_lt_0.
Qed.
