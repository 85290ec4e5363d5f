(** The roundings of the model are those of IEEE 754 as formalised in Flocq. *)
From Coq Require Import QArith Qround Qreals Reals ZArith Lia Lqa Lra.
From Flocq Require Import Core.
From Verif Require Import Model_Float32 Proofs_Float32 Model_CSR Proofs_Float64.
Open Scope R_scope.

Lemma pow2_bpow e : Q2R (pow2 e) = bpow radix2 e.
Proof.
  assert (S1 : forall e, Q2R (pow2 (Z.succ e)) = 2 * Q2R (pow2 e)).
  { intros k. replace (Z.succ k) with (1 + k)%Z by lia.
    rewrite (Qeq_eqR _ _ (pow2_plus 1 k)), Q2R_mult. f_equal. unfold Q2R, pow2. cbn. lra. }
  assert (S2 : forall e, bpow radix2 (Z.succ e) = 2 * bpow radix2 e).
  { intros k. replace (Z.succ k) with (1 + k)%Z by lia. rewrite bpow_plus. reflexivity. }
  induction e using Z.peano_ind.
  - unfold Q2R, pow2. cbn. lra.
  - rewrite S1, S2, IHe. reflexivity.
  - pose proof (S1 (Z.pred e)) as A. pose proof (S2 (Z.pred e)) as B.
    rewrite Z.succ_pred in A, B. lra.
Qed.
Lemma Q2R_floor q : Zfloor (Q2R q) = Qfloor q.
Proof.
  apply Zfloor_imp.
  pose proof (Qfloor_le q) as A. pose proof (Qlt_floor q) as B.
  apply Qle_Rle in A. apply Qlt_Rlt in B.
  assert (I : forall z, Q2R (inject_Z z) = IZR z) by (intros z; unfold Q2R, inject_Z; cbn; lra).
  rewrite I in A, B. split; assumption.
Qed.
Lemma inject_IZR z : Q2R (inject_Z z) = IZR z.
Proof. unfold Q2R, inject_Z; cbn; lra. Qed.
Lemma half_Q2R : Q2R (1 # 2) = / 2.
Proof. unfold Q2R. cbn. lra. Qed.
Lemma nearest_ZnearestE q : nearest_even q = ZnearestE (Q2R q).
Proof.
  unfold nearest_even, Znearest. rewrite Q2R_floor. cbv zeta.
  assert (E : Q2R q - IZR (Qfloor q) = Q2R (q - inject_Z (Qfloor q))) by (rewrite Q2R_minus, inject_IZR; reflexivity).
  rewrite E.
  assert (C : Q2R (q - inject_Z (Qfloor q)) <> 0 -> Zceil (Q2R q) = (Qfloor q + 1)%Z).
  { intros H. rewrite Zceil_floor_neq, Q2R_floor; [reflexivity|]. rewrite Q2R_floor. intros H'. apply H. rewrite <- E. lra. }
  destruct (Qle_bool (1 # 2) (q - inject_Z (Qfloor q))) eqn:A.
  - apply Qle_bool_iff, Qle_Rle in A. rewrite half_Q2R in A.
    destruct (Qle_bool (q - inject_Z (Qfloor q)) (1 # 2)) eqn:B.
    + apply Qle_bool_iff, Qle_Rle in B. rewrite half_Q2R in B.
      rewrite Rcompare_Eq by lra. rewrite C by lra. destruct (Z.even (Qfloor q)); reflexivity.
    + assert (B' : ~ (q - inject_Z (Qfloor q) <= 1 # 2)%Q) by (intros H; apply Qle_bool_iff in H; congruence).
      apply Qnot_le_lt, Qlt_Rlt in B'. rewrite half_Q2R in B'. rewrite Rcompare_Gt by lra. rewrite C by lra. reflexivity.
  - assert (A' : ~ (1 # 2 <= q - inject_Z (Qfloor q))%Q) by (intros H; apply Qle_bool_iff in H; congruence).
    apply Qnot_le_lt, Qlt_Rlt in A'. rewrite half_Q2R in A'. rewrite Rcompare_Lt by lra. reflexivity.
Qed.
Lemma expo_mag x : (0 < x)%Q -> (mag radix2 (Q2R x) : Z) = (expo x + 1)%Z.
Proof.
  intros Hx. pose proof (expo_spec x Hx) as [A B].
  apply Qle_Rle in A. apply Qlt_Rlt in B. rewrite pow2_bpow in A, B.
  apply mag_unique. rewrite Rabs_pos_eq; [|pose proof (bpow_gt_0 radix2 (expo x)); lra].
  replace (expo x + 1 - 1)%Z with (expo x) by lia. split; assumption.
Qed.
Lemma round_pos (emin prec : Z) (x : Q) : (0 < x)%Q ->
  let u := pow2 (Z.max (expo x) (emin + prec - 1) - (prec - 1)) in
  Q2R (inject_Z (nearest_even (x / u)) * u) = round radix2 (FLT_exp emin prec) ZnearestE (Q2R x).
Proof.
  intros Hx u. unfold round, F2R, scaled_mantissa, cexp. cbn [Fnum Fexp].
  rewrite (expo_mag x Hx). unfold FLT_exp.
  replace (Z.max (expo x + 1 - prec) emin) with (Z.max (expo x) (emin + prec - 1) - (prec - 1))%Z by lia.
  rewrite Q2R_mult, inject_IZR, nearest_ZnearestE. unfold u. rewrite pow2_bpow. f_equal. f_equal. f_equal.
  rewrite Q2R_div; [|pose proof (pow2_pos (Z.max (expo x) (emin + prec - 1) - (prec - 1))); Lqa.lra].
  rewrite pow2_bpow, bpow_opp. reflexivity.
Qed.
Lemma round_all (emin prec : Z) (f fp : Q -> Q) : (0 < prec)%Z ->
  (forall x, f x = if Qle_bool x 0 then (if Qle_bool 0 x then 0 else - fp (- x))%Q else fp x) ->
  (forall x, (0 < x)%Q -> Q2R (fp x) = round radix2 (FLT_exp emin prec) ZnearestE (Q2R x)) ->
  forall x, Q2R (f x) = round radix2 (FLT_exp emin prec) ZnearestE (Q2R x).
Proof.
  intros Hp Hf Hfp x. rewrite Hf.
  assert (N : forall a b, Qle_bool a b = false -> (b < a)%Q).
  { intros a b E. apply Qnot_le_lt. intros H. apply Qle_bool_iff in H. congruence. }
  destruct (Qle_bool x 0) eqn:A; [destruct (Qle_bool 0 x) eqn:B|].
  - apply Qle_bool_iff in A, B. assert (E : (x == 0)%Q) by Lqa.lra.
    rewrite (Qeq_eqR x 0 E). replace (Q2R 0) with 0 by (unfold Q2R; cbn; lra).
    symmetry. apply round_0. apply valid_rnd_N.
  - apply N in B. rewrite Q2R_opp, Hfp by Lqa.lra. rewrite Q2R_opp.
    assert (V : Valid_exp (FLT_exp emin prec)) by (apply FLT_exp_valid; exact Hp).
    rewrite round_NE_opp. ring.
  - apply N in A. apply Hfp, A.
Qed.
