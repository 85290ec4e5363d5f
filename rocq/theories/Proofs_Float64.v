(** Facts about IEEE 754 binary64, as Proofs_Float32 has them for binary32. *)
From Coq Require Import QArith Qround Qpower ZArith Lia Lqa.
From Verif Require Import Model_Float32 Proofs_Float32 Spec_Tracker.
From Verif Require Import Model_CSR.
Open Scope Q_scope.

Lemma ulp64_pos x : 0 < ulp64 x.
Proof. apply pow2_pos. Qed.
Lemma f64_pos_nonneg x : 0 <= x -> 0 <= f64_pos x.
Proof.
  intros H. unfold f64_pos. pose proof (ulp64_pos x) as Hu.
  apply Qmult_le_0_compat; [|lra]. change 0 with (inject_Z 0). rewrite <- Zle_Qle.
  apply nearest_nonneg. apply Qle_shift_div_l; [assumption|lra].
Qed.
Lemma f64_pos_mono x y : 0 < x -> x <= y -> f64_pos x <= f64_pos y.
Proof.
  intros Hx Hxy. pose proof (expo_mono x y Hx Hxy) as He.
  pose proof (expo_spec x Hx) as [A1 A2].
  pose proof (expo_spec y ltac:(lra)) as [B1 B2].
  unfold f64_pos, ulp64.
  set (gx := Z.max (expo x) (-1022)). set (gy := Z.max (expo y) (-1022)).
  destruct (Z.eq_dec gx gy) as [E|E].
  - rewrite E. pose proof (pow2_pos (gy - 52)) as Hu.
    apply Qmult_le_compat_r; [|lra]. rewrite <- Zle_Qle. apply nearest_mono.
    unfold Qdiv. apply Qmult_le_compat_r; [assumption|].
    apply Qlt_le_weak, Qinv_lt_0_compat. assumption.
  - assert (Hg : (gx + 1 <= gy)%Z) by lia. assert (Ey : gy = expo y) by lia.
    pose proof (pow2_pos (gx - 52)) as Hu. pose proof (pow2_pos (gy - 52)) as Hv.
    apply Qle_trans with (pow2 (gx + 1)).
    + replace (gx + 1)%Z with (53 + (gx - 52))%Z by lia. rewrite (pow2_plus 53).
      apply Qmult_le_compat_r; [|lra]. apply round_below; [lia|].
      apply Qle_shift_div_r; [assumption|]. rewrite <- pow2_plus.
      replace (53 + (gx - 52))%Z with (gx + 1)%Z by lia.
      apply Qlt_le_weak. apply Qlt_le_trans with (pow2 (expo x + 1)); [assumption|].
      apply pow2_le. lia.
    + apply Qle_trans with (pow2 gy); [apply pow2_le; assumption|].
      replace gy with (52 + (gy - 52))%Z at 1 by lia. rewrite (pow2_plus 52).
      apply Qmult_le_compat_r; [|lra]. apply round_above; [lia|].
      apply Qle_shift_div_l; [assumption|]. rewrite <- pow2_plus.
      replace (52 + (gy - 52))%Z with gy by lia. rewrite Ey. assumption.
Qed.

Lemma f64_mono : monotone f64.
Proof.
  intros x y H. unfold f64.
  destruct (Qle_bool x 0) eqn:Ex.
  - apply Qle_bool_iff in Ex.
    destruct (Qle_bool 0 x) eqn:Ex'.
    + apply Qle_bool_iff in Ex'.
      destruct (Qle_bool y 0) eqn:Ey.
      * apply Qle_bool_iff in Ey. replace (Qle_bool 0 y) with true; [lra|].
        symmetry. apply Qle_bool_iff. lra.
      * apply f64_pos_nonneg. lra.
    + assert (x < 0).
      { apply Qnot_le_lt. intros Hle. apply Qle_bool_iff in Hle. congruence. }
      destruct (Qle_bool y 0) eqn:Ey.
      * apply Qle_bool_iff in Ey. destruct (Qle_bool 0 y) eqn:Ey'.
        -- pose proof (f64_pos_nonneg (- x) ltac:(lra)). lra.
        -- assert (y < 0).
           { apply Qnot_le_lt. intros Hle. apply Qle_bool_iff in Hle. congruence. }
           pose proof (f64_pos_mono (- y) (- x) ltac:(lra) ltac:(lra)). lra.
      * assert (0 < y).
        { apply Qnot_le_lt. intros Hle. apply Qle_bool_iff in Hle. congruence. }
        pose proof (f64_pos_nonneg (- x) ltac:(lra)).
        pose proof (f64_pos_nonneg y ltac:(lra)). lra.
  - assert (0 < x).
    { apply Qnot_le_lt. intros Hle. apply Qle_bool_iff in Hle. congruence. }
    replace (Qle_bool y 0) with false; [apply f64_pos_mono; assumption|].
    symmetry. destruct (Qle_bool y 0) eqn:Ey; [|reflexivity].
    apply Qle_bool_iff in Ey. lra.
Qed.

(** Rounding is within half a spacing. *)
Lemma f64_error x : 0 < x -> x - ulp64 x / 2 <= f64 x <= x + ulp64 x / 2.
Proof.
  intros Hx. unfold f64. replace (Qle_bool x 0) with false.
  2:{ symmetry. destruct (Qle_bool x 0) eqn:Ey; [|reflexivity].
      apply Qle_bool_iff in Ey. lra. }
  unfold f64_pos. pose proof (ulp64_pos x) as Hu.
  pose proof (nearest_bounds (x / ulp64 x)) as [H1 H2].
  set (n := inject_Z (nearest_even (x / ulp64 x))) in *.
  assert (E : x == x / ulp64 x * ulp64 x) by (field; lra).
  set (q := x / ulp64 x) in *. set (u := ulp64 x) in *.
  assert (Eh : u / 2 == (1#2) * u) by field. rewrite Eh.
  split; rewrite E at 1; nra.
Qed.

