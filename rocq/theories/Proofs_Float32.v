(** Facts about binary32 rounding (Model_Float32). *)
From Coq Require Import QArith Qround Qpower ZArith Lia Lqa Bool.
From Verif Require Import Model_Float32 Spec_Tracker.
Open Scope Q_scope.

Lemma pow2_pos e : 0 < pow2 e.
Proof. apply Qpower_0_lt. reflexivity. Qed.
Lemma pow2_plus a b : pow2 (a + b) == pow2 a * pow2 b.
Proof. apply Qpower_plus. intros H; discriminate H. Qed.
Lemma pow2_S a : pow2 (a + 1) == 2 * pow2 a.
Proof. rewrite pow2_plus. change (pow2 1) with (2#1). ring. Qed.
Lemma pow2_Z n : (0 <= n)%Z -> pow2 n == inject_Z (2 ^ n).
Proof. intros H. unfold pow2. rewrite Zpower_Qpower by assumption. reflexivity. Qed.
Lemma pow2_ge1 n : (0 <= n)%Z -> 1 <= pow2 n.
Proof.
  intros H. rewrite pow2_Z by assumption. change 1 with (inject_Z 1).
  rewrite <- Zle_Qle. assert (0 < 2 ^ n)%Z by (apply Z.pow_pos_nonneg; lia). lia.
Qed.
Lemma pow2_le a b : (a <= b)%Z -> pow2 a <= pow2 b.
Proof.
  intros H. replace b with (a + (b - a))%Z by lia. rewrite pow2_plus.
  pose proof (pow2_ge1 (b - a) ltac:(lia)). pose proof (pow2_pos a). nra.
Qed.
Lemma pow2_lt_inv a b : pow2 a < pow2 b -> (a < b)%Z.
Proof.
  intros H. destruct (Z_lt_le_dec a b) as [|Hle]; [assumption|].
  apply pow2_le in Hle. lra.
Qed.

Lemma expo_spec x : 0 < x -> pow2 (expo x) <= x /\ x < pow2 (expo x + 1).
Proof.
  intros Hx. destruct x as [n d]. assert (Hn : (0 < n)%Z).
  { unfold Qlt in Hx. simpl in Hx. lia. }
  unfold expo. cbn [Qnum Qden].
  pose proof (Z.log2_spec n Hn) as [A1 A2].
  pose proof (Z.log2_spec (Zpos d) ltac:(lia)) as [B1 B2].
  pose proof (Z.log2_nonneg n) as A0. pose proof (Z.log2_nonneg (Zpos d)) as B0.
  set (a := Z.log2 n) in *. set (b := Z.log2 (Zpos d)) in *.
  assert (Ex : n # d == inject_Z n / inject_Z (Zpos d)).
  { rewrite (Qmake_Qdiv n d). reflexivity. }
  rewrite Zle_Qle in A1. rewrite Zlt_Qlt in A2. rewrite Zle_Qle in B1. rewrite Zlt_Qlt in B2.
  rewrite <- pow2_Z in A1, B1 by lia.
  assert (A2' : inject_Z n < pow2 (a + 1)) by (rewrite pow2_Z by lia; exact A2).
  assert (B2' : inject_Z (Zpos d) < pow2 (b + 1)) by (rewrite pow2_Z by lia; exact B2).
  assert (Hd : 0 < inject_Z (Zpos d)) by (change 0 with (inject_Z 0); rewrite <- Zlt_Qlt; lia).
  assert (U : n # d < pow2 (a - b + 1)).
  { rewrite Ex. apply Qlt_shift_div_r; [assumption|].
    apply Qlt_le_trans with (pow2 (a + 1)); [assumption|].
    replace (a + 1)%Z with ((a - b + 1) + b)%Z by lia. rewrite pow2_plus.
    pose proof (pow2_pos (a - b + 1)). nra. }
  assert (L : pow2 (a - b - 1) <= n # d).
  { rewrite Ex. apply Qle_shift_div_l; [assumption|].
    apply Qle_trans with (pow2 a); [|assumption].
    replace a with ((a - b - 1) + (b + 1))%Z at 2 by lia. rewrite pow2_plus.
    pose proof (pow2_pos (a - b - 1)). nra. }
  destruct (Qle_bool (pow2 (a - b)) (n # d)) eqn:E.
  - apply Qle_bool_iff in E. split; assumption.
  - split; [assumption|]. replace (a - b - 1 + 1)%Z with (a - b)%Z by lia.
    apply Qnot_le_lt. intros Hle. apply Qle_bool_iff in Hle. congruence.
Qed.

Lemma expo_mono x y : 0 < x -> x <= y -> (expo x <= expo y)%Z.
Proof.
  intros Hx Hxy. destruct (expo_spec x Hx) as [A1 A2].
  destruct (expo_spec y ltac:(lra)) as [B1 B2].
  assert (H : pow2 (expo x) < pow2 (expo y + 1)) by lra.
  apply pow2_lt_inv in H. lia.
Qed.

Lemma nearest_bounds q : inject_Z (nearest_even q) - (1#2) <= q <= inject_Z (nearest_even q) + (1#2).
Proof.
  unfold nearest_even. pose proof (Qfloor_le q) as H1. pose proof (Qlt_floor q) as H2.
  rewrite inject_Z_plus in H2. change (inject_Z 1) with 1 in H2.
  destruct (Qle_bool (1 # 2) (q - inject_Z (Qfloor q))) eqn:E1.
  - apply Qle_bool_iff in E1.
    destruct (Qle_bool (q - inject_Z (Qfloor q)) (1#2)) eqn:E2.
    + apply Qle_bool_iff in E2. destruct (Z.even _); [|rewrite inject_Z_plus; change (inject_Z 1) with 1]; lra.
    + rewrite inject_Z_plus. change (inject_Z 1) with 1. lra.
  - assert (q - inject_Z (Qfloor q) < 1#2).
    { apply Qnot_le_lt. intros Hle. apply Qle_bool_iff in Hle. congruence. }
    lra.
Qed.
Lemma nearest_Z z : nearest_even (inject_Z z) = z.
Proof.
  unfold nearest_even. rewrite Qfloor_Z.
  destruct (Qle_bool (1 # 2) (inject_Z z - inject_Z z)) eqn:E1; [|reflexivity].
  apply Qle_bool_iff in E1. lra.
Qed.
Lemma nearest_mono p q : p <= q -> (nearest_even p <= nearest_even q)%Z.
Proof.
  intros H. pose proof (Qfloor_resp_le _ _ H) as Hf.
  unfold nearest_even. pose proof (Qfloor_le p) as H1. pose proof (Qfloor_le q) as H2.
  destruct (Z.eq_dec (Qfloor p) (Qfloor q)) as [E|E].
  - rewrite <- E.
    destruct (Qle_bool (1 # 2) (p - inject_Z (Qfloor p))) eqn:E1;
    destruct (Qle_bool (1 # 2) (q - inject_Z (Qfloor p))) eqn:E2;
    destruct (Qle_bool (p - inject_Z (Qfloor p)) (1#2)) eqn:E3;
    destruct (Qle_bool (q - inject_Z (Qfloor p)) (1#2)) eqn:E4;
    destruct (Z.even (Qfloor p)); try lia;
    exfalso;
    repeat match goal with
    | H : Qle_bool ?a ?b = true |- _ => apply Qle_bool_iff in H
    | H : Qle_bool ?a ?b = false |- _ =>
        assert (b < a) by (apply Qnot_le_lt; intros Hle; apply Qle_bool_iff in Hle; congruence);
        clear H
    end; lra.
  - destruct (Qle_bool (1 # 2) (p - inject_Z (Qfloor p)));
    destruct (Qle_bool (1 # 2) (q - inject_Z (Qfloor q)));
    destruct (Qle_bool (p - inject_Z (Qfloor p)) (1#2));
    destruct (Qle_bool (q - inject_Z (Qfloor q)) (1#2));
    destruct (Z.even (Qfloor p)); destruct (Z.even (Qfloor q)); lia.
Qed.

Lemma ulp_pos x : 0 < ulp32 x.
Proof. apply pow2_pos. Qed.
Lemma nearest_nonneg q : 0 <= q -> (0 <= nearest_even q)%Z.
Proof.
  intros H. rewrite <- (nearest_Z 0). apply nearest_mono. exact H.
Qed.
Lemma f32_pos_nonneg x : 0 <= x -> 0 <= f32_pos x.
Proof.
  intros H. unfold f32_pos. pose proof (ulp_pos x) as Hu.
  apply Qmult_le_0_compat; [|lra]. change 0 with (inject_Z 0). rewrite <- Zle_Qle.
  apply nearest_nonneg. apply Qle_shift_div_l; [assumption|lra].
Qed.
(** A power of two of the grid is an upper / lower bound that rounding respects. *)
Lemma round_below q e : (0 <= e)%Z -> q <= pow2 e -> inject_Z (nearest_even q) <= pow2 e.
Proof.
  intros He H. rewrite pow2_Z in * by assumption. rewrite <- Zle_Qle.
  rewrite <- (nearest_Z (2 ^ e)). apply nearest_mono. assumption.
Qed.
Lemma round_above q e : (0 <= e)%Z -> pow2 e <= q -> pow2 e <= inject_Z (nearest_even q).
Proof.
  intros He H. rewrite pow2_Z in * by assumption. rewrite <- Zle_Qle.
  rewrite <- (nearest_Z (2 ^ e)). apply nearest_mono. assumption.
Qed.

Lemma f32_pos_mono x y : 0 < x -> x <= y -> f32_pos x <= f32_pos y.
Proof.
  intros Hx Hxy. pose proof (expo_mono x y Hx Hxy) as He.
  pose proof (expo_spec x Hx) as [A1 A2].
  pose proof (expo_spec y ltac:(lra)) as [B1 B2].
  unfold f32_pos, ulp32.
  set (gx := Z.max (expo x) (-126)). set (gy := Z.max (expo y) (-126)).
  destruct (Z.eq_dec gx gy) as [E|E].
  - rewrite E. pose proof (pow2_pos (gy - 23)) as Hu.
    apply Qmult_le_compat_r; [|lra]. rewrite <- Zle_Qle. apply nearest_mono.
    unfold Qdiv. apply Qmult_le_compat_r; [assumption|].
    apply Qlt_le_weak, Qinv_lt_0_compat. assumption.
  - assert (Hg : (gx + 1 <= gy)%Z) by lia. assert (Ey : gy = expo y) by lia.
    pose proof (pow2_pos (gx - 23)) as Hu. pose proof (pow2_pos (gy - 23)) as Hv.
    apply Qle_trans with (pow2 (gx + 1)).
    + replace (gx + 1)%Z with (24 + (gx - 23))%Z by lia. rewrite (pow2_plus 24).
      apply Qmult_le_compat_r; [|lra]. apply round_below; [lia|].
      apply Qle_shift_div_r; [assumption|]. rewrite <- pow2_plus.
      replace (24 + (gx - 23))%Z with (gx + 1)%Z by lia.
      apply Qlt_le_weak. apply Qlt_le_trans with (pow2 (expo x + 1)); [assumption|].
      apply pow2_le. lia.
    + apply Qle_trans with (pow2 gy); [apply pow2_le; assumption|].
      replace gy with (23 + (gy - 23))%Z at 1 by lia. rewrite (pow2_plus 23).
      apply Qmult_le_compat_r; [|lra]. apply round_above; [lia|].
      apply Qle_shift_div_l; [assumption|]. rewrite <- pow2_plus.
      replace (23 + (gy - 23))%Z with gy by lia. rewrite Ey. assumption.
Qed.

Lemma f32_mono : monotone f32.
Proof.
  intros x y H. unfold f32.
  destruct (Qle_bool x 0) eqn:Ex.
  - apply Qle_bool_iff in Ex.
    destruct (Qle_bool 0 x) eqn:Ex'.
    + apply Qle_bool_iff in Ex'.
      destruct (Qle_bool y 0) eqn:Ey.
      * apply Qle_bool_iff in Ey. replace (Qle_bool 0 y) with true; [lra|].
        symmetry. apply Qle_bool_iff. lra.
      * apply f32_pos_nonneg. lra.
    + assert (x < 0).
      { apply Qnot_le_lt. intros Hle. apply Qle_bool_iff in Hle. congruence. }
      destruct (Qle_bool y 0) eqn:Ey.
      * apply Qle_bool_iff in Ey. destruct (Qle_bool 0 y) eqn:Ey'.
        -- pose proof (f32_pos_nonneg (- x) ltac:(lra)). lra.
        -- assert (y < 0).
           { apply Qnot_le_lt. intros Hle. apply Qle_bool_iff in Hle. congruence. }
           pose proof (f32_pos_mono (- y) (- x) ltac:(lra) ltac:(lra)). lra.
      * assert (0 < y).
        { apply Qnot_le_lt. intros Hle. apply Qle_bool_iff in Hle. congruence. }
        pose proof (f32_pos_nonneg (- x) ltac:(lra)).
        pose proof (f32_pos_nonneg y ltac:(lra)). lra.
  - assert (0 < x).
    { apply Qnot_le_lt. intros Hle. apply Qle_bool_iff in Hle. congruence. }
    replace (Qle_bool y 0) with false; [apply f32_pos_mono; assumption|].
    symmetry. destruct (Qle_bool y 0) eqn:Ey; [|reflexivity].
    apply Qle_bool_iff in Ey. lra.
Qed.

(** Powers of two are representable. *)
Lemma f32_pow2 e : (-126 <= e)%Z -> f32 (pow2 e) == pow2 e.
Proof.
  intros He. pose proof (pow2_pos e) as Hp. unfold f32.
  replace (Qle_bool (pow2 e) 0) with false.
  2:{ symmetry. destruct (Qle_bool (pow2 e) 0) eqn:Ey; [|reflexivity].
      apply Qle_bool_iff in Ey. lra. }
  destruct (expo_spec _ Hp) as [A1 A2].
  assert (Ee : expo (pow2 e) = e).
  { apply pow2_lt_inv in A2.
    destruct (Z_lt_le_dec e (expo (pow2 e))) as [Hlt|]; [|lia].
    assert (pow2 (e + 1) <= pow2 (expo (pow2 e))) by (apply pow2_le; lia).
    pose proof (pow2_S e). lra. }
  unfold f32_pos, ulp32. rewrite Ee. rewrite Z.max_l by lia.
  pose proof (pow2_pos (e - 23)) as Hu.
  assert (Eq : pow2 e / pow2 (e - 23) == inject_Z (2 ^ 23)).
  { rewrite <- pow2_Z by lia. replace e with (23 + (e - 23))%Z at 1 by lia.
    rewrite pow2_plus. field. lra. }
  assert (En : nearest_even (pow2 e / pow2 (e - 23)) = (2 ^ 23)%Z).
  { assert (L1 : (nearest_even (pow2 e / pow2 (e - 23)) <= nearest_even (inject_Z (2 ^ 23)))%Z)
      by (apply nearest_mono; lra).
    assert (L2 : (nearest_even (inject_Z (2 ^ 23)) <= nearest_even (pow2 e / pow2 (e - 23)))%Z)
      by (apply nearest_mono; lra).
    rewrite nearest_Z in L1, L2. lia. }
  rewrite En, <- pow2_Z, <- pow2_plus by lia.
  replace (23 + (e - 23))%Z with e by lia. reflexivity.
Qed.

(** Rounding is within half a spacing. *)
Lemma f32_error x : 0 < x -> x - ulp32 x / 2 <= f32 x <= x + ulp32 x / 2.
Proof.
  intros Hx. unfold f32. replace (Qle_bool x 0) with false.
  2:{ symmetry. destruct (Qle_bool x 0) eqn:Ey; [|reflexivity].
      apply Qle_bool_iff in Ey. lra. }
  unfold f32_pos. pose proof (ulp_pos x) as Hu.
  pose proof (nearest_bounds (x / ulp32 x)) as [H1 H2].
  set (n := inject_Z (nearest_even (x / ulp32 x))) in *.
  assert (E : x == x / ulp32 x * ulp32 x) by (field; lra).
  set (q := x / ulp32 x) in *. set (u := ulp32 x) in *.
  assert (Eh : u / 2 == (1#2) * u) by field. rewrite Eh.
  split; rewrite E at 1; nra.
Qed.

(** The conversion never saturates. *)
Lemma f32_unbounded x : exists y, f32 x < f32 y.
Proof.
  destruct (Qlt_le_dec 0 x) as [Hx|Hx].
  - exists (pow2 (Z.max (expo x + 2) 0)). rewrite f32_pow2 by lia.
    pose proof (f32_error x Hx) as [_ H]. destruct (expo_spec x Hx) as [A1 A2].
    apply Qle_lt_trans with (pow2 (Z.max (expo x) (-126) + 1)).
    + assert (Hm := f32_mono x (pow2 (Z.max (expo x) (-126) + 1))).
      rewrite f32_pow2 in Hm by lia. apply Hm. apply Qlt_le_weak.
      apply Qlt_le_trans with (pow2 (expo x + 1)); [assumption|]. apply pow2_le. lia.
    + apply Qlt_le_trans with (pow2 (Z.max (expo x) (-126) + 2)).
      * replace (Z.max (expo x) (-126) + 2)%Z with (Z.max (expo x) (-126) + 1 + 1)%Z by lia.
        rewrite (pow2_S (Z.max (expo x) (-126) + 1)).
        pose proof (pow2_pos (Z.max (expo x) (-126) + 1)). lra.
      * apply pow2_le. lia.
  - exists 1. assert (E : f32 1 == 1) by (change 1 with (pow2 0); apply f32_pow2; lia).
    assert (E0 : f32 0 == 0) by reflexivity.
    pose proof (f32_mono x 0 Hx). lra.
Qed.
