From Coq Require Import Reals ZArith String List Lia Lra.
Import ListNotations.
From Verif Require Import Model_Gen Spec_Gen.
Open Scope R_scope.

(** ** Charge *)
Lemma sum_repeat : forall n w, fold_right Rplus 0 (repeat w n) = INR n * w.
Proof. induction n as [| n IH]; intro w; [cbn; lra |]. rewrite S_INR. cbn [repeat fold_right]. rewrite IH. ring. Qed.
Lemma sign_abs : forall x, x <> 0 -> x = sign_of x * Rabs x.
Proof.
  intros x Hx. unfold sign_of, Rabs. destruct (Rlt_dec x 0), (Rcase_abs x), (Rlt_dec 0 x); lra.
Qed.
Lemma sign_sq : forall x, x <> 0 -> x / Rabs x = sign_of x.
Proof.
  intros x Hx. rewrite (sign_abs x Hx) at 1. field. apply Rabs_no_R0, Hx.
Qed.

Section G.
  Variable rng : Type.
  Variables (normal trunc : nat -> rng -> list R * rng) (light : R).
  Notation twiss := (get_gaussian_bunch_from_twiss rng normal trunc light).

  (** The result as a function of the draws. *)
  Definition result_of (P : params) (a_x a_y b_x b_y : R) (d : draws) : made :=
    let n := Z.to_nat (int_of (g_npart P)) in
    let ene := g_ene P in
    let pz := map (fun z => ene + g_enesp P / 100 * ene * z) (r_z d) in
    let momentum theta xp := zip_with (fun xp pz => xp * pz + theta * ene) xp pz in
    mkb (repeat (Rabs (g_qtot P / 1e12 / (INR n * g_q P))) n)
      (positions (g_enx P / ene) b_x (g_xoff P) (r_ux d)) (positions (g_eny P / ene) b_y (g_yoff P) (r_uy d))
      (map (fun t => g_xic P + g_st P * 1e-15 * light * t) (r_t d))
      (momentum (g_thx P) (slopes (g_enx P / ene) a_x b_x (r_ux d) (r_vx d)))
      (momentum (g_thy P) (slopes (g_eny P / ene) a_y b_y (r_uy d) (r_vy d))) pz
      (g_name P) (g_q P) (g_m P) 0.
  Lemma drawn_exists : forall n s, exists d s', drawn normal trunc n s d s'.
  Proof.
    intros n s. destruct (normal n s) as [ux s1] eqn:E1. destruct (normal n s1) as [vx s2] eqn:E2.
    destruct (normal n s2) as [uy s3] eqn:E3. destruct (normal n s3) as [vy s4] eqn:E4.
    destruct (trunc n s4) as [t s5] eqn:E5. destruct (normal n s5) as [z s6] eqn:E6.
    exists (mkdraws ux vx uy vy t z), s6, s1, s2, s3, s4, s5. cbn. auto 7.
  Qed.
  Lemma twiss_drawn : forall P a_x a_y b_x b_y s d s', drawn normal trunc (Z.to_nat (int_of (g_npart P))) s d s' ->
    (0 <= int_of (g_npart P))%Z -> 0 <= g_st P * 1e-15 * light -> 0 <= g_enesp P / 100 * g_ene P ->
    twiss P a_x a_y b_x b_y s = Done (result_of P a_x a_y b_x b_y d, s').
  Proof.
    intros P a_x a_y b_x b_y s d s' (s1 & s2 & s3 & s4 & s5 & E1 & E2 & E3 & E4 & E5 & E6) Hn Hs He.
    unfold get_gaussian_bunch_from_twiss. destruct (Z.ltb_spec (int_of (g_npart P)) 0) as [C | _]; [lia |].
    cbv zeta. rewrite E1, E2, E3, E4. destruct (Rlt_dec _ 0) as [C | _]; [lra |].
    rewrite E5. destruct (Rlt_dec _ 0) as [C | _]; [lra |]. rewrite E6. reflexivity.
  Qed.
  Lemma twiss_done : forall P a_x a_y b_x b_y s b s', twiss P a_x a_y b_x b_y s = Done (b, s') ->
    (0 <= int_of (g_npart P))%Z /\ 0 <= g_st P * 1e-15 * light /\ 0 <= g_enesp P / 100 * g_ene P /\
    exists d, drawn normal trunc (Z.to_nat (int_of (g_npart P))) s d s' /\ b = result_of P a_x a_y b_x b_y d.
  Proof.
    intros P a_x a_y b_x b_y s b s' H.
    assert (H0 := H). unfold get_gaussian_bunch_from_twiss in H.
    destruct (Z.ltb_spec (int_of (g_npart P)) 0) as [C | Hn]; [discriminate |].
    destruct (drawn_exists (Z.to_nat (int_of (g_npart P))) s) as (d & s6 & Dr).
    assert (Hs : 0 <= g_st P * 1e-15 * light /\ 0 <= g_enesp P / 100 * g_ene P).
    { cbv zeta in H. destruct (normal _ s) as [? sa]. destruct (normal _ sa) as [? sb]. destruct (normal _ sb) as [? sc].
      destruct (normal _ sc) as [? sd]. destruct (Rlt_dec _ 0) as [C | Hs]; [discriminate |].
      destruct (trunc _ sd) as [? se]. destruct (Rlt_dec _ 0) as [C | He]; [discriminate |]. split; lra. }
    destruct Hs as [Hs He].
    pose proof (twiss_drawn P a_x a_y b_x b_y s d s6 Dr Hn Hs He) as T. rewrite T in H0.
    assert (result_of P a_x a_y b_x b_y d = b) by congruence. assert (s6 = s') by congruence. subst.
    repeat (split; [assumption |]). exists d. auto.
  Qed.

  Lemma charge_total : forall P a_x a_y b_x b_y s b s', twiss P a_x a_y b_x b_y s = Done (b, s') ->
    (1 <= int_of (g_npart P))%Z -> g_q P <> 0 ->
    length (b_w b) = Z.to_nat (int_of (g_npart P)) /\
    (exists w, 0 <= w /\ Forall (eq w) (b_w b)) /\
    b_q b = g_q P /\ b_m b = g_m P /\ b_name b = g_name P /\
    total_charge b = sign_of (g_q P) * Rabs (g_qtot P) * 1e-12.
  Proof.
    intros P a_x a_y b_x b_y s b s' H Hn Hq. destruct (twiss_done _ _ _ _ _ _ _ _ H) as (Hn0 & _ & _ & d & _ & ->).
    unfold result_of, total_charge. cbn [b_w b_q b_m b_name]. set (n := Z.to_nat (int_of (g_npart P))).
    assert (Hp : 0 < INR n) by (apply lt_0_INR; unfold n; lia).
    split; [apply repeat_length |].
    split; [exists (Rabs (g_qtot P / 1e12 / (INR n * g_q P))); split; [apply Rabs_pos |] |].
    { apply Forall_forall. intros y Hy. apply repeat_spec in Hy. symmetry. exact Hy. }
    repeat (split; [reflexivity |]).
    rewrite sum_repeat. replace 1e-12 with (/ 1e12) by lra.
    assert (Ht : 0 < 1e12) by lra. generalize dependent 1e12. intros T Ht.
    unfold Rdiv. rewrite !Rabs_mult, !Rabs_inv, !Rabs_mult.
    rewrite (Rabs_pos_eq (INR n)) by lra. rewrite (Rabs_pos_eq T) by lra.
    rewrite <- (sign_sq (g_q P) Hq). unfold Rdiv.
    field. repeat split; try lra. apply Rabs_no_R0, Hq.
  Qed.

  (** ** The particles *)
  Lemma em_pos : forall en ene, 0 < en -> 0 < ene -> 0 < en / ene.
  Proof. intros. apply Rdiv_lt_0_compat; assumption. Qed.
  Lemma slope_simple : forall em a b u v, 0 < em -> 0 < b ->
    sigma_prime em a b * (correlation em a b * u + sqrt (1 - correlation em a b ^ 2) * v)
    = sqrt (em / b) * (v - a * u).
  Proof.
    intros em a b u v He Hb.
    assert (Ha : 0 < 1 + a ^ 2) by nra.
    assert (Sx : sqrt (em * b) = sqrt (em / b) * b).
    { rewrite <- (sqrt_Rsqr b) at 3 by lra. rewrite <- sqrt_mult_alt by (apply Rlt_le, Rdiv_lt_0_compat; lra).
      f_equal. unfold Rsqr. field. lra. }
    assert (Sp : sigma_prime em a b = sqrt (em / b) * sqrt (1 + a ^ 2)).
    { unfold sigma_prime. rewrite <- sqrt_mult_alt by (apply Rlt_le, Rdiv_lt_0_compat; lra). f_equal. field. lra. }
    assert (P0 : 0 < sqrt (em / b)) by (apply sqrt_lt_R0, Rdiv_lt_0_compat; lra).
    assert (P1 : 0 < sqrt (1 + a ^ 2)) by (apply sqrt_lt_R0; lra).
    assert (Q0 : sqrt (em / b) * sqrt (em / b) = em / b) by (apply sqrt_sqrt, Rlt_le, Rdiv_lt_0_compat; lra).
    assert (Q1 : sqrt (1 + a ^ 2) * sqrt (1 + a ^ 2) = 1 + a ^ 2) by (apply sqrt_sqrt; lra).
    assert (C : correlation em a b = - a / sqrt (1 + a ^ 2)).
    { unfold correlation. rewrite Sp, Sx.
      replace (sqrt (em / b) * b * (sqrt (em / b) * sqrt (1 + a ^ 2)))
        with ((sqrt (em / b) * sqrt (em / b)) * b * sqrt (1 + a ^ 2)) by ring.
      rewrite Q0. field. repeat split; lra. }
    assert (C2 : sqrt (1 - correlation em a b ^ 2) = / sqrt (1 + a ^ 2)).
    { rewrite C. rewrite <- sqrt_inv. f_equal.
      replace ((- a / sqrt (1 + a ^ 2)) ^ 2) with (a ^ 2 / (sqrt (1 + a ^ 2) * sqrt (1 + a ^ 2))) by (field; lra).
      rewrite Q1. field. lra. }
    rewrite C2, C, Sp. field. lra.
  Qed.
  Lemma zip_nth : forall f a b i da db, (i < length a)%nat -> (i < length b)%nat ->
    nth i (zip_with f a b) 0 = f (nth i a da) (nth i b db).
  Proof.
    intros f; induction a as [| x a IH]; intros [| y b] i da db Ha Hb; cbn in *; try lia.
    destruct i; [reflexivity |]. apply IH; lia.
  Qed.
  Lemma zip_length : forall f a b, length a = length b -> length (zip_with f a b) = length a.
  Proof. intros f; induction a as [| x a IH]; intros [| y b] H; cbn in *; try discriminate; auto. Qed.
  Lemma zip_ext : forall f g a b, (forall x y, f x y = g x y) -> zip_with f a b = zip_with g a b.
  Proof. intros f g a; induction a as [| x a IH]; intros [| y b] H; cbn; auto. rewrite H, IH by assumption. reflexivity. Qed.
  Lemma slopes_eq : forall em a b u v, 0 < em -> 0 < b ->
    slopes em a b u v = zip_with (fun u v => sqrt (em / b) * (v - a * u)) u v.
  Proof. intros em a b u v He Hb. unfold slopes. cbv zeta. apply zip_ext. intros. apply slope_simple; assumption. Qed.
  Lemma slopes_back : forall p0 xp pz, length xp = length pz -> Forall (fun z => z <> 0) pz ->
    slopes_of p0 (zip_with (fun xp pz => xp * pz + p0) xp pz) pz = xp.
  Proof.
    intro p0; induction xp as [| x xp IH]; intros [| z pz] L F; cbn in *; try discriminate; try reflexivity.
    inversion F as [| ? ? Fz Fr]; subst. rewrite IH by (auto || lia). f_equal. field. assumption.
  Qed.

  (** Sums *)
  Lemma sum_lin : forall c off u, fold_right Rplus 0 (map (fun u => c * u + off) u)
    = c * fold_right Rplus 0 u + INR (length u) * off.
  Proof. intros c off; induction u as [| x u IH]; [cbn; lra |]. cbn [map fold_right length]. rewrite IH, S_INR. ring. Qed.
  Definition S1 (l : list R) := fold_right Rplus 0 l.
  Definition S2 (a b : list R) := fold_right Rplus 0 (products a b).
  Lemma prod_length : forall a b, length a = length b -> length (products a b) = length a.
  Proof. induction a as [| x a IH]; intros [| y b] H; cbn in *; try discriminate; auto. Qed.
  Lemma sums_zip : forall c a u v, length u = length v ->
    S1 (zip_with (fun u v => c * (v - a * u)) u v) = c * (S1 v - a * S1 u).
  Proof. intros c a; induction u as [| x u IH]; intros [| y v] L; cbn in *; try discriminate; [ring |]. unfold S1 in IH. rewrite IH by lia. ring. Qed.
  Lemma sums_xp : forall k off c a u v, length u = length v ->
    S2 (map (fun u => k * u + off) u) (zip_with (fun u v => c * (v - a * u)) u v)
    = k * c * (S2 u v - a * S2 u u) + off * (c * (S1 v - a * S1 u)).
  Proof.
    intros k off c a; induction u as [| x u IH]; intros [| y v] L; try discriminate; [cbn; ring |].
    cbn in L. unfold S2, S1 in *. cbn [map zip_with products fold_right]. rewrite IH by lia. ring.
  Qed.
  Lemma sums_xx : forall k off u,
    S2 (map (fun u => k * u + off) u) (map (fun u => k * u + off) u)
    = k * k * S2 u u + 2 * k * off * S1 u + INR (length u) * (off * off).
  Proof.
    intros k off; induction u as [| x u IH]; [cbn; ring |].
    unfold S2, S1 in *. cbn [map products fold_right length]. rewrite IH, S_INR. ring.
  Qed.
  Lemma sums_pp : forall c a u v, length u = length v ->
    S2 (zip_with (fun u v => c * (v - a * u)) u v) (zip_with (fun u v => c * (v - a * u)) u v)
    = c * c * (S2 v v - 2 * a * S2 u v + a * a * S2 u u).
  Proof.
    intros c a; induction u as [| x u IH]; intros [| y v] L; try discriminate; [cbn; ring |].
    cbn in L. unfold S2, S1 in *. cbn [map zip_with products fold_right]. rewrite IH by lia. ring.
  Qed.
  Lemma mean_S1 : forall l, mean l = S1 l / INR (length l). Proof. reflexivity. Qed.
  Lemma mean2_S2 : forall a b, length a = length b -> mean2 a b = S2 a b / INR (length a).
  Proof. intros a b L. unfold mean2, mean. rewrite prod_length by assumption. reflexivity. Qed.

  (** One plane: moments for any numbers u, v. *)
  Lemma plane : forall em a b off u v, 0 < em -> 0 < b -> length u = length v -> (0 < length u)%nat ->
    let x := positions em b off u in let xp := slopes em a b u v in
    mean x = sqrt (em * b) * mean u + off /\ mean xp = sqrt (em / b) * (mean v - a * mean u) /\
    covariance x x = em * b * covariance u u /\
    covariance x xp = em * (covariance u v - a * covariance u u) /\
    covariance xp xp = em / b * (covariance v v - 2 * a * covariance u v + a * a * covariance u u).
  Proof.
    intros em a b off u v He Hb L Hl x xp.
    assert (Hn : INR (length u) <> 0) by (apply not_0_INR; lia).
    assert (Q0 : sqrt (em / b) * sqrt (em / b) = em / b) by (apply sqrt_sqrt, Rlt_le, Rdiv_lt_0_compat; lra).
    assert (Q1 : sqrt (em * b) * sqrt (em * b) = em * b) by (apply sqrt_sqrt, Rlt_le, Rmult_lt_0_compat; lra).
    assert (Q2 : sqrt (em * b) * sqrt (em / b) = em).
    { rewrite <- sqrt_mult_alt by (apply Rlt_le, Rmult_lt_0_compat; lra).
      replace (em * b * (em / b)) with (Rsqr em) by (unfold Rsqr; field; lra). apply sqrt_Rsqr. lra. }
    assert (Ex : x = map (fun u => sqrt (em * b) * u + off) u) by reflexivity.
    assert (Ep : xp = zip_with (fun u v => sqrt (em / b) * (v - a * u)) u v) by (apply slopes_eq; assumption).
    assert (Lx : length x = length u) by (rewrite Ex; apply map_length).
    assert (Lp : length xp = length u) by (rewrite Ep; apply zip_length, L).
    set (k := sqrt (em * b)) in *. set (c := sqrt (em / b)) in *.
    assert (Mx : mean x = k * mean u + off).
    { rewrite !mean_S1, Lx, Ex. unfold S1. rewrite sum_lin. field. assumption. }
    assert (Mp : mean xp = c * (mean v - a * mean u)).
    { rewrite !mean_S1, Lp, Ep, sums_zip by assumption. rewrite <- L. field. assumption. }
    split; [exact Mx |]. split; [exact Mp |].
    unfold covariance. rewrite !mean2_S2 by congruence. rewrite Mx, Mp.
    repeat split.
    - rewrite Lx, Ex, sums_xx. rewrite !mean_S1. rewrite <- Q1. field. assumption.
    - rewrite Lx, Ex, Ep, sums_xp by assumption. rewrite !mean_S1, <- L. rewrite <- Q2. field. assumption.
    - rewrite Lp, Ep, sums_pp by assumption. rewrite !mean_S1, <- !L. rewrite <- Q0. field. assumption.
  Qed.
  Lemma courant_snyder : forall em a b u v, 0 < em -> 0 < b ->
    let x := sqrt (em * b) * u in let xp := sqrt (em / b) * (v - a * u) in
    (1 + a ^ 2) / b * x ^ 2 + 2 * a * x * xp + b * xp ^ 2 = em * (u ^ 2 + v ^ 2).
  Proof.
    intros em a b u v He Hb x xp.
    assert (Q0 : sqrt (em / b) * sqrt (em / b) = em / b) by (apply sqrt_sqrt, Rlt_le, Rdiv_lt_0_compat; lra).
    assert (Sx : sqrt (em * b) = sqrt (em / b) * b).
    { rewrite <- (sqrt_Rsqr b) at 3 by lra. rewrite <- sqrt_mult_alt by (apply Rlt_le, Rdiv_lt_0_compat; lra).
      f_equal. unfold Rsqr. field. lra. }
    unfold x, xp. rewrite Sx. set (c := sqrt (em / b)) in *.
    replace ((1 + a ^ 2) / b * (c * b * u) ^ 2 + 2 * a * (c * b * u) * (c * (v - a * u)) + b * (c * (v - a * u)) ^ 2)
      with (c * c * (b * (u ^ 2 + v ^ 2))) by (field; lra).
    rewrite Q0. field. lra.
  Qed.
End G.

(** ** Files *)
Lemma sum_S1 : forall l, sum l = fold_right Rplus 0 l. Proof. reflexivity. Qed.
Lemma zip_products : forall a b, zip_with Rmult a b = products a b.
Proof. induction a as [| x a IH]; intros [| y b]; cbn; auto. rewrite IH. reflexivity. Qed.
Lemma average_ok : forall x w, fold_right Rplus 0 w <> 0 -> average x w = Done (weighted_mean x w).
Proof.
  intros x w H. unfold average. destruct (Req_EM_T (sum w) 0) as [C | _]; [contradiction |].
  rewrite zip_products. reflexivity.
Qed.
Lemma average_iff : forall x w v, average x w = Done v <-> fold_right Rplus 0 w <> 0 /\ v = weighted_mean x w.
Proof.
  intros x w v. unfold average, weighted_mean. rewrite zip_products.
  destruct (Req_EM_T (sum w) 0) as [C | C]; split.
  - discriminate.
  - intros [H _]. contradiction.
  - intro H. split; [assumption |]. unfold sum in H. congruence.
  - intros [_ ->]. reflexivity.
Qed.
Lemma shift_sum : forall m z w, length z = length w ->
  fold_right Rplus 0 (products (map (fun z => z - m) z) w) = fold_right Rplus 0 (products z w) - m * fold_right Rplus 0 w.
Proof.
  intro m; induction z as [| x z IH]; intros [| y w] L; cbn in *; try discriminate; [ring |]. rewrite IH by lia. ring.
Qed.
Lemma centred : forall z w, length z = length w -> fold_right Rplus 0 w <> 0 ->
  weighted_mean (map (fun x => x - weighted_mean z w) z) w = 0.
Proof.
  intros z w L H. unfold weighted_mean at 1. rewrite shift_sum by assumption. unfold weighted_mean. field. assumption.
Qed.
