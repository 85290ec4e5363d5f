(** Proofs for C122. *)
From Coq Require Import QArith Reals Qreals String List Arith Lia Lqa Lra.
From Coquelicot Require Import Coquelicot.
From Verif Require Import Model_Push Spec_Push Proofs_Push Model_Tracker Spec_Tracker Model_Bunch Spec_Bunch Proofs_Bunch Model_Run Spec_Run Proofs_Run
  Spec_Circle Proofs_Speed Spec_Gain.
Import ListNotations.
Open Scope R_scope.

Lemma sq_dot v : sq v = dot v v.
Proof. destruct v as [[a b] c]. reflexivity. Qed.
Lemma sq_nonneg v : 0 <= sq v.
Proof. destruct v as [[a b] c]. unfold sq. pose proof (Rle_0_sqr a). pose proof (Rle_0_sqr b). pose proof (Rle_0_sqr c). unfold Rsqr in *. lra. Qed.
Lemma short_self v : short v (norm v).
Proof. split; [apply sqrt_pos|]. unfold norm. rewrite sqrt_sqrt by apply sq_nonneg. apply Rle_refl. Qed.
Lemma norm_add u v : norm (vadd3 u v) <= norm u + norm v.
Proof. apply short_norm, short_add; apply short_self. Qed.
Lemma norm_scal k v : norm (scal k v) = Rabs k * norm v.
Proof.
  unfold norm. rewrite <- sqrt_Rsqr_abs, <- sqrt_mult; [|apply Rle_0_sqr|apply sq_nonneg]. f_equal.
  destruct v as [[a b] c]. unfold sq, scal, Rsqr. ring.
Qed.
Lemma kick_change k e v : Rabs (norm (vadd3 v (scal k e)) - norm v) <= Rabs k * norm e.
Proof.
  apply Rabs_le_between. split.
  - assert (E : v = vadd3 (vadd3 v (scal k e)) (scal (- k) e)).
    { destruct v as [[a b] c], e as [[e1 e2] e3]. unfold vadd3, scal. apply vec_eq; ring. }
    pose proof (norm_add (vadd3 v (scal k e)) (scal (- k) e)) as N. rewrite <- E, norm_scal, Rabs_Ropp in N. lra.
  - pose proof (norm_add v (scal k e)) as N. rewrite norm_scal in N. lra.
Qed.
Lemma boris_p_change k e b v : Rabs (norm (boris_p k e b v) - norm v) <= 2 * (Rabs k * norm e).
Proof.
  unfold boris_p. cbv zeta. set (v1 := vadd3 v (scal k e)). set (w := rot _ v1).
  assert (N : norm w = norm v1) by (unfold norm; rewrite !sq_dot; unfold w; rewrite rot_norm; reflexivity).
  pose proof (kick_change k e v) as A. pose proof (kick_change k e w) as B. fold v1 in A. rewrite N in B.
  apply Rabs_le_between in A, B. apply Rabs_le_between. lra.
Qed.
Lemma pmod_norm p : pmod p = norm (momentum p). Proof. reflexivity. Qed.
Lemma boris1_change qm G t dt p E : 0 <= dt -> norm (e_field (G (pos_of (drift (dt / 2) p)) (t + dt / 2))) <= E ->
  Rabs (pmod (boris1 qm G t dt p) - pmod p) <= Rabs qm * E * dt.
Proof.
  intros Hd HE. rewrite !pmod_norm, boris1_pos_field. cbv zeta. eapply Rle_trans; [apply boris_p_change|].
  replace (qm * dt / 2) with (qm * (dt / 2)) by field. rewrite Rabs_mult, (Rabs_right (dt / 2)) by lra.
  replace (Rabs qm * E * dt) with (2 * (Rabs qm * (dt / 2) * E)) by field.
  apply Rmult_le_compat_l; [lra|]. apply Rmult_le_compat_l; [|exact HE]. apply Rmult_le_pos; [apply Rabs_pos|lra].
Qed.
Lemma gamma_change p p' : Rabs (gamma p' - gamma p) <= Rabs (pmod p' - pmod p).
Proof.
  assert (H : forall a, 0 <= pmod a /\ pmod a < gamma a /\ gamma a * gamma a = 1 + pmod a * pmod a).
  { intros a. pose proof (sq_nonneg (momentum a)) as S. unfold sq, momentum in S. unfold pmod, gamma.
    rewrite !sqrt_sqrt by lra. split; [apply sqrt_pos|]. split; [apply sqrt_lt_1; lra|reflexivity]. }
  destruct (H p) as (A1 & A2 & A3), (H p') as (B1 & B2 & B3).
  assert (E : (gamma p' - gamma p) * (gamma p' + gamma p) = (pmod p' - pmod p) * (pmod p' + pmod p)).
  { transitivity (gamma p' * gamma p' - gamma p * gamma p); [ring|]. rewrite A3, B3. ring. }
  apply (f_equal Rabs) in E. rewrite !Rabs_mult in E. rewrite (Rabs_right (gamma p' + gamma p)), (Rabs_right (pmod p' + pmod p)) in E by lra.
  apply Rmult_le_reg_r with (gamma p' + gamma p); [lra|]. rewrite E. apply Rmult_le_compat_l; [apply Rabs_pos|lra].
Qed.
Lemma reach_drift dt p : 0 <= dt -> reach (dt / 2) p (drift (dt / 2) p).
Proof. intros H. rewrite <- half_push_vec. apply reach_half, H. Qed.
Lemma reach_boris1 qm G t dt p : 0 <= dt -> reach dt p (Proofs_Push.boris1 qm G t dt p).
Proof.
  intros H. unfold boris1. cbv zeta. replace dt with (dt / 2 + dt / 2) at 1 by lra. eapply reach_then; [apply reach_drift, H|].
  rewrite push_momentum1_vec. set (p1 := drift (dt / 2) p). destruct (boris_p _ _ _ _) as [[a b] c].
  pose proof (reach_drift dt (mkp (x p1) (y p1) (xi p1) a b c) H) as K. exact K.
Qed.
Lemma reach_can d p p' : reach d p p' -> can_reach p (pos_of p') d.
Proof. intros [H _]. apply short_norm in H. exact H. Qed.

Lemma forall2_self {A} (r : A -> A -> Prop) l : (forall a, In a l -> r a a) -> Forall2 r l l.
Proof. induction l as [|a l IH]; intros H; constructor; [apply H; left; reflexivity|apply IH; intros b Hb; apply H; right; exact Hb]. Qed.

Lemma forall2_mapr {A} (r r' : A -> A -> Prop) f l l' : (forall a b, r a b -> r' a (f b)) -> Forall2 r l l' -> Forall2 r' l (map f l').
Proof. intros H F. induction F; cbn [map]; constructor; auto. Qed.

(** ** Runge-Kutta pusher without magnetic field *)
Lemma reach_point q m G t h p y0 : 0 <= h -> reach h y0 (padd y0 (pscal h (lorentz q m G t p))).
Proof.
  intros H. unfold reach. replace (shift h y0 (padd y0 (pscal h (lorentz q m G t p)))) with (scal h (velocity p)).
  - rewrite (Rmult_comm c_SI). apply tight_scal; [exact H|apply tight_velocity].
  - unfold lorentz, shift, padd, pscal. destruct (velocity p) as [[a b] c]. destruct (scal (q / (m * c_SI)) _) as [[d e] f] eqn:E. cbn [x y xi]. unfold scal. apply vec_eq; ring.
Qed.
Lemma force_limit q m G t p E : b_field (G (pos_of p) t) = (0, 0, 0) -> norm (e_field (G (pos_of p) t)) <= E ->
  norm (momentum (lorentz q m G t p)) <= Rabs (q / (m * c_SI)) * E.
Proof.
  intros HB HE. replace (momentum (lorentz q m G t p)) with (scal (q / (m * c_SI)) (e_field (G (pos_of p) t))).
  - rewrite norm_scal. apply Rmult_le_compat_l; [apply Rabs_pos|exact HE].
  - unfold lorentz. cbv zeta. rewrite HB. destruct (velocity p) as [[a b] c]. destruct (e_field _) as [[e1 e2] e3].
    unfold scal, vadd3, cross, momentum. cbn [px py pz]. apply vec_eq; ring.
Qed.
Lemma rk4_change q m G t dt y0 E : 0 <= dt -> (forall r s, b_field (G r s) = (0, 0, 0)) ->
  (forall h p', 0 <= h <= dt -> reach h y0 p' -> norm (e_field (G (pos_of p') (t + h))) <= E) ->
  Rabs (pmod (classical_rk4 (lorentz q m G) t dt y0) - pmod y0) <= Rabs (q / (m * c_SI)) * E * dt.
Proof.
  intros Hd HB HE. unfold classical_rk4. cbv zeta.
  set (k1 := lorentz q m G t y0). set (k2 := lorentz q m G (t + dt / 2) (padd y0 (pscal (dt / 2) k1))).
  set (k3 := lorentz q m G (t + dt / 2) (padd y0 (pscal (dt / 2) k2))). set (k4 := lorentz q m G (t + dt) (padd y0 (pscal dt k3))).
  set (M := Rabs (q / (m * c_SI)) * E).
  assert (N1 : norm (momentum k1) <= M).
  { apply force_limit; [apply HB|]. rewrite <- (Rplus_0_r t). apply HE; [lra|apply reach_same]. }
  assert (N2 : norm (momentum k2) <= M) by (apply force_limit; [apply HB|apply HE; [lra|apply reach_point; lra]]).
  assert (N3 : norm (momentum k3) <= M) by (apply force_limit; [apply HB|apply HE; [lra|apply reach_point; lra]]).
  assert (N4 : norm (momentum k4) <= M) by (apply force_limit; [apply HB|apply HE; [lra|apply reach_point; lra]]).
  clearbody k1 k2 k3 k4 M.
  set (s := vadd3 (vadd3 (momentum k1) (scal 2 (momentum k2))) (vadd3 (scal 2 (momentum k3)) (momentum k4))).
  assert (NS : norm s <= 6 * M).
  { unfold s. eapply Rle_trans; [apply norm_add|].
    pose proof (norm_add (momentum k1) (scal 2 (momentum k2))) as A. pose proof (norm_add (scal 2 (momentum k3)) (momentum k4)) as B.
    rewrite norm_scal, (Rabs_right 2) in A, B by lra. lra. }
  rewrite !pmod_norm.
  match goal with |- Rabs (norm ?v - _) <= _ => replace v with (vadd3 (momentum y0) (scal (dt / 6) s)) end.
  - eapply Rle_trans; [apply kick_change|]. rewrite Rabs_right by lra.
    replace (M * dt) with (dt / 6 * (6 * M)) by field. apply Rmult_le_compat_l; [lra|exact NS].
  - unfold s, vadd3, scal, momentum, padd, pscal. cbn [px py pz]. apply vec_eq; ring.
Qed.
Lemma reach_rk4 q m G t dt y0 : 0 <= dt -> reach dt y0 (classical_rk4 (lorentz q m G) t dt y0).
Proof.
  intros Hd. unfold classical_rk4. cbv zeta.
  assert (K : forall u p, tight (slope_v (lorentz q m G u p)) c_SI).
  { intros u p. replace (slope_v (lorentz q m G u p)) with (velocity p); [apply tight_velocity|].
    unfold lorentz, slope_v. destruct (velocity p) as [[a b] c]. destruct (scal (q / (m * c_SI)) _) as [[d e] f]. cbn [x y xi]. apply vec_eq; ring. }
  set (k1 := lorentz q m G t y0). set (k2 := lorentz q m G (t + dt / 2) (padd y0 (pscal (dt / 2) k1))).
  set (k3 := lorentz q m G (t + dt / 2) (padd y0 (pscal (dt / 2) k2))). set (k4 := lorentz q m G (t + dt) (padd y0 (pscal dt k3))).
  assert (K1 := K t y0 : tight (slope_v k1) c_SI). assert (K2 := K _ _ : tight (slope_v k2) c_SI).
  assert (K3 := K _ _ : tight (slope_v k3) c_SI). assert (K4 := K _ _ : tight (slope_v k4) c_SI). clearbody k1 k2 k3 k4. clear K.
  unfold reach.
  match goal with |- tight ?v ?m => replace v with (vadd3 (vadd3 (scal (dt / 6) (slope_v k1)) (scal (dt / 3) (slope_v k2)))
    (vadd3 (scal (dt / 3) (slope_v k3)) (scal (dt / 6) (slope_v k4))));
    [replace m with ((dt / 6 * c_SI + dt / 3 * c_SI) + (dt / 3 * c_SI + dt / 6 * c_SI)) by field|] end.
  - apply tight_add; apply tight_add; apply tight_scal; try lra; assumption.
  - unfold shift, slope_v, vadd3, scal, padd, pscal. cbn [x y xi]. apply vec_eq; field.
Qed.

Section Gain.
  Variables (fields : list field) (G : pos -> R -> em) (hb : heap * bunch) (T : Q) (E : R).
  Hypothesis HG : gathers fields G.
  Hypothesis HE : field_limit G hb (Q2R T) E.
  Hypothesis Hready : ready hb.
  Hypothesis HT : (0 <= T)%Q.
  Definition rate : R := Rabs (q_species (snd hb) / (m_species (snd hb) * c_SI)) * E.
  Definition sofar (a t : R) (b b' : heap * bunch) : Prop := a = 0 -> b = hb ->
    ready b' /\ q_species (snd b') = q_species (snd hb) /\ m_species (snd b') = m_species (snd hb) /\
    Forall2 (fun p p' => In p (particles (fst hb) (snd hb)) /\ reach t p p' /\ Rabs (pmod p' - pmod p) <= rate * t)
      (particles (fst hb) (snd hb)) (particles (fst b') (snd b')).
  Lemma sofar_same t b : sofar t t b b.
  Proof.
    intros -> ->. split; [exact Hready|]. split; [reflexivity|]. split; [reflexivity|].
    apply forall2_self. intros p Hp. split; [exact Hp|]. split; [apply reach_same|]. rewrite Rminus_eq_0, Rabs_R0. lra.
  Qed.
  Lemma limit_nonneg p : In p (particles (fst hb) (snd hb)) -> 0 <= E.
  Proof.
    intros Hp. apply Rle_trans with (norm (e_field (G (pos_of p) 0))); [apply sqrt_pos|]. apply (HE p); [exact Hp| |].
    - split; [lra|]. replace 0 with (Q2R 0) by (unfold Q2R; cbn; lra). apply Qle_Rle, HT.
    - apply reach_can, reach_same.
  Qed.
  Lemma sofar_step t dt a b b' : (0 <= dt)%Q -> (t + dt <= T)%Q -> sofar a (Q2R t) b b' ->
    sofar a (Q2R t + Q2R dt) b (evolve_tracked "boris" fields b' t dt).
  Proof.
    intros Hd Ht H Ea Eb. destruct (H Ea Eb) as (Hr & Hq & Hm & F). clear H.
    destruct (evolve_tracked_eff "boris" fields G b' t dt (or_intror eq_refl) HG Hr) as (fs & G' & Hc & HG' & Hr' & Q' & M' & _ & Es).
    split; [exact Hr'|]. split; [congruence|]. split; [congruence|].
    apply triple in Es as (E1 & _ & _). rewrite E1, (fresh_boris _ _ fs G') by exact HG'. rewrite Hq, Hm.
    assert (D : 0 <= Q2R dt) by (replace 0 with (Q2R 0) by (unfold Q2R; cbn; lra); apply Qle_Rle, Hd).
    assert (D' : Q2R t + Q2R dt <= Q2R T) by (rewrite <- Q2R_plus; apply Qle_Rle, Ht).
    eapply forall2_mapr; [|exact F]. intros p p' (Hp & K1 & K2). split; [exact Hp|]. split.
    - eapply reach_then; [exact K1|apply reach_boris1, D].
    - assert (L : norm (e_field (G' (pos_of (drift (Q2R dt / 2) p')) (Q2R t + Q2R dt / 2))) <= E).
      { destruct Hc as [[_ ->]|[_ ->]].
        - apply (HE p); [exact Hp| |apply reach_can; eapply reach_then; [exact K1|apply reach_drift, D]].
          destruct K1 as [[K1 _] _]. pose proof c_positive as C. split; [|lra].
          assert (0 <= Q2R t) by (apply Rmult_le_reg_l with c_SI; [exact C|lra]). lra.
        - replace (norm (e_field em0)) with 0; [apply (limit_nonneg p Hp)|]. unfold norm, e_field, sq, em0. cbn.
          replace (0 * 0 + 0 * 0 + 0 * 0) with 0 by ring. symmetry. apply sqrt_0. }
      pose proof (boris1_change (q_species (snd hb) / (m_species (snd hb) * c_SI)) G' (Q2R t) (Q2R dt) p' E D L) as B. fold rate in B.
      rewrite Rmult_plus_distr_l.
      match goal with |- Rabs (?u - ?v) <= _ => replace (u - v) with ((u - pmod p') + (pmod p' - v)) by ring end.
      eapply Rle_trans; [apply Rabs_triang|]. lra.
  Qed.
  Lemma sofar_step_rk4 t dt a b b' : (forall r s, b_field (G r s) = (0, 0, 0)) -> (0 <= dt)%Q -> (t + dt <= T)%Q -> sofar a (Q2R t) b b' ->
    sofar a (Q2R t + Q2R dt) b (evolve_tracked "rk4" fields b' t dt).
  Proof.
    intros HB Hd Ht H Ea Eb. destruct (H Ea Eb) as (Hr & Hq & Hm & F). clear H.
    destruct (evolve_tracked_eff "rk4" fields G b' t dt (or_introl eq_refl) HG Hr) as (fs & G' & Hc & HG' & Hr' & Q' & M' & _ & Es).
    split; [exact Hr'|]. split; [congruence|]. split; [congruence|].
    apply triple in Es as (E1 & _ & _). rewrite E1, (fresh_rk4 _ _ fs G') by exact HG'. rewrite Hq, Hm.
    assert (D : 0 <= Q2R dt) by (replace 0 with (Q2R 0) by (unfold Q2R; cbn; lra); apply Qle_Rle, Hd).
    assert (D' : Q2R t + Q2R dt <= Q2R T) by (rewrite <- Q2R_plus; apply Qle_Rle, Ht).
    eapply forall2_mapr; [|exact F]. intros p p' (Hp & K1 & K2). split; [exact Hp|]. split.
    - eapply reach_then; [exact K1|apply reach_rk4, D].
    - assert (B : Rabs (pmod (classical_rk4 (lorentz (q_species (snd hb)) (m_species (snd hb)) G') (Q2R t) (Q2R dt) p') - pmod p') <= rate * Q2R dt).
      { apply rk4_change; [exact D|destruct Hc as [[_ ->]|[_ ->]]; [exact HB|reflexivity]|]. intros h p1 Hh Hr1.
        destruct Hc as [[_ ->]|[_ ->]].
        - apply (HE p); [exact Hp| |apply reach_can; eapply reach_then; [exact K1|exact Hr1]].
          destruct K1 as [[K1 _] _]. pose proof c_positive as C. split; [|lra].
          assert (0 <= Q2R t) by (apply Rmult_le_reg_l with c_SI; [exact C|lra]). lra.
        - replace (norm (e_field em0)) with 0; [apply (limit_nonneg p Hp)|]. unfold norm, e_field, sq, em0. cbn.
          replace (0 * 0 + 0 * 0 + 0 * 0) with 0 by ring. symmetry. apply sqrt_0. }
      rewrite Rmult_plus_distr_l.
      match goal with |- Rabs (?u - ?v) <= _ => replace (u - v) with ((u - pmod p') + (pmod p' - v)) by ring end.
      eapply Rle_trans; [apply Rabs_triang|]. lra.
  Qed.
  Lemma sofar_changed t b' : sofar 0 t hb b' -> changed_at_most (rate * t) hb b'.
  Proof.
    intros H. destruct (H eq_refl eq_refl) as (_ & _ & _ & F). unfold changed_at_most.
    rewrite <- (map_id (particles (fst b') (snd b'))). eapply forall2_mapr; [|exact F]. intros p p' (Hp & K1 & K2). split; [exact K2|]. eapply Rle_trans; [apply gamma_change|exact K2].
  Qed.
End Gain.
