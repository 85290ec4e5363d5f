(** Lemmas: curves with several bounded derivatives; quadrature rules of higher order. *)
From Coq Require Import Reals List Lia Lra Psatz.
From Coquelicot Require Import Coquelicot.
From Verif Require Import Model_Push Spec_Push Proofs_Push Spec_Conv Proofs_Conv Proofs_Conv2 Proofs_Conv3 Proofs_Conv4 Proofs_Ord.
Import ListNotations.
Open Scope R_scope.

(** A function that vanishes at 0 and whose derivative is of order [k]. *)
Lemma grow A B H C k : 0 <= C -> (forall h, 0 <= h <= H -> is_derive A h (B h)) -> A 0 = 0 ->
  (forall h, 0 <= h <= H -> Rabs (B h) <= C * h ^ k) -> forall h, 0 <= h <= H -> Rabs (A h) <= C * h ^ S k.
Proof.
  intros C0 HA A0 HB h Hh. destruct (MVT_gen A 0 h B) as (c & Hc & E).
  - intros v Hv. rewrite Rmin_left, Rmax_right in Hv by lra. apply HA; lra.
  - intros v Hv. rewrite Rmin_left, Rmax_right in Hv by lra. apply continuity_pt_filterlim.
    apply (ex_derive_continuous A v). exists (B v). apply HA; lra.
  - rewrite Rmin_left, Rmax_right in Hc by lra. rewrite A0, !Rminus_0_r in E. rewrite E, Rabs_mult, (Rabs_right h) by lra.
    cbn [pow]. replace (C * (h * h ^ k)) with (C * h ^ k * h) by ring. apply Rmult_le_compat_r; [lra|].
    eapply Rle_trans; [apply HB; lra|]. apply Rmult_le_compat_l; [exact C0|]. apply pow_incr. lra.
Qed.

Section Chain.
  Variables h1 T : R.
  Variables y0 y1 y2 y3 y4 y5 : R -> R.
  Hypothesis D0 : forall s, 0 <= s <= T -> is_derive y0 s (y1 s).
  Hypothesis D1 : forall s, 0 <= s <= T -> is_derive y1 s (y2 s).
  Hypothesis D2 : forall s, 0 <= s <= T -> is_derive y2 s (y3 s).
  Hypothesis D3 : forall s, 0 <= s <= T -> is_derive y3 s (y4 s).
  Hypothesis D4 : forall s, 0 <= s <= T -> is_derive y4 s (y5 s).
  Variable M : R.
  Hypothesis M0 : 0 <= M.
  Hypothesis B3 : forall s, 0 <= s <= T -> Rabs (y3 s) <= M.
  Hypothesis B4 : forall s, 0 <= s <= T -> Rabs (y4 s) <= M.
  Hypothesis B5 : forall s, 0 <= s <= T -> Rabs (y5 s) <= M.
  Notation Big := (Big h1 T).

  Lemma from_mid y y' k : (forall s, 0 <= s <= T -> is_derive y s (y' s)) -> (forall s, 0 <= s <= T -> Rabs (y' s) <= k) ->
    forall t h, 0 <= t -> 0 <= h -> t + h <= T -> Rabs (y (t + h) - y (t + h / 2)) <= k * (h / 2).
  Proof.
    intros Hy Hk t h Ht Hh HT. eapply Rle_trans; [apply (along_move T y y' Hy k Hk (t + h / 2) (t + h)); lra|]. right. field.
  Qed.
  Ltac der := auto_derive; [repeat split; try exact I; eexists; match goal with D : forall s, _ -> is_derive ?y s _ |- is_derive (fun x => ?y x) _ _ => apply D; lra end|].
  Lemma value y y' : (forall s, 0 <= s <= T -> is_derive y s (y' s)) -> forall v, 0 <= v <= T -> Derive (fun x => y x) v = y' v.
  Proof. intros Hy v Hv. apply is_derive_unique, Hy, Hv. Qed.
  Ltac vals := rewrite ?(value y0 y1 D0), ?(value y1 y2 D1), ?(value y2 y3 D2), ?(value y3 y4 D3), ?(value y4 y5 D4) by lra.

  (** Trapezoidal rule on half the step. *)
  Lemma trapezoid_half : Big 3 (fun h t => 2 * y0 t + h / 2 * (y1 t + y1 (t + h / 2)) - 2 * y0 (t + h / 2)).
  Proof.
    exists M. split; [exact M0|]. intros h t ((A & A') & B & C).
    set (A0 := fun h => 2 * y0 t + h / 2 * (y1 t + y1 (t + h / 2)) - 2 * y0 (t + h / 2)).
    set (A1 := fun h => / 2 * (y1 t - y1 (t + h / 2)) + h / 4 * y2 (t + h / 2)).
    set (A2 := fun h => h / 8 * y3 (t + h / 2)).
    apply (grow A0 A1 h M 2 M0).
    - intros v Hv. unfold A0, A1. der. unfold Rdiv. vals. field.
    - unfold A0. replace (0 / 2) with 0 by field. rewrite ?(Rplus_0_r t). lra.
    - apply (grow A1 A2 h M 1 M0).
      + intros v Hv. unfold A1, A2. der. unfold Rdiv. vals. field.
      + unfold A1. replace (0 / 2) with 0 by field. rewrite ?(Rplus_0_r t). lra.
      + intros v Hv. unfold A2. rewrite Rabs_mult, (Rabs_right (v / 8)) by lra. cbn [pow]. rewrite Rmult_1_r.
        pose proof (B3 (t + v / 2) ltac:(lra)) as Q. apply Rle_trans with (v / 8 * M); [apply Rmult_le_compat_l; lra|].
        assert (0 <= M * v) by (apply Rmult_le_pos; lra). lra.
    - lra.
  Qed.

  (** The combination of the stage errors. *)
  Lemma stages_rule : Big 4 (fun h t => 5 * y0 t - 4 * y0 (t + h / 2) - y0 (t + h) + h * y1 t + 2 * (h * y1 (t + h / 2))).
  Proof.
    exists M. split; [exact M0|]. intros h t ((A & A') & B & C).
    set (A0 := fun h => 5 * y0 t - 4 * y0 (t + h / 2) - y0 (t + h) + h * y1 t + 2 * (h * y1 (t + h / 2))).
    set (A1 := fun h => y1 t - y1 (t + h) + h * y2 (t + h / 2)).
    set (A2 := fun h => y2 (t + h / 2) - y2 (t + h) + h / 2 * y3 (t + h / 2)).
    set (A3 := fun h => y3 (t + h / 2) - y3 (t + h) + h / 4 * y4 (t + h / 2)).
    apply (grow A0 A1 h M 3 M0).
    - intros v Hv. unfold A0, A1. der. unfold Rdiv. vals. field.
    - unfold A0. replace (0 / 2) with 0 by field. rewrite ?(Rplus_0_r t). lra.
    - apply (grow A1 A2 h M 2 M0).
      + intros v Hv. unfold A1, A2. der. unfold Rdiv. vals. field.
      + unfold A1. rewrite ?(Rplus_0_r t). lra.
      + apply (grow A2 A3 h M 1 M0).
        * intros v Hv. unfold A2, A3. der. unfold Rdiv. vals. field.
        * unfold A2. replace (0 / 2) with 0 by field. rewrite ?(Rplus_0_r t). lra.
        * intros v Hv. unfold A3. cbn [pow]. rewrite Rmult_1_r.
          pose proof (from_mid y3 y4 M D3 B4 t v B ltac:(lra) ltac:(lra)) as Q. rewrite Rabs_minus_sym in Q.
          pose proof (B4 (t + v / 2) ltac:(lra)) as Q4.
          eapply Rle_trans; [apply Rabs_triang|]. rewrite Rabs_mult, (Rabs_right (v / 4)) by lra.
          assert (v / 4 * Rabs (y4 (t + v / 2)) <= v / 4 * M) by (apply Rmult_le_compat_l; lra).
          assert (0 <= M * v) by (apply Rmult_le_pos; lra). lra.
    - lra.
  Qed.

  (** Simpson's rule. *)
  Lemma simpson : Big 5 (fun h t => y0 (t + h) - y0 t - h * (/ 6 * (y1 t + 4 * y1 (t + h / 2) + y1 (t + h)))).
  Proof.
    exists M. split; [exact M0|]. intros h t ((A & A') & B & C).
    set (A0 := fun h => y0 (t + h) - y0 t - h * (/ 6 * (y1 t + 4 * y1 (t + h / 2) + y1 (t + h)))).
    set (A1 := fun h => y1 (t + h) - / 6 * (y1 t + 4 * y1 (t + h / 2) + y1 (t + h)) - h / 6 * (2 * y2 (t + h / 2) + y2 (t + h))).
    set (A2 := fun h => 2 / 3 * (y2 (t + h) - y2 (t + h / 2)) - h / 6 * (y3 (t + h / 2) + y3 (t + h))).
    set (A3 := fun h => / 2 * (y3 (t + h) - y3 (t + h / 2)) - h / 6 * (/ 2 * y4 (t + h / 2) + y4 (t + h))).
    set (A4 := fun h => / 3 * (y4 (t + h) - y4 (t + h / 2)) - h / 6 * (/ 4 * y5 (t + h / 2) + y5 (t + h))).
    apply (grow A0 A1 h M 4 M0).
    - intros v Hv. unfold A0, A1. der. unfold Rdiv. vals. field.
    - unfold A0. rewrite ?(Rplus_0_r t). lra.
    - apply (grow A1 A2 h M 3 M0).
      + intros v Hv. unfold A1, A2. der. unfold Rdiv. vals. field.
      + unfold A1. replace (0 / 2) with 0 by field. rewrite ?(Rplus_0_r t). lra.
      + apply (grow A2 A3 h M 2 M0).
        * intros v Hv. unfold A2, A3. der. unfold Rdiv. vals. field.
        * unfold A2. replace (0 / 2) with 0 by field. rewrite ?(Rplus_0_r t). lra.
        * apply (grow A3 A4 h M 1 M0).
          -- intros v Hv. unfold A3, A4. der. unfold Rdiv. vals. field.
          -- unfold A3. replace (0 / 2) with 0 by field. rewrite ?(Rplus_0_r t). lra.
          -- intros v Hv. unfold A4. cbn [pow]. rewrite Rmult_1_r.
             pose proof (from_mid y4 y5 M D4 B5 t v B ltac:(lra) ltac:(lra)) as Q.
             pose proof (B5 (t + v / 2) ltac:(lra)) as Q5. pose proof (B5 (t + v) ltac:(lra)) as Q6.
             unfold Rminus at 1. eapply Rle_trans; [apply Rabs_triang|]. rewrite Rabs_Ropp, !Rabs_mult, (Rabs_right (v / 6)), (Rabs_right (/ 3)) by lra.
             assert (Rabs (/ 4 * y5 (t + v / 2) + y5 (t + v)) <= 5 / 4 * M).
             { eapply Rle_trans; [apply Rabs_triang|]. rewrite Rabs_mult, (Rabs_right (/ 4)) by lra. lra. }
             assert (v / 6 * Rabs (/ 4 * y5 (t + v / 2) + y5 (t + v)) <= v / 6 * (5 / 4 * M)) by (apply Rmult_le_compat_l; lra).
             assert (0 <= M * v) by (apply Rmult_le_pos; lra). lra.
    - lra.
  Qed.
End Chain.
