(** Lemmas: motions in fields that are affine in position and time. *)
From Coq Require Import Reals List Lia Lra.
From Coquelicot Require Import Coquelicot.
From Verif Require Import Model_Push Spec_Push Proofs_Push
  Spec_Conv Proofs_Conv Proofs_Conv2 Proofs_Conv3 Proofs_Conv4 Proofs_Conv5 Proofs_Conv6 Proofs_Ord Proofs_Ord2 Proofs_Ord3
  Proofs_Ord4 Proofs_Ord5 Proofs_Ord6 Proofs_Ord7.
Import ListNotations.
Open Scope R_scope.

Section Times.
  Variable T : R.
  Notation Dn n := (derivable_times n T).
  Lemma times_less n g : Dn (S n) g -> Dn n g.
  Proof.
    revert g. induction n as [|n IH]; intros g H.
    - exact (derivable_bounded 1 T g H).
    - destruct H as (g' & D & H). exists g'. split; [exact D|]. apply IH, H.
  Qed.
  Lemma times_ext n g k : (forall s, g s = k s) -> Dn n g -> Dn n k.
  Proof.
    revert g k. induction n as [|n IH]; intros g k E.
    - intros (M & H). exists M. intros s Hs. rewrite <- E. apply H, Hs.
    - intros (g' & D & H). exists g'. split; [|exact H]. intros s Hs. apply (is_derive_ext g k); [exact E|apply D, Hs].
  Qed.
  Lemma times_const n c : Dn n (fun _ => c).
  Proof.
    revert c. induction n as [|n IH]; intros c.
    - exists (Rabs c). intros. lra.
    - exists (fun _ => 0). split; [|apply IH]. intros s _. auto_derive; [exact I|reflexivity].
  Qed.
  Lemma times_id n : Dn n (fun s => s).
  Proof.
    destruct n as [|n].
    - exists T. intros s Hs. rewrite Rabs_right; lra.
    - exists (fun _ => 1). split; [|apply times_const]. intros s _. auto_derive; [exact I|reflexivity].
  Qed.
  Lemma times_plus n g k : Dn n g -> Dn n k -> Dn n (fun s => g s + k s).
  Proof.
    revert g k. induction n as [|n IH]; intros g k.
    - intros (M & H) (N & K). exists (M + N). intros s Hs. eapply Rle_trans; [apply Rabs_triang|]. specialize (H s Hs). specialize (K s Hs). lra.
    - intros (g' & D & H) (k' & D' & H'). exists (fun s => g' s + k' s). split; [|apply IH; assumption].
      intros s Hs. apply (is_derive_plus g k); [apply D, Hs|apply D', Hs].
  Qed.
  Lemma times_mult n g k : Dn n g -> Dn n k -> Dn n (fun s => g s * k s).
  Proof.
    revert g k. induction n as [|n IH]; intros g k.
    - intros (M & H) (N & K). exists (M * N). intros s Hs. rewrite Rabs_mult. apply Rmult_le_compat; try apply Rabs_pos; [apply H, Hs|apply K, Hs].
    - intros Hg Hk. pose proof (times_less n g Hg) as Lg. pose proof (times_less n k Hk) as Lk.
      destruct Hg as (g' & D & H). destruct Hk as (k' & D' & H'). exists (fun s => g' s * k s + g s * k' s). split.
      + intros s Hs. apply (is_derive_mult g k); [apply D, Hs|apply D', Hs|]. intros a b. apply Rmult_comm.
      + apply times_plus; apply IH; assumption.
  Qed.
  Lemma times_inv n g : (forall s, 1 <= g s) -> Dn n g -> Dn n (fun s => / g s).
  Proof.
    intros L. revert g L. induction n as [|n IH]; intros g L.
    - intros _. exists 1. intros s _. specialize (L s). rewrite Rabs_right by (left; apply Rinv_0_lt_compat; lra).
      rewrite <- Rinv_1. apply Rinv_le_contravar; lra.
    - intros Hg. pose proof (times_less n g Hg) as Lg. destruct Hg as (g' & D & H).
      exists (fun s => -1 * (g' s * (/ g s * / g s))). split.
      + intros s Hs. specialize (L s). replace (-1 * (g' s * (/ g s * / g s))) with (- g' s / g s ^ 2) by (field; lra).
        apply (is_derive_inv g s (g' s)); [apply D, Hs|lra].
      + apply (times_mult n (fun _ => -1)); [apply times_const|]. apply times_mult; [exact H|]. apply times_mult; apply IH; assumption.
  Qed.
  Lemma times_root n g : (forall s, 1 <= g s) -> Dn n g -> Dn n (fun s => sqrt (g s)).
  Proof.
    assert (R1 : forall a, 1 <= a -> 1 <= sqrt a) by (intros a Ha; rewrite <- sqrt_1 at 1; apply sqrt_le_1; lra).
    intros L. revert g L. induction n as [|n IH]; intros g L.
    - intros (M & H). exists M. intros s Hs. eapply Rle_trans; [|apply (H s Hs)]. specialize (L s). pose proof (R1 _ L) as Q.
      rewrite !Rabs_right by lra. rewrite <- (sqrt_sqrt (g s)) at 2 by lra. rewrite <- (Rmult_1_r (sqrt (g s))) at 1. apply Rmult_le_compat_l; lra.
    - intros Hg. pose proof (times_less n g Hg) as Lg. destruct Hg as (g' & D & H).
      exists (fun s => / 2 * (g' s * / sqrt (g s))). split.
      + intros s Hs. specialize (L s). pose proof (R1 _ L) as Q.
        assert (V : Derive (fun z => g z) s = g' s) by (apply (is_derive_unique g), D, Hs).
        auto_derive; [split; [exists (g' s); apply D, Hs|split; [lra|exact I]]|]. rewrite V. field. lra.
      + apply (times_mult n (fun _ => / 2)); [apply times_const|]. apply times_mult; [exact H|].
        apply (times_inv n (fun s => sqrt (g s))); [intros s; apply R1, L|]. apply IH; assumption.
  Qed.
  Lemma times_scal n c g : Dn n g -> Dn n (fun s => c * g s).
  Proof. intros H. apply (times_mult n (fun _ => c)); [apply times_const|exact H]. Qed.
End Times.

Section Affine.
  Variable G : pos -> R -> em.
  Hypothesis HA : forall e, In e components -> affine (fun r t => e (G r t)).
  Variables q m w T : R.
  Variable Y : R -> part.
  Hypothesis HR : regular w T G.
  Hypothesis HY : motion q m G T Y.
  Hypothesis Hin : forall t, 0 <= t <= T -> within w (pos_of (Y t)).
  Notation f := (lorentz q m G).

  Lemma motion_coord u : In u coords -> forall t, 0 <= t <= T -> is_derive (fun s => u (Y s)) t (u (f t (Y t))).
  Proof. intros Hu t Ht. destruct (HY t Ht) as (D1 & D2 & D3 & D4 & D5 & D6). each Hu; assumption. Qed.
  Lemma motion_bounded u : In u coords -> derivable_times 0 T (fun s => u (Y s)).
  Proof.
    intros Hu. destruct (Rle_lt_dec 0 T) as [T0|T0]; [|exists 0; intros; lra].
    assert (W0 : 0 <= w).
    { destruct (Hin 0 ltac:(lra)) as (H & _). eapply Rle_trans; [apply Rabs_pos|exact H]. }
    destruct (rhs_lip q m (clipped w T G) (clipped_tame w T G W0 T0 HR)) as (M & M0 & H).
    assert (B : bl T (fun s => u (Y s))).
    { apply (bl_der T (fun s => u (Y s)) (fun s => u (f s (Y s))) M (motion_coord u Hu)). intros s Hs.
      rewrite <- (lorentz_same q m w T G s (Y s)) by (apply Hin, Hs || exact Hs). apply (H u Hu s (Y s) s (Y s)). }
    destruct B as ((C & _ & HC) & _). exists C. exact HC.
  Qed.
  Lemma motion_times n : forall u, In u coords -> derivable_times n T (fun s => u (Y s)).
  Proof.
    induction n as [|n IH]; [exact motion_bounded|].
    assert (X1 : derivable_times n T (fun s => x (Y s))) by (apply IH; unfold coords; cbn [In]; tauto).
    assert (X2 : derivable_times n T (fun s => y (Y s))) by (apply IH; unfold coords; cbn [In]; tauto).
    assert (X3 : derivable_times n T (fun s => xi (Y s))) by (apply IH; unfold coords; cbn [In]; tauto).
    assert (X4 : derivable_times n T (fun s => px (Y s))) by (apply IH; unfold coords; cbn [In]; tauto).
    assert (X5 : derivable_times n T (fun s => py (Y s))) by (apply IH; unfold coords; cbn [In]; tauto).
    assert (X6 : derivable_times n T (fun s => pz (Y s))) by (apply IH; unfold coords; cbn [In]; tauto).
    assert (Fl : forall e, In e components -> derivable_times n T (fun s => e (G (pos_of (Y s)) s))).
    { intros e He. destruct (HA e He) as (a & b & c & d & k & E).
      apply (times_ext T n (fun s => a * x (Y s) + b * y (Y s) + c * xi (Y s) + d * s + k)); [intros s; rewrite E; reflexivity|].
      repeat apply times_plus; try apply times_scal; try assumption; [apply times_id|apply times_const]. }
    assert (Gm : derivable_times n T (fun s => gamma (Y s))).
    { unfold gamma, momentum.
      apply (times_root T n (fun s => 1 + (px (Y s) * px (Y s) + py (Y s) * py (Y s) + pz (Y s) * pz (Y s)))).
      - intros s. pose proof (Rle_0_sqr (px (Y s))). pose proof (Rle_0_sqr (py (Y s))). pose proof (Rle_0_sqr (pz (Y s))). unfold Rsqr in *. lra.
      - apply (times_plus T n (fun _ => 1)); [apply times_const|]. repeat apply times_plus; apply times_mult; assumption. }
    assert (V : forall u, In u coords -> derivable_times n T (fun s => c_SI * / gamma (Y s) * u (Y s))).
    { intros u Hu. apply times_mult; [|apply IH, Hu]. apply times_scal, times_inv; [|exact Gm]. intros s. rewrite gamma_gam. apply gam_ge1. }
    assert (V1 : derivable_times n T (fun s => vx (Y s))) by (apply (V px); unfold coords; cbn [In]; tauto).
    assert (V2 : derivable_times n T (fun s => vy (Y s))) by (apply (V py); unfold coords; cbn [In]; tauto).
    assert (V3 : derivable_times n T (fun s => vz (Y s))) by (apply (V pz); unfold coords; cbn [In]; tauto).
    assert (Fo : forall a b c (v1 v2 : part -> R), In a components -> In b components -> In c components ->
      derivable_times n T (fun s => v1 (Y s)) -> derivable_times n T (fun s => v2 (Y s)) ->
      derivable_times n T (fun s => q / (m * c_SI) * (a (G (pos_of (Y s)) s) + (v1 (Y s) * b (G (pos_of (Y s)) s) + -1 * (v2 (Y s) * c (G (pos_of (Y s)) s)))))).
    { intros a b c v1 v2 Ha Hb Hc H1 H2. apply times_scal.
      apply (times_plus T n (fun s => a (G (pos_of (Y s)) s))); [apply Fl, Ha|].
      apply (times_plus T n (fun s => v1 (Y s) * b (G (pos_of (Y s)) s))); [|apply times_scal]; apply times_mult; auto. }
    intros u Hu. exists (fun s => u (f s (Y s))). split; [apply motion_coord, Hu|].
    assert (E0 : forall a b c, a - b * c = a + -1 * (b * c)) by (intros; ring).
    each Hu.
    - exact V1.
    - exact V2.
    - apply (times_plus T n (fun s => vz (Y s)) (fun _ => - c_SI)); [exact V3|apply times_const].
    - eapply times_ext; [|apply (Fo ex bz by_ vy vz); unfold components; cbn [In]; tauto || assumption].
      intros s. unfold lorentz, velocity, cross, scal, vadd3, momentum, e_field, b_field, vy, vz. cbn [px]. ring.
    - eapply times_ext; [|apply (Fo ey bx bz vz vx); unfold components; cbn [In]; tauto || assumption].
      intros s. unfold lorentz, velocity, cross, scal, vadd3, momentum, e_field, b_field, vx, vz. cbn [py]. ring.
    - eapply times_ext; [|apply (Fo ez by_ bx vx vy); unfold components; cbn [In]; tauto || assumption].
      intros s. unfold lorentz, velocity, cross, scal, vadd3, momentum, e_field, b_field, vx, vy. cbn [pz]. ring.
  Qed.
End Affine.

Lemma affine_gradients w T G : (forall e, In e components -> affine (fun r t => e (G r t))) -> gradients w T G.
Proof.
  intros HA. exists 0. split; [lra|]. intros e He. destruct (HA e He) as (a & b & c & d & k & E).
  exists (fun _ _ => (a, b, c)). intros r r' t t' _ _ _ _. split.
  - unfold rdist. cbn [fst snd]. rewrite !Rminus_eq_0, Rabs_R0. lra.
  - rewrite !E. unfold inner. cbn [fst snd].
    match goal with |- Rabs ?v <= _ => replace v with 0 by ring end. rewrite Rabs_R0. lra.
Qed.
Lemma affine_well_behaved G : affine (fun r t => ex (G r t)) -> affine (fun r t => ey (G r t)) -> affine (fun r t => ez (G r t)) ->
  affine (fun r t => bx (G r t)) -> affine (fun r t => by_ (G r t)) -> affine (fun r t => bz (G r t)) -> well_behaved G.
Proof.
  intros A1 A2 A3 A4 A5 A6 w T.
  assert (HA : forall e, In e components -> affine (fun r t => e (G r t))) by (intros e He; each He; assumption).
  assert (HR : regular w T G) by (apply affine_regular; assumption).
  split; [exact HR|]. split; [apply affine_smooth; assumption|]. split; [apply affine_gradients, HA|].
  intros q m Y HY Hin n u Hu. apply (motion_times G HA q m w T Y HR HY Hin n u Hu).
Qed.
