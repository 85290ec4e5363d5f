(** Lemmas: the increments of both pushers are bounded and of bounded rate. *)
From Coq Require Import Reals List Lia Lra Psatz.
From Coquelicot Require Import Coquelicot.
From Verif Require Import Model_Push Spec_Push Proofs_Push Spec_Conv Proofs_Conv Proofs_Conv2.
Import ListNotations.
Open Scope R_scope.

Definition Lips (P : arg -> part) : Prop := forall u, In u coords -> Lip (fun z => u (P z)).
Definition components : list (em -> R) := [ex; ey; ez; bx; by_; bz].
(** Fields that are bounded and vary at a bounded rate everywhere. *)
Definition tame (G : pos -> R -> em) : Prop := exists M, 0 <= M /\
  (forall r t, em_dist (G r t) em0 <= M) /\
  (forall r r' t t', em_dist (G r t) (G r' t') <= M * (rdist r r' + Rabs (t - t'))).

Lemma component_le e f g : In e components -> Rabs (e f - e g) <= em_dist f g.
Proof.
  intros H. unfold em_dist. pose proof (Rabs_pos (ex f - ex g)). pose proof (Rabs_pos (ey f - ey g)). pose proof (Rabs_pos (ez f - ez g)).
  pose proof (Rabs_pos (bx f - bx g)). pose proof (Rabs_pos (by_ f - by_ g)). pose proof (Rabs_pos (bz f - bz g)).
  each H; lra.
Qed.
Lemma component0 e : In e components -> e em0 = 0.
Proof. intros H. each H; reflexivity. Qed.

Section Pushers.
  Variables q m : R.
  Variable G : pos -> R -> em.
  Hypothesis HG : tame G.
  Notation qm := (q / (m * c_SI)).

  Lemma bl_field e X Y' Xi Tm : In e components -> Lip X -> Lip Y' -> Lip Xi -> Lip Tm ->
    BL (fun z => e (G (X z, Y' z, Xi z) (Tm z))).
  Proof.
    intros He (A & A0 & HA) (B & B0 & HB) (C & C0 & HC) (D & D0 & HD). destruct HG as (M & M0 & H1 & H2). split.
    - exists M. split; [exact M0|]. intros z _. pose proof (component_le e (G (X z, Y' z, Xi z) (Tm z)) em0 He) as L.
      rewrite (component0 e He), Rminus_0_r in L. specialize (H1 (X z, Y' z, Xi z) (Tm z)). lra.
    - exists (M * (A + B + C + D)). split; [apply Rmult_le_pos; lra|]. intros z w Dz Dw.
      eapply Rle_trans; [apply component_le, He|]. eapply Rle_trans; [apply H2|]. rewrite Rmult_assoc.
      apply Rmult_le_compat_l; [exact M0|]. unfold rdist. cbn [fst snd].
      specialize (HA z w Dz Dw). specialize (HB z w Dz Dw). specialize (HC z w Dz Dw). specialize (HD z w Dz Dw). lra.
  Qed.

  Lemma bl_vel P : Lips P -> forall a b c, (forall p, velocity p = (a p, b p, c p)) ->
    BL (fun z => a (P z)) /\ BL (fun z => b (P z)) /\ BL (fun z => c (P z)).
  Proof.
    intros HP a b c E.
    assert (Lx : Lip (fun z => px (P z))) by (apply (HP px); unfold coords; cbn; tauto).
    assert (Ly : Lip (fun z => py (P z))) by (apply (HP py); unfold coords; cbn; tauto).
    assert (Lz : Lip (fun z => pz (P z))) by (apply (HP pz); unfold coords; cbn; tauto).
    assert (Ea : forall p, a p = c_SI * (px p * / gam (px p) (py p) (pz p)) /\ b p = c_SI * (py p * / gam (px p) (py p) (pz p)) /\
                           c p = c_SI * (pz p * / gam (px p) (py p) (pz p))).
    { intros p. specialize (E p). unfold velocity, scal, momentum in E. injection E as <- <- <-.
      fold (gamma p). unfold gam. fold (gamma p). unfold Rdiv. repeat split; ring. }
    split; [|split].
    - apply (bl_ext (fun z => c_SI * (px (P z) * / gam (px (P z)) (py (P z)) (pz (P z))))).
      + intros z _. symmetry. apply Ea.
      + apply bl_mult; [apply bl_const|]. apply over_gam_bl; try assumption. intros z. apply gam_ge.
    - apply (bl_ext (fun z => c_SI * (py (P z) * / gam (px (P z)) (py (P z)) (pz (P z))))).
      + intros z _. symmetry. apply Ea.
      + apply bl_mult; [apply bl_const|]. apply over_gam_bl; try assumption. intros z. apply gam_ge.
    - apply (bl_ext (fun z => c_SI * (pz (P z) * / gam (px (P z)) (py (P z)) (pz (P z))))).
      + intros z _. symmetry. apply Ea.
      + apply bl_mult; [apply bl_const|]. apply over_gam_bl; try assumption. intros z. apply gam_ge.
  Qed.
  Definition vx (p : part) : R := c_SI / gamma p * px p.
  Definition vy (p : part) : R := c_SI / gamma p * py p.
  Definition vz (p : part) : R := c_SI / gamma p * pz p.
  Lemma vel_eq p : velocity p = (vx p, vy p, vz p). Proof. reflexivity. Qed.
  Lemma bl_vx P : Lips P -> BL (fun z => vx (P z)). Proof. intros H. apply (bl_vel P H vx vy vz vel_eq). Qed.
  Lemma bl_vy P : Lips P -> BL (fun z => vy (P z)). Proof. intros H. apply (bl_vel P H vx vy vz vel_eq). Qed.
  Lemma bl_vz P : Lips P -> BL (fun z => vz (P z)). Proof. intros H. apply (bl_vel P H vx vy vz vel_eq). Qed.

  Lemma bls_lorentz Tm P : Lip Tm -> Lips P -> BLs (fun z => lorentz q m G (Tm z) (P z)).
  Proof.
    intros HT HP.
    assert (Fl : forall e, In e components -> BL (fun z => e (G (pos_of (P z)) (Tm z)))).
    { intros e He. unfold pos_of. apply (bl_field e (fun z => x (P z)) (fun z => y (P z)) (fun z => xi (P z)) Tm He);
        try assumption; apply HP; unfold coords; cbn; tauto. }
    pose proof (bl_vx P HP). pose proof (bl_vy P HP). pose proof (bl_vz P HP).
    pose proof (Fl ex ltac:(unfold components; cbn; tauto)). pose proof (Fl ey ltac:(unfold components; cbn; tauto)).
    pose proof (Fl ez ltac:(unfold components; cbn; tauto)). pose proof (Fl bx ltac:(unfold components; cbn; tauto)).
    pose proof (Fl by_ ltac:(unfold components; cbn; tauto)). pose proof (Fl bz ltac:(unfold components; cbn; tauto)).
    set (F := fun z => G (pos_of (P z)) (Tm z)).
    intros u Hu. each Hu.
    - assumption.
    - assumption.
    - apply (bl_minus (fun z => vz (P z)) (fun _ => c_SI)); [assumption|apply bl_const].
    - change (BL (fun z => qm * (ex (F z) + (vy (P z) * bz (F z) - vz (P z) * by_ (F z))))).
      repeat first [assumption | apply bl_const | apply bl_minus | apply bl_plus | apply bl_mult].
    - change (BL (fun z => qm * (ey (F z) + (vz (P z) * bx (F z) - vx (P z) * bz (F z))))).
      repeat first [assumption | apply bl_const | apply bl_minus | apply bl_plus | apply bl_mult].
    - change (BL (fun z => qm * (ez (F z) + (vx (P z) * by_ (F z) - vy (P z) * bx (F z))))).
      repeat first [assumption | apply bl_const | apply bl_minus | apply bl_plus | apply bl_mult].
  Qed.

  Lemma lips_p : Lips a_p.
  Proof. intros u Hu. each Hu; [apply lip_x|apply lip_y|apply lip_xi|apply lip_px|apply lip_py|apply lip_pz]. Qed.
  Lemma lips_move P c k : Lips P -> BL c -> BLs k -> Lips (fun z => padd (P z) (pscal (c z) (k z))).
  Proof.
    intros HP Hc Hk u Hu. apply (lip_ext (fun z => u (P z) + c z * u (k z))).
    - intros z _. symmetry. apply coord_step, Hu.
    - apply lip_plus; [apply HP, Hu|]. apply bl_lip, bl_mult; [exact Hc|apply Hk, Hu].
  Qed.

  (** ** RK4 *)
  Definition phi_rk4 (z : arg) : part :=
    let f := lorentz q m G in
    let k1 := f (a_t z) (a_p z) in
    let k2 := f (a_t z + a_h z / 2) (padd (a_p z) (pscal (a_h z / 2) k1)) in
    let k3 := f (a_t z + a_h z / 2) (padd (a_p z) (pscal (a_h z / 2) k2)) in
    let k4 := f (a_t z + a_h z) (padd (a_p z) (pscal (a_h z) k3)) in
    pscal (/ 6) (padd k1 (padd (pscal 2 k2) (padd (pscal 2 k3) k4))).
  Lemma rk4_method h t p : classical_rk4 (lorentz q m G) t h p = padd p (pscal h (phi_rk4 (mka h t p))).
  Proof.
    unfold classical_rk4, phi_rk4. cbv zeta. cbn [a_h a_t a_p].
    generalize (lorentz q m G t p). intros k1. generalize (lorentz q m G (t + h / 2) (padd p (pscal (h / 2) k1))). intros k2.
    generalize (lorentz q m G (t + h / 2) (padd p (pscal (h / 2) k2))). intros k3.
    generalize (lorentz q m G (t + h) (padd p (pscal h k3))). intros k4.
    unfold padd, pscal. cbn [x y xi px py pz]. f_equal; field.
  Qed.
  Lemma rk4_at_zero t p : phi_rk4 (mka 0 t p) = lorentz q m G t p.
  Proof.
    unfold phi_rk4. cbv zeta. cbn [a_h a_t a_p].
    assert (E : forall k, padd p (pscal (0 / 2) k) = p).
    { intros k. unfold padd, pscal. destruct p as [a1 a2 a3 a4 a5 a6]; cbn [x y xi px py pz]. f_equal; field. }
    assert (E' : forall k, padd p (pscal 0 k) = p).
    { intros k. unfold padd, pscal. destruct p as [a1 a2 a3 a4 a5 a6]; cbn [x y xi px py pz]. f_equal; ring. }
    rewrite !E, E'. replace (t + 0 / 2) with t by field. rewrite Rplus_0_r.
    generalize (lorentz q m G t p). intros k. unfold padd, pscal. destruct k as [a1 a2 a3 a4 a5 a6]; cbn [x y xi px py pz]. f_equal; field.
  Qed.
  Lemma bl_half_h : BL (fun z => a_h z / 2).
  Proof. apply (bl_mult a_h (fun _ => / 2)); [apply bl_h|apply bl_const]. Qed.
  Lemma lip_mid : Lip (fun z => a_t z + a_h z / 2).
  Proof. apply lip_plus; [apply lip_t|apply bl_lip, bl_half_h]. Qed.
  Lemma bls_rk4 : BLs phi_rk4.
  Proof.
    assert (B1 : BLs (fun z => lorentz q m G (a_t z) (a_p z))) by (apply bls_lorentz; [apply lip_t|apply lips_p]).
    pose proof (bls_lorentz _ _ lip_mid (lips_move _ _ _ lips_p bl_half_h B1)) as B2.
    pose proof (bls_lorentz _ _ lip_mid (lips_move _ _ _ lips_p bl_half_h B2)) as B3.
    pose proof (bls_lorentz _ _ (lip_plus _ _ lip_t lip_h) (lips_move _ _ _ lips_p bl_h B3)) as B4.
    cbv beta in *.
    intros u Hu. specialize (B1 u Hu). specialize (B2 u Hu). specialize (B3 u Hu). specialize (B4 u Hu).
    unfold phi_rk4. cbv zeta.
    eapply bl_ext; [|exact (bl_mult _ _ (bl_const (/ 6)) (bl_plus _ _ B1 (bl_plus _ _ (bl_mult _ _ (bl_const 2) B2)
      (bl_plus _ _ (bl_mult _ _ (bl_const 2) B3) B4))))].
    intros z _. cbv beta. each Hu; reflexivity.
  Qed.
End Pushers.
