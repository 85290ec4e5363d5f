(** Lemmas: the Boris pusher as a one-step method. *)
From Coq Require Import Reals List Lia Lra Psatz.
From Coquelicot Require Import Coquelicot.
From Verif Require Import Model_Push Spec_Push Proofs_Push Spec_Conv Proofs_Conv Proofs_Conv2 Proofs_Conv3.
Import ListNotations.
Open Scope R_scope.

Lemma pow_gam a b c : sqrt (1 + (a ^ 2 + b ^ 2 + c ^ 2)) = gam a b c.
Proof. unfold gam. f_equal. ring. Qed.
Lemma gamma_gam p : gamma p = gam (px p) (py p) (pz p).
Proof. reflexivity. Qed.

Section Boris.
  Variable qm : R.
  Variable G : pos -> R -> em.
  Hypothesis HG : tame G.

  (** Field at the middle of the step. *)
  Definition mid (z : arg) : pos :=
    (x (a_p z) + vx (a_p z) * (a_h z / 2), y (a_p z) + vy (a_p z) * (a_h z / 2), xi (a_p z) + (vz (a_p z) - c_SI) * (a_h z / 2)).
  Definition F (z : arg) : em := G (mid z) (a_t z + a_h z / 2).
  (** Momentum after half the electric kick. *)
  Definition half (z : arg) : R := qm * a_h z / 2.
  Definition mx (z : arg) : R := px (a_p z) + half z * ex (F z).
  Definition my (z : arg) : R := py (a_p z) + half z * ey (F z).
  Definition mz (z : arg) : R := pz (a_p z) + half z * ez (F z).
  Definition ig (z : arg) : R := / gam (mx z) (my z) (mz z).
  Definition tx (z : arg) : R := half z * (c_SI * ig z) * bx (F z).
  Definition ty (z : arg) : R := half z * (c_SI * ig z) * by_ (F z).
  Definition tz (z : arg) : R := half z * (c_SI * ig z) * bz (F z).
  Definition cs (z : arg) : R := / (1 + (tx z * tx z + ty z * ty z + tz z * tz z)).
  Definition ux (z : arg) : R := mx z * ig z.
  Definition uy (z : arg) : R := my z * ig z.
  Definition uz (z : arg) : R := mz z * ig z.
  Definition fx (z : arg) : R := qm * (ex (F z) + cs z * c_SI *
    (uy z * bz (F z) + tx z * uz z * bz (F z) - tz z * ux z * bz (F z)
     - uz z * by_ (F z) - ty z * ux z * by_ (F z) + tx z * uy z * by_ (F z))).
  Definition fy (z : arg) : R := qm * (ey (F z) + cs z * c_SI *
    (uz z * bx (F z) + ty z * ux z * bx (F z) - tx z * uy z * bx (F z)
     - ux z * bz (F z) - tz z * uy z * bz (F z) + ty z * uz z * bz (F z))).
  Definition fz (z : arg) : R := qm * (ez (F z) + cs z * c_SI *
    (ux z * by_ (F z) + tz z * uy z * by_ (F z) - ty z * uz z * by_ (F z)
     - uy z * bx (F z) - tx z * uz z * bx (F z) + tz z * ux z * bx (F z))).
  Definition after (z : arg) : part :=
    mkp 0 0 0 (px (a_p z) + a_h z * fx z) (py (a_p z) + a_h z * fy z) (pz (a_p z) + a_h z * fz z).
  Definition phi_boris (z : arg) : part :=
    mkp (/ 2 * (vx (a_p z) + vx (after z))) (/ 2 * (vy (a_p z) + vy (after z)))
        (/ 2 * (vz (a_p z) + vz (after z)) - c_SI) (fx z) (fy z) (fz z).

  Lemma drift_eq h p : drift h p = mkp (x p + vx p * h) (y p + vy p * h) (xi p + (vz p - c_SI) * h) (px p) (py p) (pz p).
  Proof. reflexivity. Qed.
  Lemma v_same p p' : px p = px p' -> py p = py p' -> pz p = pz p' -> vx p = vx p' /\ vy p = vy p' /\ vz p = vz p'.
  Proof. unfold vx, vy, vz, gamma. intros -> -> ->. auto. Qed.

  Lemma boris_method h t p : boris1 qm G t h p = padd p (pscal h (phi_boris (mka h t p))).
  Proof.
    set (z := mka h t p). unfold boris1. cbv zeta.
    assert (E1 : pos_of (drift (h / 2) p) = mid z) by reflexivity. rewrite E1.
    change (G (mid z) (t + h / 2)) with (F z).
    set (p2 := push_momentum1 h qm (drift (h / 2) p) (F z)).
    assert (P2 : x p2 = x p + vx p * (h / 2) /\ y p2 = y p + vy p * (h / 2) /\ xi p2 = xi p + (vz p - c_SI) * (h / 2) /\
                 px p2 = px p + h * fx z /\ py p2 = py p + h * fy z /\ pz p2 = pz p + h * fz z).
    { unfold p2, push_momentum1. cbv zeta. cbn [x y xi px py pz]. rewrite !drift_eq. cbn [x y xi px py pz].
      rewrite !pow_gam.
      change (px p + qm * h / 2 * ex (F z)) with (mx z). change (py p + qm * h / 2 * ey (F z)) with (my z).
      change (pz p + qm * h / 2 * ez (F z)) with (mz z).
      change (c_SI / gam (mx z) (my z) (mz z)) with (c_SI * ig z). change (qm * h / 2) with (half z).
      change (half z * (c_SI * ig z) * bx (F z)) with (tx z). change (half z * (c_SI * ig z) * by_ (F z)) with (ty z).
      change (half z * (c_SI * ig z) * bz (F z)) with (tz z).
      assert (Ec : 2 / (1 + tx z ^ 2 + ty z ^ 2 + tz z ^ 2) = 2 * cs z).
      { unfold cs. unfold Rdiv. do 2 f_equal. ring. }
      rewrite Ec.
      assert (Eh : forall f, h * (qm * f) = 2 * half z * f) by (intros f; unfold half; cbn [a_h z]; field).
      unfold fx, fy, fz. rewrite !Eh.
      assert (Ex : px p = mx z - half z * ex (F z)) by (unfold mx; cbn [a_p z]; ring).
      assert (Ey : py p = my z - half z * ey (F z)) by (unfold my; cbn [a_p z]; ring).
      assert (Ez : pz p = mz z - half z * ez (F z)) by (unfold mz; cbn [a_p z]; ring).
      split; [reflexivity|]. split; [reflexivity|]. split; [reflexivity|]. rewrite Ex, Ey, Ez.
      unfold ux, uy, uz. generalize (cs z). intros c. unfold tx, ty, tz. generalize (ig z) (half z) (mx z) (my z) (mz z).
      intros i k a1 a2 a3. split; [|split]; ring. }
    clearbody p2. destruct P2 as (P1 & P2 & P3 & P4 & P5 & P6).
    destruct (v_same p2 (after z)) as (V1 & V2 & V3); [exact P4|exact P5|exact P6|].
    rewrite drift_eq, V1, V2, V3, P1, P2, P3, P4, P5, P6. unfold padd, pscal, phi_boris. cbn [x y xi px py pz z a_p a_h].
    f_equal; field.
  Qed.

  Lemma after_zero t p : vx (after (mka 0 t p)) = vx p /\ vy (after (mka 0 t p)) = vy p /\ vz (after (mka 0 t p)) = vz p.
  Proof. apply v_same; unfold after; cbn [px py pz a_p a_h]; ring. Qed.
  Lemma boris_at_zero q m t p : qm = q / (m * c_SI) -> phi_boris (mka 0 t p) = lorentz q m G t p.
  Proof.
    intros Eq. destruct (after_zero t p) as (A1 & A2 & A3). unfold phi_boris. cbn [a_p]. rewrite A1, A2, A3.
    set (z := mka 0 t p).
    assert (Eh : half z = 0) by (unfold half; cbn [a_h z]; field).
    assert (EF : F z = G (pos_of p) t).
    { unfold F, mid, pos_of. cbn [a_p a_h a_t z]. f_equal; [|field]. f_equal; [f_equal|]; field. }
    assert (Em : mx z = px p /\ my z = py p /\ mz z = pz p).
    { unfold mx, my, mz. rewrite Eh. cbn [a_p z]. split; [|split]; ring. }
    assert (Et : tx z = 0 /\ ty z = 0 /\ tz z = 0) by (unfold tx, ty, tz; rewrite Eh; split; [|split]; ring).
    destruct Em as (M1 & M2 & M3), Et as (T1 & T2 & T3).
    assert (Ec : cs z = 1) by (unfold cs; rewrite T1, T2, T3; field).
    assert (Eu : c_SI * ux z = vx p /\ c_SI * uy z = vy p /\ c_SI * uz z = vz p).
    { unfold ux, uy, uz, ig, vx, vy, vz. rewrite M1, M2, M3, gamma_gam. unfold Rdiv. split; [|split]; ring. }
    destruct Eu as (U1 & U2 & U3).
    unfold fx, fy, fz. rewrite EF, T1, T2, T3, Ec, Eq. set (f := G (pos_of p) t).
    change (lorentz q m G t p) with
      (mkp (vx p) (vy p) (vz p - c_SI) (q / (m * c_SI) * (ex f + (vy p * bz f - vz p * by_ f)))
         (q / (m * c_SI) * (ey f + (vz p * bx f - vx p * bz f))) (q / (m * c_SI) * (ez f + (vx p * by_ f - vy p * bx f)))).
    rewrite <- U1, <- U2, <- U3. f_equal; first [solve [f_equal; ring] | field].
  Qed.

  Lemma bl_F e : In e components -> BL (fun z => e (F z)).
  Proof.
    intros He. pose proof (bl_vx a_p lips_p). pose proof (bl_vy a_p lips_p). pose proof (bl_vz a_p lips_p).
    apply (bl_field G HG e _ _ _ _ He).
    - apply lip_plus; [apply lip_x|]. apply bl_lip, bl_mult; [assumption|apply bl_half_h].
    - apply lip_plus; [apply lip_y|]. apply bl_lip, bl_mult; [assumption|apply bl_half_h].
    - apply lip_plus; [apply lip_xi|]. apply bl_lip, bl_mult; [|apply bl_half_h]. apply bl_minus; [assumption|apply bl_const].
    - apply lip_mid.
  Qed.
  Lemma bl_half : BL half.
  Proof.
    apply (bl_ext (fun z => qm * (a_h z / 2))); [intros z _; unfold half; field|].
    apply bl_mult; [apply bl_const|apply bl_half_h].
  Qed.
  Lemma bls_boris : BLs phi_boris.
  Proof.
    pose proof (bl_F ex ltac:(unfold components; cbn; tauto)) as F1. pose proof (bl_F ey ltac:(unfold components; cbn; tauto)) as F2.
    pose proof (bl_F ez ltac:(unfold components; cbn; tauto)) as F3. pose proof (bl_F bx ltac:(unfold components; cbn; tauto)) as F4.
    pose proof (bl_F by_ ltac:(unfold components; cbn; tauto)) as F5. pose proof (bl_F bz ltac:(unfold components; cbn; tauto)) as F6.
    pose proof bl_half as Hh.
    assert (Lx : Lip mx) by (apply lip_plus; [apply lip_px|apply bl_lip, bl_mult; assumption]).
    assert (Ly : Lip my) by (apply lip_plus; [apply lip_py|apply bl_lip, bl_mult; assumption]).
    assert (Lz : Lip mz) by (apply lip_plus; [apply lip_pz|apply bl_lip, bl_mult; assumption]).
    assert (Hi : BL ig) by (apply bl_inv_gam; assumption).
    assert (Hx : BL ux) by (apply over_gam_bl; try assumption; intros z; apply gam_ge).
    assert (Hy : BL uy) by (apply over_gam_bl; try assumption; intros z; apply gam_ge).
    assert (Hz : BL uz) by (apply over_gam_bl; try assumption; intros z; apply gam_ge).
    assert (Tx : BL tx) by (unfold tx; repeat first [assumption | apply bl_const | apply bl_mult]).
    assert (Ty : BL ty) by (unfold ty; repeat first [assumption | apply bl_const | apply bl_mult]).
    assert (Tz : BL tz) by (unfold tz; repeat first [assumption | apply bl_const | apply bl_mult]).
    assert (Hc : BL cs).
    { apply bl_inv; [repeat first [assumption | apply bl_const | apply bl_plus | apply bl_mult]|].
      intros z. pose proof (Rle_0_sqr (tx z)). pose proof (Rle_0_sqr (ty z)). pose proof (Rle_0_sqr (tz z)). unfold Rsqr in *. lra. }
    assert (Bx : BL fx) by (unfold fx; repeat first [assumption | apply bl_const | apply bl_minus | apply bl_plus | apply bl_mult]).
    assert (By : BL fy) by (unfold fy; repeat first [assumption | apply bl_const | apply bl_minus | apply bl_plus | apply bl_mult]).
    assert (Bz : BL fz) by (unfold fz; repeat first [assumption | apply bl_const | apply bl_minus | apply bl_plus | apply bl_mult]).
    assert (La : Lips after).
    { intros u Hu. unfold after. each Hu; cbn [x y xi px py pz]; try apply lip_const.
      - apply lip_plus; [apply lip_px|apply bl_lip, bl_mult; [apply bl_h|assumption]].
      - apply lip_plus; [apply lip_py|apply bl_lip, bl_mult; [apply bl_h|assumption]].
      - apply lip_plus; [apply lip_pz|apply bl_lip, bl_mult; [apply bl_h|assumption]]. }
    pose proof (bl_vx a_p lips_p). pose proof (bl_vy a_p lips_p). pose proof (bl_vz a_p lips_p).
    pose proof (bl_vx after La). pose proof (bl_vy after La). pose proof (bl_vz after La).
    intros u Hu. unfold phi_boris. each Hu; cbn [x y xi px py pz];
      repeat first [assumption | apply bl_const | apply bl_minus | apply bl_plus | apply bl_mult].
  Qed.
End Boris.
