(** Lemmas: both pushers are of second order along a motion through fields with bounded second differences. *)
From Coq Require Import Reals List Lia Lra Psatz.
From Coquelicot Require Import Coquelicot.
From Verif Require Import Model_Push Spec_Push Proofs_Push Spec_Conv Proofs_Conv Proofs_Conv2 Proofs_Conv3 Proofs_Conv4 Proofs_Ord.
Import ListNotations.
Open Scope R_scope.

Section Motion.
  Variables q m h1 T : R.
  Hypothesis H1 : 0 <= h1 <= 1.
  Variable G : pos -> R -> em.
  Hypothesis HG : tame G.
  Variable Y : R -> part.
  Notation f := (lorentz q m G).
  Notation qm := (q / (m * c_SI)).
  Hypothesis HY : forall t, 0 <= t <= T -> forall u, In u coords -> is_derive (fun s => u (Y s)) t (u (f t (Y t))).
  Definition felt (s : R) : em := G (pos_of (Y s)) s.
  Notation C11 := (C11 h1 T).
  Notation Big := (Big h1 T).
  Hypothesis HF : forall e, In e components -> C11 (fun s => e (felt s)).
  Ltac coord := unfold coords; cbn [In]; tauto.
  Ltac comp := unfold components; cbn [In]; tauto.

  Lemma rhs_lip : exists M, 0 <= M /\ forall u, In u coords -> forall t p t' p', Rabs (u (f t p)) <= M /\
    Rabs (u (f t p) - u (f t' p')) <= M * (Rabs (t - t') + pdist p p').
  Proof.
    destruct (bls_uniform _ (bls_lorentz q m G HG a_t a_p lip_t lips_p)) as (M & M0 & H). exists M. split; [exact M0|].
    intros u Hu t p t' p'. destruct (H u Hu (mka 0 t p) (mka 0 t' p')) as [A B]; [unfold dom; cbn; lra|unfold dom; cbn; lra|].
    cbn [a_t a_p] in *. split; [exact A|]. eapply Rle_trans; [exact B|]. unfold dz. cbn [a_h a_t a_p].
    rewrite Rminus_0_r, Rabs_R0. right. ring.
  Qed.
  Lemma rhs_along : exists M L, 0 <= M /\ 0 <= L /\ forall u, In u coords ->
    (forall s, 0 <= s <= T -> Rabs (u (f s (Y s))) <= M) /\
    (forall s s', 0 <= s <= T -> 0 <= s' <= T -> Rabs (u (f s (Y s)) - u (f s' (Y s'))) <= L * Rabs (s - s')).
  Proof.
    destruct rhs_lip as (M & M0 & H). exists M, (M * (1 + 6 * M)). split; [exact M0|].
    split; [apply Rmult_le_pos; lra|]. intros u Hu. split; [intros s _; apply (H u Hu s (Y s) s (Y s))|].
    assert (Mv : forall v, In v coords -> forall a b, 0 <= a -> a <= b -> b <= T -> Rabs (v (Y b) - v (Y a)) <= M * Rabs (b - a)).
    { intros v Hv a b A B C. eapply Rle_trans; [apply (along_move T (fun s => v (Y s)) (fun s => v (f s (Y s)))
        (fun s Hs => HY s Hs v Hv) M (fun s Hs => proj1 (H v Hv s (Y s) s (Y s))) a b A B C)|]. rewrite Rabs_right by lra. lra. }
    assert (Mw : forall v, In v coords -> forall a b, 0 <= a <= T -> 0 <= b <= T -> Rabs (v (Y a) - v (Y b)) <= M * Rabs (a - b)).
    { intros v Hv a b A B. destruct (Rle_lt_dec a b).
      - rewrite (Rabs_minus_sym (v (Y a))), (Rabs_minus_sym a). apply Mv; lra || assumption.
      - apply Mv; lra || assumption. }
    intros s s' Hs Hs'. eapply Rle_trans; [apply (H u Hu s (Y s) s' (Y s'))|]. rewrite Rmult_assoc.
    apply Rmult_le_compat_l; [exact M0|].
    assert (D : pdist (Y s) (Y s') <= 6 * (M * Rabs (s - s'))) by (apply pdist_small; intros v Hv; apply Mw; assumption). lra.
  Qed.

  Lemma motion_c11 u : In u coords -> C11 (fun s => u (Y s)).
  Proof.
    intros Hu. destruct rhs_along as (M & L & M0 & L0 & H). destruct (H u Hu) as [Hm Hl].
    apply (along_c11 h1 T (fun s => u (Y s)) (fun s => u (f s (Y s))) (fun s Hs => HY s Hs u Hu) M L M0 L0 Hm).
    intros s s' Hs Hs' _. apply Hl; assumption.
  Qed.
  Lemma motion_first u : In u coords -> Big 2 (fun h t => u (Y (t + h / 2)) - u (Y t) - h / 2 * u (f t (Y t))).
  Proof.
    intros Hu. destruct rhs_along as (M & L & M0 & L0 & H). destruct (H u Hu) as [Hm Hl].
    apply (along_first h1 T H1 (fun s => u (Y s)) (fun s => u (f s (Y s))) (fun s Hs => HY s Hs u Hu) L L0).
    intros s s' Hs Hs' _. apply Hl; assumption.
  Qed.

  Definition ig_of (s : R) : R := / gam (px (Y s)) (py (Y s)) (pz (Y s)).
  Lemma ig_c11 : C11 ig_of.
  Proof. apply (c11_inv h1 T H1 (fun s => gam (px (Y s)) (py (Y s)) (pz (Y s)))); [intros; apply gam_ge1|]. apply (c11_gam h1 T H1); apply motion_c11; coord. Qed.
  Lemma v_c11 : C11 (fun s => vx (Y s)) /\ C11 (fun s => vy (Y s)) /\ C11 (fun s => vz (Y s)).
  Proof.
    assert (E : forall w, In w coords -> C11 (fun s => c_SI * (w (Y s) * ig_of s))).
    { intros w Hw. apply (c11_mult h1 T H1 (fun _ => c_SI)); [apply c11_const|].
      apply (c11_mult h1 T H1 (fun s => w (Y s)) ig_of); [apply motion_c11, Hw|apply ig_c11]. }
    split; [|split].
    - eapply (c11_ext h1 T); [|apply (E px); coord]. intros s _. unfold vx, ig_of. rewrite gamma_gam. unfold Rdiv. ring.
    - eapply (c11_ext h1 T); [|apply (E py); coord]. intros s _. unfold vy, ig_of. rewrite gamma_gam. unfold Rdiv. ring.
    - eapply (c11_ext h1 T); [|apply (E pz); coord]. intros s _. unfold vz, ig_of. rewrite gamma_gam. unfold Rdiv. ring.
  Qed.
  Lemma rhs_c11 u : In u coords -> C11 (fun s => u (f s (Y s))).
  Proof.
    intros Hu. destruct v_c11 as (Vx & Vy & Vz).
    pose proof (HF ex ltac:(comp)) as Ex. pose proof (HF ey ltac:(comp)) as Ey. pose proof (HF ez ltac:(comp)) as Ez.
    pose proof (HF bx ltac:(comp)) as Bx. pose proof (HF by_ ltac:(comp)) as By. pose proof (HF bz ltac:(comp)) as Bz.
    pose proof (c11_mult h1 T H1) as Ml. pose proof (c11_plus h1 T) as Pl. pose proof (c11_minus h1 T H1) as Mi.
    each Hu.
    - exact Vx.
    - exact Vy.
    - apply (Mi (fun s => vz (Y s)) (fun _ => c_SI)); [exact Vz|apply c11_const].
    - change (C11 (fun s => qm * (ex (felt s) + (vy (Y s) * bz (felt s) - vz (Y s) * by_ (felt s))))).
      apply (Ml (fun _ => qm)); [apply c11_const|]. apply (Pl (fun s => ex (felt s))); [exact Ex|].
      apply (Mi (fun s => vy (Y s) * bz (felt s)) (fun s => vz (Y s) * by_ (felt s)));
        [apply (Ml (fun s => vy (Y s)))|apply (Ml (fun s => vz (Y s)))]; assumption.
    - change (C11 (fun s => qm * (ey (felt s) + (vz (Y s) * bx (felt s) - vx (Y s) * bz (felt s))))).
      apply (Ml (fun _ => qm)); [apply c11_const|]. apply (Pl (fun s => ey (felt s))); [exact Ey|].
      apply (Mi (fun s => vz (Y s) * bx (felt s)) (fun s => vx (Y s) * bz (felt s)));
        [apply (Ml (fun s => vz (Y s)))|apply (Ml (fun s => vx (Y s)))]; assumption.
    - change (C11 (fun s => qm * (ez (felt s) + (vx (Y s) * by_ (felt s) - vy (Y s) * bx (felt s))))).
      apply (Ml (fun _ => qm)); [apply c11_const|]. apply (Pl (fun s => ez (felt s))); [exact Ez|].
      apply (Mi (fun s => vx (Y s) * by_ (felt s)) (fun s => vy (Y s) * bx (felt s)));
        [apply (Ml (fun s => vx (Y s)))|apply (Ml (fun s => vy (Y s)))]; assumption.
  Qed.
  Lemma motion_third u : In u coords -> Big 3 (fun h t => u (Y (t + h)) - u (Y t) - h * u (f (t + h / 2) (Y (t + h / 2)))).
  Proof.
    intros Hu. destruct rhs_along as (M & L & M0 & L0 & H). destruct (H u Hu) as [Hm Hl].
    apply (along_third h1 T (fun s => u (Y s)) (fun s => u (f s (Y s))) (fun s Hs => HY s Hs u Hu)).
    apply (rhs_c11 u Hu).
  Qed.

  (** Nearby arguments of the right-hand side. *)
  Lemma big_pdist k P P' : (forall u, In u coords -> Big k (fun h t => u (P h t) - u (P' h t))) ->
    Big k (fun h t => pdist (P h t) (P' h t)).
  Proof.
    intros HP. unfold pdist.
    pose proof (fun u Hu => big_abs h1 T k _ (HP u Hu)) as Q. pose proof (big_plus h1 T k) as Pl.
    apply (Pl (fun h t => Rabs (x (P h t) - x (P' h t)) + Rabs (y (P h t) - y (P' h t)) + Rabs (xi (P h t) - xi (P' h t)) +
                Rabs (px (P h t) - px (P' h t)) + Rabs (py (P h t) - py (P' h t)))); [|apply Q; coord].
    apply (Pl (fun h t => Rabs (x (P h t) - x (P' h t)) + Rabs (y (P h t) - y (P' h t)) + Rabs (xi (P h t) - xi (P' h t)) +
                Rabs (px (P h t) - px (P' h t)))); [|apply Q; coord].
    apply (Pl (fun h t => Rabs (x (P h t) - x (P' h t)) + Rabs (y (P h t) - y (P' h t)) + Rabs (xi (P h t) - xi (P' h t)))); [|apply Q; coord].
    apply (Pl (fun h t => Rabs (x (P h t) - x (P' h t)) + Rabs (y (P h t) - y (P' h t)))); [|apply Q; coord].
    apply (Pl (fun h t => Rabs (x (P h t) - x (P' h t)))); apply Q; coord.
  Qed.
  Lemma big_rhs k tm P P' : (forall u, In u coords -> Big k (fun h t => u (P h t) - u (P' h t))) ->
    forall u, In u coords -> Big k (fun h t => u (f (tm h t) (P h t)) - u (f (tm h t) (P' h t))).
  Proof.
    intros HP u Hu. destruct rhs_lip as (M & M0 & H).
    apply (big_le h1 T k _ _ (big_scal h1 T k M _ (big_pdist k P P' HP))). intros h t _.
    destruct (H u Hu (tm h t) (P h t) (tm h t) (P' h t)) as [_ L]. rewrite Rminus_eq_0, Rabs_R0, Rplus_0_l in L.
    rewrite (Rabs_right (M * _)); [exact L|]. apply Rle_ge, Rmult_le_pos; [exact M0|apply pdist_pos].
  Qed.

  (** ** RK4 *)
  Notation Z h t := (mka h t (Y t)).
  Lemma rk4_second u : In u coords -> Big 2 (fun h t => u (phi_rk4 q m G (Z h t)) - u (f (t + h / 2) (Y (t + h / 2)))).
  Proof.
    set (k1 := fun h t : R => f t (Y t)).
    set (k2 := fun h t : R => f (t + h / 2) (padd (Y t) (pscal (h / 2) (k1 h t)))).
    set (k3 := fun h t : R => f (t + h / 2) (padd (Y t) (pscal (h / 2) (k2 h t)))).
    set (k4 := fun h t : R => f (t + h) (padd (Y t) (pscal h (k3 h t)))).
    set (fm := fun h t : R => f (t + h / 2) (Y (t + h / 2))).
    pose proof (big_less h1 T H1) as Ls.
    assert (Fm : forall v, In v coords -> Big 1 (fun h t => v (fm h t) - v (f t (Y t)))).
    { intros v Hv. apply (c11_half h1 T H1 (fun s => v (f s (Y s)))), rhs_c11, Hv. }
    assert (E2 : forall v, In v coords -> Big 2 (fun h t => v (k2 h t) - v (fm h t))).
    { apply (big_rhs 2 (fun h t => t + h / 2) (fun h t => padd (Y t) (pscal (h / 2) (k1 h t))) (fun h t => Y (t + h / 2))).
      intros v Hv. apply (big_ext h1 T 2 (fun h t => - (v (Y (t + h / 2)) - v (Y t) - h / 2 * v (f t (Y t))))).
      - intros h t _. rewrite coord_step by exact Hv. unfold k1. ring.
      - apply big_opp, motion_first, Hv. }
    assert (E3 : forall v, In v coords -> Big 2 (fun h t => v (k3 h t) - v (fm h t))).
    { apply (big_rhs 2 (fun h t => t + h / 2) (fun h t => padd (Y t) (pscal (h / 2) (k2 h t))) (fun h t => Y (t + h / 2))).
      intros v Hv. apply (big_ext h1 T 2 (fun h t => - (v (Y (t + h / 2)) - v (Y t) - h / 2 * v (f t (Y t)))
         + h * (/ 2 * ((v (k2 h t) - v (fm h t)) + (v (fm h t) - v (f t (Y t))))))).
      - intros h t _. rewrite coord_step by exact Hv. field.
      - apply big_plus; [apply big_opp, motion_first, Hv|]. apply (big_mult h1 T 1 1 (fun h _ => h)); [apply big_h|].
        apply big_scal, big_plus; [apply Ls, E2, Hv|apply Fm, Hv]. }
    assert (E4 : forall v, In v coords -> Big 2 (fun h t => v (k4 h t) - v (f (t + h) (Y (t + h))))).
    { apply (big_rhs 2 (fun h t => t + h) (fun h t => padd (Y t) (pscal h (k3 h t))) (fun h t => Y (t + h))).
      intros v Hv. apply Ls. apply (big_ext h1 T 3 (fun h t => - (v (Y (t + h)) - v (Y t) - h * v (fm h t)) + h * (v (k3 h t) - v (fm h t)))).
      - intros h t _. rewrite coord_step by exact Hv. ring.
      - apply big_plus; [apply big_opp, motion_third, Hv|]. apply (big_mult h1 T 1 2 (fun h _ => h)); [apply big_h|apply E3, Hv]. }
    intros Hu. destruct (rhs_c11 u Hu) as (_ & _ & _ & _ & S2).
    apply (big_ext h1 T 2 (fun h t => / 6 * (2 * (u (k2 h t) - u (fm h t)) + 2 * (u (k3 h t) - u (fm h t))
       + ((u (k4 h t) - u (f (t + h) (Y (t + h)))) + second (fun s => u (f s (Y s))) h t)))).
    - intros h t _. change (phi_rk4 q m G (Z h t)) with (pscal (/ 6) (padd (k1 h t) (padd (pscal 2 (k2 h t)) (padd (pscal 2 (k3 h t)) (k4 h t))))).
      assert (Ec : u (pscal (/ 6) (padd (k1 h t) (padd (pscal 2 (k2 h t)) (padd (pscal 2 (k3 h t)) (k4 h t)))))
                   = / 6 * (u (k1 h t) + (2 * u (k2 h t) + (2 * u (k3 h t) + u (k4 h t))))) by (each Hu; reflexivity).
      rewrite Ec. unfold second, fm, k1. field.
    - apply big_scal, big_plus; [apply big_plus; apply big_scal; [apply E2|apply E3]; exact Hu|].
      apply big_plus; [apply E4, Hu|exact S2].
  Qed.

  (** ** Boris *)
  Lemma boris_identity (k i c a b d m1 m2 m3 : R) :
    let t1 := k * (c * i) * a in let t2 := k * (c * i) * b in let t3 := k * (c * i) * d in
    let D := / (1 + (t1 * t1 + t2 * t2 + t3 * t3)) in
    let u1 := m1 * i in let u2 := m2 * i in let u3 := m3 * i in
    let w1 := D * c * (u2 * d + t1 * u3 * d - t3 * u1 * d - u3 * b - t2 * u1 * b + t1 * u2 * b) in
    let w2 := D * c * (u3 * a + t2 * u1 * a - t1 * u2 * a - u1 * d - t3 * u2 * d + t2 * u3 * d) in
    let w3 := D * c * (u1 * b + t3 * u2 * b - t2 * u3 * b - u2 * a - t1 * u3 * a + t3 * u1 * a) in
    w1 = c * i * ((m2 + k * w2) * d - (m3 + k * w3) * b) /\
    w2 = c * i * ((m3 + k * w3) * a - (m1 + k * w1) * d) /\
    w3 = c * i * ((m1 + k * w1) * b - (m2 + k * w2) * a).
  Proof.
    intros t1 t2 t3 D u1 u2 u3 w1 w2 w3.
    assert (P : 0 < 1 + (t1 * t1 + t2 * t2 + t3 * t3)).
    { pose proof (Rle_0_sqr t1). pose proof (Rle_0_sqr t2). pose proof (Rle_0_sqr t3). unfold Rsqr in *. lra. }
    assert (E : D * (1 + (t1 * t1 + t2 * t2 + t3 * t3)) = 1) by (unfold D; apply Rinv_l; lra).
    clearbody D.
    split; [|split].
    - transitivity (c * i * (m2 * d - m3 * b) * (D * (1 + (t1 * t1 + t2 * t2 + t3 * t3))) + c * i * k * (w2 * d - w3 * b));
        [unfold w1, w2, w3, u1, u2, u3, t1, t2, t3; ring|rewrite E; ring].
    - transitivity (c * i * (m3 * a - m1 * d) * (D * (1 + (t1 * t1 + t2 * t2 + t3 * t3))) + c * i * k * (w3 * a - w1 * d));
        [unfold w1, w2, w3, u1, u2, u3, t1, t2, t3; ring|rewrite E; ring].
    - transitivity (c * i * (m1 * b - m2 * a) * (D * (1 + (t1 * t1 + t2 * t2 + t3 * t3))) + c * i * k * (w1 * b - w2 * a));
        [unfold w1, w2, w3, u1, u2, u3, t1, t2, t3; ring|rewrite E; ring].
  Qed.

  Notation W h t := (F G (Z h t)).
  Lemma rdist_mid : Big 2 (fun h t => rdist (mid (Z h t)) (pos_of (Y (t + h / 2)))).
  Proof.
    unfold rdist. apply (big_plus h1 T 2 (fun h t => Rabs (fst (fst (mid (Z h t))) - fst (fst (pos_of (Y (t + h / 2))))) +
      Rabs (snd (fst (mid (Z h t))) - snd (fst (pos_of (Y (t + h / 2))))))); [apply big_plus|]; apply big_abs.
    - apply (big_ext h1 T 2 (fun h t => - (x (Y (t + h / 2)) - x (Y t) - h / 2 * x (f t (Y t))))); [|apply big_opp, motion_first; coord].
      intros h t _. change (x (f t (Y t))) with (vx (Y t)). cbn [mid pos_of fst snd a_p a_h]. ring.
    - apply (big_ext h1 T 2 (fun h t => - (y (Y (t + h / 2)) - y (Y t) - h / 2 * y (f t (Y t))))); [|apply big_opp, motion_first; coord].
      intros h t _. change (y (f t (Y t))) with (vy (Y t)). cbn [mid pos_of fst snd a_p a_h]. ring.
    - apply (big_ext h1 T 2 (fun h t => - (xi (Y (t + h / 2)) - xi (Y t) - h / 2 * xi (f t (Y t))))); [|apply big_opp, motion_first; coord].
      intros h t _. change (xi (f t (Y t))) with (vz (Y t) - c_SI). cbn [mid pos_of fst snd a_p a_h]. ring.
  Qed.
  Lemma W_near e : In e components -> Big 2 (fun h t => e (W h t) - e (felt (t + h / 2))).
  Proof.
    intros He. destruct HG as (M & M0 & _ & HL). apply (big_le h1 T 2 _ _ (big_scal h1 T 2 M _ rdist_mid)). intros h t _.
    eapply Rle_trans; [apply component_le, He|]. unfold F, felt. cbn [a_t a_h].
    eapply Rle_trans; [apply HL|]. rewrite Rminus_eq_0, Rabs_R0, Rplus_0_r. apply Rle_abs.
  Qed.
  Lemma W_bound e : In e components -> Big 0 (fun h t => e (W h t)).
  Proof.
    intros He. apply (big_near_bound h1 T H1 2 _ (fun h t => e (felt (t + h / 2)))); [|apply W_near, He].
    destruct (HF e He) as (_ & B & _). exact B.
  Qed.
  Lemma boris_first u : In u coords ->
    Big 1 (fun h t => u (phi_boris qm G (Z h t)) - u (f t (Y t))).
  Proof.
    intros Hu. destruct (bls_uniform _ (bls_boris qm G HG)) as (M & M0 & H). exists M. split; [exact M0|].
    intros h t ((A & A') & B & C). destruct (H u Hu (Z h t) (Z 0 t)) as [_ L]; [unfold dom; cbn; lra|unfold dom; cbn; lra|].
    rewrite (boris_at_zero qm G q m t (Y t) eq_refl) in L. eapply Rle_trans; [exact L|]. unfold dz. cbn [a_h a_t a_p].
    rewrite Rminus_0_r, Rminus_eq_0, Rabs_R0. rewrite (Rabs_right h) by lra.
    assert (E0 : pdist (Y t) (Y t) = 0) by (unfold pdist; rewrite !Rminus_eq_0, Rabs_R0; ring). rewrite E0. cbn [pow]. right. ring.
  Qed.
  Lemma Y_mid u : In u coords -> Big 0 (fun h t => u (Y (t + h / 2))).
  Proof. intros Hu. destruct (motion_c11 u Hu) as (_ & B & _). exact B. Qed.
  (** The momentum between the two half kicks. *)
  Definition bar (u : part -> R) (h t : R) : R := u (Y t) + h / 2 * u (phi_boris qm G (Z h t)).
  Lemma bar_near u : In u coords -> Big 2 (fun h t => bar u h t - u (Y (t + h / 2))).
  Proof.
    intros Hu. apply (big_ext h1 T 2 (fun h t => - (u (Y (t + h / 2)) - u (Y t) - h / 2 * u (f t (Y t)))
      + h * (/ 2 * (u (phi_boris qm G (Z h t)) - u (f t (Y t)))))).
    - intros h t _. unfold bar. field.
    - apply big_plus; [apply big_opp, motion_first, Hu|]. apply (big_mult h1 T 1 1 (fun h _ => h)); [apply big_h|].
      apply big_scal, boris_first, Hu.
  Qed.
  Lemma bar_bound u : In u coords -> Big 0 (bar u).
  Proof. intros Hu. apply (big_near_bound h1 T H1 2 _ (fun h t => u (Y (t + h / 2)))); [apply Y_mid, Hu|apply bar_near, Hu]. Qed.
  Definition turn1 (h t : R) : R := c_SI * ig qm G (Z h t) * (bar py h t * bz (W h t) - bar pz h t * by_ (W h t)).
  Definition turn2 (h t : R) : R := c_SI * ig qm G (Z h t) * (bar pz h t * bx (W h t) - bar px h t * bz (W h t)).
  Definition turn3 (h t : R) : R := c_SI * ig qm G (Z h t) * (bar px h t * by_ (W h t) - bar py h t * bx (W h t)).
  Lemma boris_kick h t : px (phi_boris qm G (Z h t)) = qm * (ex (W h t) + turn1 h t) /\
    py (phi_boris qm G (Z h t)) = qm * (ey (W h t) + turn2 h t) /\ pz (phi_boris qm G (Z h t)) = qm * (ez (W h t) + turn3 h t) /\
    bar px h t = mx qm G (Z h t) + half qm (Z h t) * turn1 h t /\
    bar py h t = my qm G (Z h t) + half qm (Z h t) * turn2 h t /\
    bar pz h t = mz qm G (Z h t) + half qm (Z h t) * turn3 h t.
  Proof.
    set (z := Z h t).
    destruct (boris_identity (half qm z) (ig qm G z) c_SI (bx (F G z)) (by_ (F G z)) (bz (F G z)) (mx qm G z) (my qm G z) (mz qm G z))
      as (I1 & I2 & I3).
    set (w1 := cs qm G z * c_SI * (uy qm G z * bz (F G z) + tx qm G z * uz qm G z * bz (F G z) - tz qm G z * ux qm G z * bz (F G z)
     - uz qm G z * by_ (F G z) - ty qm G z * ux qm G z * by_ (F G z) + tx qm G z * uy qm G z * by_ (F G z))).
    set (w2 := cs qm G z * c_SI * (uz qm G z * bx (F G z) + ty qm G z * ux qm G z * bx (F G z) - tx qm G z * uy qm G z * bx (F G z)
     - ux qm G z * bz (F G z) - tz qm G z * uy qm G z * bz (F G z) + ty qm G z * uz qm G z * bz (F G z))).
    set (w3 := cs qm G z * c_SI * (ux qm G z * by_ (F G z) + tz qm G z * uy qm G z * by_ (F G z) - ty qm G z * uz qm G z * by_ (F G z)
     - uy qm G z * bx (F G z) - tx qm G z * uz qm G z * bx (F G z) + tz qm G z * ux qm G z * bx (F G z))).
    change (w1 = c_SI * ig qm G z * ((my qm G z + half qm z * w2) * bz (F G z) - (mz qm G z + half qm z * w3) * by_ (F G z))) in I1.
    change (w2 = c_SI * ig qm G z * ((mz qm G z + half qm z * w3) * bx (F G z) - (mx qm G z + half qm z * w1) * bz (F G z))) in I2.
    change (w3 = c_SI * ig qm G z * ((mx qm G z + half qm z * w1) * by_ (F G z) - (my qm G z + half qm z * w2) * bx (F G z))) in I3.
    assert (B1 : bar px h t = mx qm G z + half qm z * w1).
    { unfold bar. change (px (phi_boris qm G (Z h t))) with (qm * (ex (F G z) + w1)). unfold mx, half. cbn [a_p a_h z]. unfold Rdiv. ring. }
    assert (B2 : bar py h t = my qm G z + half qm z * w2).
    { unfold bar. change (py (phi_boris qm G (Z h t))) with (qm * (ey (F G z) + w2)). unfold my, half. cbn [a_p a_h z]. unfold Rdiv. ring. }
    assert (B3 : bar pz h t = mz qm G z + half qm z * w3).
    { unfold bar. change (pz (phi_boris qm G (Z h t))) with (qm * (ez (F G z) + w3)). unfold mz, half. cbn [a_p a_h z]. unfold Rdiv. ring. }
    assert (T1 : turn1 h t = w1) by (unfold turn1; fold z; rewrite B2, B3; symmetry; exact I1).
    assert (T2 : turn2 h t = w2) by (unfold turn2; fold z; rewrite B1, B3; symmetry; exact I2).
    assert (T3 : turn3 h t = w3) by (unfold turn3; fold z; rewrite B1, B2; symmetry; exact I3).
    rewrite T1, T2, T3. repeat (split; [reflexivity || assumption|]). assumption.
  Qed.
  Lemma ig_bound : Big 0 (fun h t => ig qm G (Z h t)).
  Proof.
    exists 1. split; [lra|]. intros h t _. cbn. unfold ig. pose proof (gam_ge1 (mx qm G (Z h t)) (my qm G (Z h t)) (mz qm G (Z h t))) as L.
    rewrite Rabs_right; [|apply Rle_ge, Rlt_le, Rinv_0_lt_compat; lra]. rewrite Rmult_1_r, <- Rinv_1. apply Rinv_le_contravar; lra.
  Qed.
  Lemma turn_bound : Big 0 turn1 /\ Big 0 turn2 /\ Big 0 turn3.
  Proof.
    assert (E : forall u e u' e', In u coords -> In e components -> In u' coords -> In e' components ->
      Big 0 (fun h t => c_SI * ig qm G (Z h t) * (bar u h t * e (W h t) - bar u' h t * e' (W h t)))).
    { intros u e u' e' Hu He Hu' He'. apply (big_mult h1 T 0 0 (fun h t => c_SI * ig qm G (Z h t))); [apply big_scal, ig_bound|].
      apply (big_minus h1 T 0 (fun h t => bar u h t * e (W h t)) (fun h t => bar u' h t * e' (W h t)));
        [apply (big_mult h1 T 0 0 (bar u))|apply (big_mult h1 T 0 0 (bar u'))]; (apply bar_bound; assumption) || (apply W_bound; assumption). }
    split; [|split]; apply E; coord || comp.
  Qed.
  Lemma gam_sqr a b c : gam a b c * gam a b c = 1 + (a * a + b * b + c * c).
  Proof.
    unfold gam. apply sqrt_sqrt. pose proof (Rle_0_sqr a). pose proof (Rle_0_sqr b). pose proof (Rle_0_sqr c). unfold Rsqr in *. lra.
  Qed.
  Lemma half_big : Big 1 (fun h t => half qm (Z h t)).
  Proof.
    apply (big_ext h1 T 1 (fun h t => (qm / 2) * h)); [intros h t _; unfold half; cbn [a_h]; unfold Rdiv; ring|].
    apply (big_scal h1 T 1 (qm / 2) (fun h _ => h)), big_h.
  Qed.
  Lemma ig_near : Big 2 (fun h t => ig qm G (Z h t) - ig_of (t + h / 2)).
  Proof.
    unfold ig, ig_of.
    apply (big_near_inv h1 T 2 (fun h t => gam (mx qm G (Z h t)) (my qm G (Z h t)) (mz qm G (Z h t)))
      (fun h t => gam (px (Y (t + h / 2))) (py (Y (t + h / 2))) (pz (Y (t + h / 2))))); [intros; apply gam_ge1|intros; apply gam_ge1|].
    apply big_near_root; [intros; apply gam_ge1|intros; apply gam_ge1|].
    destruct turn_bound as (T1 & T2 & T3).
    set (sq := fun u h t => bar u h t * bar u h t - u (Y (t + h / 2)) * u (Y (t + h / 2))).
    assert (Sq : forall u, In u coords -> Big 2 (sq u)).
    { intros u Hu. apply (big_near_mult h1 T 2 (bar u) (bar u) (fun h t => u (Y (t + h / 2))) (fun h t => u (Y (t + h / 2))));
        [apply bar_bound, Hu|apply Y_mid, Hu|apply bar_near, Hu|apply bar_near, Hu]. }
    apply (big_ext h1 T 2 (fun h t => half qm (Z h t) * half qm (Z h t) * (turn1 h t * turn1 h t + turn2 h t * turn2 h t + turn3 h t * turn3 h t)
      + (sq px h t + sq py h t + sq pz h t))).
    - intros h t _. rewrite !gam_sqr. unfold sq. destruct (boris_kick h t) as (_ & _ & _ & E1 & E2 & E3).
      assert (O : bar px h t * turn1 h t + bar py h t * turn2 h t + bar pz h t * turn3 h t = 0) by (unfold turn1, turn2, turn3; ring).
      set (k := half qm (Z h t)) in *.
      replace (mx qm G (Z h t)) with (bar px h t - k * turn1 h t) by lra.
      replace (my qm G (Z h t)) with (bar py h t - k * turn2 h t) by lra.
      replace (mz qm G (Z h t)) with (bar pz h t - k * turn3 h t) by lra.
      clear E1 E2 E3.
      match goal with |- ?l = ?r => cut (r - l = - (2 * k * (bar px h t * turn1 h t + bar py h t * turn2 h t + bar pz h t * turn3 h t))) end.
      + rewrite O. intros H. lra.
      + ring.
    - apply big_plus.
      + apply (big_mult h1 T 2 0 (fun h t => half qm (Z h t) * half qm (Z h t))).
        * apply (big_mult h1 T 1 1 (fun h t => half qm (Z h t))); apply half_big.
        * apply big_plus; [apply big_plus|].
          -- apply (big_mult h1 T 0 0 turn1); assumption.
          -- apply (big_mult h1 T 0 0 turn2); assumption.
          -- apply (big_mult h1 T 0 0 turn3); assumption.
      + apply big_plus; [apply big_plus|]; apply Sq; coord.
  Qed.
  Lemma kick_near : forall u, In u [px; py; pz] -> Big 2 (fun h t => u (phi_boris qm G (Z h t)) - u (f (t + h / 2) (Y (t + h / 2)))).
  Proof.
    assert (E : forall u e u' e', In u coords -> In e components -> In u' coords -> In e' components ->
      Big 2 (fun h t => c_SI * ig qm G (Z h t) * (bar u h t * e (W h t) - bar u' h t * e' (W h t)) -
        c_SI * ig_of (t + h / 2) * (u (Y (t + h / 2)) * e (felt (t + h / 2)) - u' (Y (t + h / 2)) * e' (felt (t + h / 2))))).
    { assert (P : forall u e, In u coords -> In e components ->
        Big 2 (fun h t => bar u h t * e (W h t) - u (Y (t + h / 2)) * e (felt (t + h / 2))) /\
        Big 0 (fun h t => u (Y (t + h / 2)) * e (felt (t + h / 2)))).
      { intros u e Hu He. assert (Be : Big 0 (fun h t => e (felt (t + h / 2)))) by (destruct (HF e He) as (_ & B & _); exact B). split.
        - apply (big_near_mult h1 T 2 (bar u) (fun h t => e (W h t)) (fun h t => u (Y (t + h / 2))) (fun h t => e (felt (t + h / 2))));
            [apply bar_bound, Hu|exact Be|apply bar_near, Hu|apply W_near, He].
        - apply (big_mult h1 T 0 0 (fun h t => u (Y (t + h / 2)))); [apply Y_mid, Hu|exact Be]. }
      intros u e u' e' Hu He Hu' He'. destruct (P u e Hu He) as [P1 P2]. destruct (P u' e' Hu' He') as [P3 P4].
      apply (big_near_mult h1 T 2 (fun h t => c_SI * ig qm G (Z h t)) (fun h t => bar u h t * e (W h t) - bar u' h t * e' (W h t))
        (fun h t => c_SI * ig_of (t + h / 2)) (fun h t => u (Y (t + h / 2)) * e (felt (t + h / 2)) - u' (Y (t + h / 2)) * e' (felt (t + h / 2)))).
      - apply big_scal, ig_bound.
      - apply big_minus; assumption.
      - apply (big_ext h1 T 2 (fun h t => c_SI * (ig qm G (Z h t) - ig_of (t + h / 2)))); [intros; ring|]. apply big_scal, ig_near.
      - apply (big_ext h1 T 2 (fun h t => (bar u h t * e (W h t) - u (Y (t + h / 2)) * e (felt (t + h / 2))) -
          (bar u' h t * e' (W h t) - u' (Y (t + h / 2)) * e' (felt (t + h / 2))))); [intros; ring|]. apply big_minus; assumption. }
    intros u Hu. cbn [In] in Hu. destruct Hu as [<-|[<-|[<-|[]]]].
    - apply (big_ext h1 T 2 (fun h t => qm * ((ex (W h t) - ex (felt (t + h / 2))) + (turn1 h t -
        c_SI * ig_of (t + h / 2) * (py (Y (t + h / 2)) * bz (felt (t + h / 2)) - pz (Y (t + h / 2)) * by_ (felt (t + h / 2))))))).
      + intros h t _. destruct (boris_kick h t) as (-> & _). set (s := t + h / 2).
        change (px (f s (Y s))) with (qm * (ex (felt s) + (vy (Y s) * bz (felt s) - vz (Y s) * by_ (felt s)))).
        unfold vy, vz, ig_of. rewrite gamma_gam. unfold Rdiv. ring.
      + apply big_scal, big_plus; [apply W_near; comp|]. apply E; coord || comp.
    - apply (big_ext h1 T 2 (fun h t => qm * ((ey (W h t) - ey (felt (t + h / 2))) + (turn2 h t -
        c_SI * ig_of (t + h / 2) * (pz (Y (t + h / 2)) * bx (felt (t + h / 2)) - px (Y (t + h / 2)) * bz (felt (t + h / 2))))))).
      + intros h t _. destruct (boris_kick h t) as (_ & -> & _). set (s := t + h / 2).
        change (py (f s (Y s))) with (qm * (ey (felt s) + (vz (Y s) * bx (felt s) - vx (Y s) * bz (felt s)))).
        unfold vx, vz, ig_of. rewrite gamma_gam. unfold Rdiv. ring.
      + apply big_scal, big_plus; [apply W_near; comp|]. apply E; coord || comp.
    - apply (big_ext h1 T 2 (fun h t => qm * ((ez (W h t) - ez (felt (t + h / 2))) + (turn3 h t -
        c_SI * ig_of (t + h / 2) * (px (Y (t + h / 2)) * by_ (felt (t + h / 2)) - py (Y (t + h / 2)) * bx (felt (t + h / 2))))))).
      + intros h t _. destruct (boris_kick h t) as (_ & _ & -> & _). set (s := t + h / 2).
        change (pz (f s (Y s))) with (qm * (ez (felt s) + (vx (Y s) * by_ (felt s) - vy (Y s) * bx (felt s)))).
        unfold vx, vy, ig_of. rewrite gamma_gam. unfold Rdiv. ring.
      + apply big_scal, big_plus; [apply W_near; comp|]. apply E; coord || comp.
  Qed.
  Lemma after_near v : v = vx \/ v = vy \/ v = vz -> Big 2 (fun h t => v (after qm G (Z h t)) - v (Y (t + h))).
  Proof.
    intros Hv.
    assert (L : exists M, 0 <= M /\ forall p p', Rabs (v p - v p') <= M * pdist p p').
    { assert (B : BL (fun z => v (a_p z))) by (destruct Hv as [-> | [-> | ->]]; [apply (bl_vx a_p)|apply (bl_vy a_p)|apply (bl_vz a_p)]; apply lips_p).
      destruct B as (_ & M & M0 & H). exists M. split; [exact M0|]. intros p p'.
      pose proof (H (mka 0 0 p) (mka 0 0 p') ltac:(unfold dom; cbn; lra) ltac:(unfold dom; cbn; lra)) as Q. cbn [a_p] in Q.
      eapply Rle_trans; [exact Q|]. unfold dz. cbn [a_h a_t a_p]. rewrite Rminus_0_r, Rabs_R0. right. ring. }
    destruct L as (M & M0 & HL).
    set (P := fun h t => mkp (x (Y (t + h))) (y (Y (t + h))) (xi (Y (t + h))) (px (after qm G (Z h t))) (py (after qm G (Z h t))) (pz (after qm G (Z h t)))).
    assert (D : Big 2 (fun h t => pdist (P h t) (Y (t + h)))).
    { assert (Z0 : forall u : part -> R, Big 2 (fun h t => u (Y (t + h)) - u (Y (t + h)))).
      { intros u. exists 0. split; [lra|]. intros. rewrite Rminus_eq_0, Rabs_R0. lra. }
      assert (K : forall u, In u [px; py; pz] -> Big 2 (fun h t => u (Y t) + h * u (phi_boris qm G (Z h t)) - u (Y (t + h)))).
      { intros u Hu. assert (Hc : In u coords) by (cbn [In] in Hu; destruct Hu as [<-|[<-|[<-|[]]]]; coord).
        apply (big_less h1 T H1). apply (big_ext h1 T 3 (fun h t => - (u (Y (t + h)) - u (Y t) - h * u (f (t + h / 2) (Y (t + h / 2))))
          + h * (u (phi_boris qm G (Z h t)) - u (f (t + h / 2) (Y (t + h / 2)))))); [intros; ring|].
        apply big_plus; [apply big_opp, motion_third, Hc|]. apply (big_mult h1 T 1 2 (fun h _ => h)); [apply big_h|apply kick_near, Hu]. }
      apply (big_pdist 2 P (fun h t => Y (t + h))). intros u Hu. each Hu.
      - apply Z0.
      - apply Z0.
      - apply Z0.
      - apply (K px); cbn; tauto.
      - apply (K py); cbn; tauto.
      - apply (K pz); cbn; tauto. }
    apply (big_le h1 T 2 _ _ (big_scal h1 T 2 M _ D)). intros h t _.
    assert (E : v (after qm G (Z h t)) = v (P h t)).
    { destruct (v_same (after qm G (Z h t)) (P h t) eq_refl eq_refl eq_refl) as (E1 & E2 & E3). destruct Hv as [-> | [-> | ->]]; assumption. }
    rewrite E. eapply Rle_trans; [apply HL|apply Rle_abs].
  Qed.
  Lemma boris_second u : In u coords -> Big 2 (fun h t => u (phi_boris qm G (Z h t)) - u (f (t + h / 2) (Y (t + h / 2)))).
  Proof.
    destruct v_c11 as ((_ & _ & _ & _ & Sx) & (_ & _ & _ & _ & Sy) & (_ & _ & _ & _ & Sz)).
    intros Hu. each Hu; [| | |apply kick_near; cbn; tauto|apply kick_near; cbn; tauto|apply kick_near; cbn; tauto].
    - apply (big_ext h1 T 2 (fun h t => / 2 * ((vx (after qm G (Z h t)) - vx (Y (t + h))) + second (fun s => vx (Y s)) h t))).
      + intros h t _. change (x (f (t + h / 2) (Y (t + h / 2)))) with (vx (Y (t + h / 2))). unfold second, phi_boris. cbn [x a_p]. field.
      + apply big_scal, big_plus; [apply after_near; tauto|exact Sx].
    - apply (big_ext h1 T 2 (fun h t => / 2 * ((vy (after qm G (Z h t)) - vy (Y (t + h))) + second (fun s => vy (Y s)) h t))).
      + intros h t _. change (y (f (t + h / 2) (Y (t + h / 2)))) with (vy (Y (t + h / 2))). unfold second, phi_boris. cbn [y a_p]. field.
      + apply big_scal, big_plus; [apply after_near; tauto|exact Sy].
    - apply (big_ext h1 T 2 (fun h t => / 2 * ((vz (after qm G (Z h t)) - vz (Y (t + h))) + second (fun s => vz (Y s)) h t))).
      + intros h t _. change (xi (f (t + h / 2) (Y (t + h / 2)))) with (vz (Y (t + h / 2)) - c_SI). unfold second, phi_boris. cbn [xi a_p]. field.
      + apply big_scal, big_plus; [apply after_near; tauto|exact Sz].
  Qed.

  (** ** One step of a method of second order *)
  Lemma third_order Phi : (forall u, In u coords -> Big 2 (fun h t => u (Phi (Z h t)) - u (f (t + h / 2) (Y (t + h / 2))))) ->
    Big 3 (fun h t => pdist (one_step Phi h t (Y t)) (Y (t + h))).
  Proof.
    intros H. apply (big_pdist 3 (fun h t => one_step Phi h t (Y t)) (fun h t => Y (t + h))). intros u Hu.
    apply (big_ext h1 T 3 (fun h t => - (u (Y (t + h)) - u (Y t) - h * u (f (t + h / 2) (Y (t + h / 2))))
          + h * (u (Phi (Z h t)) - u (f (t + h / 2) (Y (t + h / 2)))))).
    - intros h t _. unfold one_step. rewrite coord_step by exact Hu. ring.
    - apply big_plus; [apply big_opp, motion_third, Hu|]. apply (big_mult h1 T 1 2 (fun h _ => h)); [apply big_h|apply H, Hu].
  Qed.
End Motion.
