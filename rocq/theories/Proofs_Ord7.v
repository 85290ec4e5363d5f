(** Lemmas: Runge-Kutta pushes near a motion to fourth order. *)
From Coq Require Import Reals QArith Qreals String List Bool Arith ZArith Lia Lqa Lra.
From Coquelicot Require Import Coquelicot.
From Verif Require Import Model_Push Spec_Push Proofs_Push Spec_Run
  Spec_Conv Proofs_Conv Proofs_Conv2 Proofs_Conv3 Proofs_Conv4 Proofs_Conv5 Proofs_Conv6 Proofs_Ord Proofs_Ord2 Proofs_Ord3
  Proofs_Ord4 Proofs_Ord5 Proofs_Ord6.
Import ListNotations.
Open Scope R_scope.

Lemma bl_lip T g K : 0 <= K -> (forall s s', 0 <= s <= T -> 0 <= s' <= T -> Rabs (g s - g s') <= K * Rabs (s - s')) -> bl T g.
Proof.
  intros K0 H. split; [|exists K; split; assumption].
  exists (Rabs (g 0) + K * Rabs T). split; [apply Rplus_le_le_0_compat; [apply Rabs_pos|apply Rmult_le_pos; [exact K0|apply Rabs_pos]]|].
  intros s Hs. replace (g s) with (g 0 + (g s - g 0)) by ring. eapply Rle_trans; [apply Rabs_triang|]. apply Rplus_le_compat_l.
  eapply Rle_trans; [apply H; lra|]. apply Rmult_le_compat_l; [exact K0|]. rewrite !Rabs_right by lra. lra.
Qed.
Lemma bl_der T g g' M : (forall s, 0 <= s <= T -> is_derive g s (g' s)) -> (forall s, 0 <= s <= T -> Rabs (g' s) <= M) -> bl T g.
Proof.
  intros D B. assert (B' : forall s, 0 <= s <= T -> Rabs (g' s) <= Rabs M) by (intros s Hs; eapply Rle_trans; [apply B, Hs|apply Rle_abs]).
  apply (bl_lip T g (Rabs M)); [apply Rabs_pos|].
  assert (Mv : forall a b, 0 <= a -> a <= b -> b <= T -> Rabs (g b - g a) <= Rabs M * Rabs (b - a)).
  { intros a b A C E. eapply Rle_trans; [apply (along_move T g g' D (Rabs M) B' a b A C E)|]. rewrite (Rabs_right (b - a)) by lra. lra. }
  intros s s' Hs Hs'. destruct (Rle_lt_dec s s').
  - rewrite (Rabs_minus_sym (g s)), (Rabs_minus_sym s). apply Mv; lra.
  - apply Mv; lra.
Qed.
Lemma derivable_bounded n T g : derivable_times n T g -> exists M, forall s, 0 <= s <= T -> Rabs (g s) <= M.
Proof.
  revert g. induction n as [|n IH]; intros g; [exact (fun H => H)|]. intros (g' & D & H). destruct (IH g' H) as (M & B).
  destruct (bl_der T g g' M D B) as ((C & _ & HC) & _). exists C. exact HC.
Qed.

Lemma rdist_pdist p p' : rdist (pos_of p) (pos_of p') <= pdist p p'.
Proof.
  unfold rdist, pdist, pos_of. cbn [fst snd]. pose proof (Rabs_pos (px p - px p')). pose proof (Rabs_pos (py p - py p')).
  pose proof (Rabs_pos (pz p - pz p')). lra.
Qed.

Section Grad.
  Variables w w0 T : R.
  Hypothesis HT : 0 <= T.
  Hypothesis Hw : w0 < w.
  Variable G : pos -> R -> em.
  Hypothesis HR : regular w T G.
  Hypothesis HD : gradients w T G.
  Variable Y : R -> part.
  Hypothesis HY : bls T Y.
  Hypothesis Hin : forall t, 0 <= t <= T -> within w0 (pos_of (Y t)).

  Lemma box_pos : 0 <= w0.
  Proof. destruct (Hin 0 ltac:(lra)) as (H & _). eapply Rle_trans; [apply Rabs_pos|exact H]. Qed.
  Lemma path_lip : exists K, 0 <= K /\ forall s s', 0 <= s <= T -> 0 <= s' <= T ->
    rdist (pos_of (Y s)) (pos_of (Y s')) + Rabs (s - s') <= K * Rabs (s - s').
  Proof.
    destruct (HY x ltac:(unfold coords; cbn; tauto)) as (_ & A & A0 & HA).
    destruct (HY y ltac:(unfold coords; cbn; tauto)) as (_ & B & B0 & HB).
    destruct (HY xi ltac:(unfold coords; cbn; tauto)) as (_ & C & C0 & HC).
    exists (A + B + C + 1). split; [lra|]. intros s s' Hs Hs'. unfold rdist, pos_of. cbn [fst snd].
    specialize (HA s s' Hs Hs'). specialize (HB s s' Hs Hs'). specialize (HC s s' Hs Hs'). lra.
  Qed.
  Lemma dl_field e : In e components -> DL T (Rmin 1 (w - w0)) Y (fun s p => e (clipped w T G (pos_of p) s)).
  Proof.
    intros He. pose proof box_pos as W0.
    destruct (clipped_tame w T G ltac:(lra) HT HR) as (M & M0 & HB & HL). destruct path_lip as (K & K0 & HK). split.
    - apply (bl_lip T (fun s => e (clipped w T G (pos_of (Y s)) s)) (M * K)); [apply Rmult_le_pos; assumption|]. intros s s' Hs Hs'.
      eapply Rle_trans; [apply component_le, He|]. eapply Rle_trans; [apply HL|]. rewrite Rmult_assoc. apply Rmult_le_compat_l; [exact M0|].
      apply HK; assumption.
    - destruct HD as (L & L0 & HE). destruct (HE e He) as (D & HD').
      exists (fun s => let d := D (pos_of (Y s)) s in mkp (fst (fst d)) (snd (fst d)) (snd d) 0 0 0). split.
      + assert (Lp : forall v : pos -> R, (forall r r', Rabs (v r - v r') <= rdist r r') -> bl T (fun s => v (D (pos_of (Y s)) s))).
        { intros v Hv. apply (bl_lip T _ (L * K)); [apply Rmult_le_pos; assumption|]. intros s s' Hs Hs'.
          eapply Rle_trans; [apply Hv|]. eapply Rle_trans; [apply (HD' (pos_of (Y s)) (pos_of (Y s')) s s'); try assumption;
            (apply (within_less w0 w); [lra|apply Hin; assumption])|].
          rewrite Rmult_assoc. apply Rmult_le_compat_l; [exact L0|]. apply HK; assumption. }
        intros u Hu. cbv zeta. each Hu; cbn [x y xi px py pz]; try apply (blc T 0).
        * apply (Lp (fun r => fst (fst r))). intros r r'. unfold rdist. pose proof (Rabs_pos (snd (fst r) - snd (fst r'))).
          pose proof (Rabs_pos (snd r - snd r')). lra.
        * apply (Lp (fun r => snd (fst r))). intros r r'. unfold rdist. pose proof (Rabs_pos (fst (fst r) - fst (fst r'))).
          pose proof (Rabs_pos (snd r - snd r')). lra.
        * apply (Lp (fun r => snd r)). intros r r'. unfold rdist. pose proof (Rabs_pos (fst (fst r) - fst (fst r'))).
          pose proof (Rabs_pos (snd (fst r) - snd (fst r'))). lra.
      + exists L. split; [exact L0|]. intros s p Hs Hp. cbv zeta.
        assert (Wy : within w (pos_of (Y s))) by (eapply within_less; [|apply Hin, Hs]; lra).
        assert (Wp : within w (pos_of p)).
        { destruct (Hin s Hs) as (I1 & I2 & I3). unfold pos_of in *. cbn [fst snd] in *.
          pose proof (Rmin_r 1 (w - w0)) as Rm.
          assert (N : forall u, In u coords -> Rabs (u (Y s)) <= w0 -> Rabs (u p) <= w).
          { intros u Hu I. pose proof (coord_le u p (Y s) Hu) as Q. replace (u p) with ((u p - u (Y s)) + u (Y s)) by ring.
            eapply Rle_trans; [apply Rabs_triang|]. lra. }
          unfold within. cbn [fst snd]. split; [|split];
            [apply (N x)|apply (N y)|apply (N xi)]; try assumption; unfold coords; cbn; tauto. }
        rewrite !clipped_same by assumption.
        destruct (HD' (pos_of (Y s)) (pos_of p) s s Wy Wp Hs Hs) as [_ Q].
        replace (dot _ p (Y s)) with (inner (D (pos_of (Y s)) s) (pos_of (Y s)) (pos_of p))
          by (unfold dot, inner, pos_of; cbn [x y xi px py pz fst snd]; ring).
        eapply Rle_trans; [exact Q|]. apply Rmult_le_compat_l; [exact L0|].
        apply pow_incr. split; [unfold rdist; repeat apply Rplus_le_le_0_compat; apply Rabs_pos|].
        pose proof (rdist_pdist p (Y s)) as R1. unfold rdist in *. rewrite (Rabs_minus_sym (fst (fst (pos_of p)))),
          (Rabs_minus_sym (snd (fst (pos_of p)))), (Rabs_minus_sym (snd (pos_of p))) in R1. exact R1.
  Qed.
End Grad.

Lemma err_stepk C D k t h e : 0 <= C -> 0 <= t -> 0 <= h -> h ^ k <= D -> e <= err C D t ->
  (1 + C * h) * e + C * h ^ (S k) <= err C D (t + h).
Proof.
  intros C0 H0 Hh HD He.
  assert (Hk : 0 <= h ^ k) by (apply pow_le, Hh). assert (D0 : 0 <= D) by lra.
  assert (Ch : 0 <= C * h) by (apply Rmult_le_pos; lra).
  assert (E1 : 1 + C * h <= exp (C * h)) by apply exp_ineq1_le.
  assert (E2 : 1 <= exp (C * (t + h))).
  { pose proof (exp_ineq1_le (C * (t + h))). assert (0 <= C * (t + h)) by (apply Rmult_le_pos; lra). lra. }
  assert (P : 0 <= err C D t).
  { unfold err. apply Rmult_le_pos; [|left; apply exp_pos]. apply Rmult_le_pos; [apply Rmult_le_pos; assumption|exact H0]. }
  assert (S1 : (1 + C * h) * e <= exp (C * h) * err C D t).
  { apply Rle_trans with ((1 + C * h) * err C D t); [apply Rmult_le_compat_l; lra|apply Rmult_le_compat_r; lra]. }
  assert (S2 : exp (C * h) * err C D t = C * D * t * exp (C * (t + h))).
  { unfold err. replace (C * (t + h)) with (C * h + C * t) by ring. rewrite exp_plus. ring. }
  assert (S3 : C * h ^ (S k) <= C * D * h * exp (C * (t + h))).
  { replace (C * h ^ (S k)) with (C * h ^ k * h * 1) by (cbn [pow]; ring).
    apply Rmult_le_compat; [apply Rmult_le_pos; [apply Rmult_le_pos; assumption|lra]|lra| |exact E2].
    apply Rmult_le_compat_r; [lra|]. apply Rmult_le_compat_l; assumption. }
  unfold err at 1. replace (C * D * (t + h) * exp (C * (t + h)))
    with (C * D * t * exp (C * (t + h)) + C * D * h * exp (C * (t + h))) by ring. lra.
Qed.

Lemma near_motion4 q m G w w0 T Y : 0 <= T -> w0 < w -> regular w T G -> gradients w T G -> motion q m G T Y ->
  (forall t, 0 <= t <= T -> within w0 (pos_of (Y t))) -> (forall u, In u coords -> derivable_times 5 T (fun s => u (Y s))) ->
  exists C d0, 0 <= C /\ 0 < d0 /\ forall d t h p, d <= d0 -> 0 <= h <= d -> 0 <= t -> t + h <= T ->
    pdist p (Y t) <= err C (d ^ 4) t -> pdist (push1 "rk4" q m G t h p) (Y (t + h)) <= err C (d ^ 4) (t + h).
Proof.
  intros HT Hw HR HS HY Hin H5.
  assert (W0 : 0 <= w0).
  { destruct (Hin 0 ltac:(lra)) as (H & _). eapply Rle_trans; [apply Rabs_pos|exact H]. }
  assert (HG : tame (clipped w T G)) by (apply clipped_tame; [lra|exact HT|exact HR]).
  set (Phi := phi_rk4 q m (clipped w T G)).
  assert (HY' : forall t, 0 <= t <= T -> forall u, In u coords ->
            is_derive (fun s => u (Y s)) t (u (lorentz q m (clipped w T G) t (Y t)))).
  { intros t Ht u Hu. rewrite lorentz_same; [|eapply within_less; [|apply Hin, Ht]; lra|exact Ht].
    destruct (HY t Ht) as (D1 & D2 & D3 & D4 & D5 & D6). each Hu; assumption. }
  destruct (stable_consistent _ Phi (bls_rk4 q m _ HG) (rk4_at_zero q m _) T Y HY') as (C1 & C10 & St & _).
  assert (HB : bls T Y).
  { destruct (rhs_lip q m (clipped w T G) HG) as (M & M0 & H). intros u Hu.
    apply (bl_der T (fun s => u (Y s)) _ M (fun s Hs => HY' s Hs u Hu)). intros s Hs. apply (H u Hu s (Y s) s (Y s)). }
  assert (Rho : 0 < Rmin 1 (w - w0) <= 1) by (split; [apply Rmin_pos; lra|apply Rmin_l]).
  destruct (fifth_order q m 1 T ltac:(lra) (clipped w T G) HG Y HY') with (rho := Rmin 1 (w - w0)) as (C2 & C20 & Co).
  { intros u Hu. destruct (H5 u Hu) as (y1 & D1 & y2 & D2 & y3 & D3 & y4 & D4 & y5 & D5 & M5 & B5).
    destruct (derivable_bounded 2 T y3) as (M3 & B3).
    { exists y4. split; [exact D4|]. exists y5. split; [exact D5|]. exists M5. exact B5. }
    destruct (derivable_bounded 1 T y4) as (M4 & B4).
    { exists y5. split; [exact D5|]. exists M5. exact B5. }
    exists y1, y2, y3, y4, y5, (Rabs M3 + Rabs M4 + Rabs M5).
    pose proof (Rabs_pos M3). pose proof (Rabs_pos M4). pose proof (Rabs_pos M5).
    pose proof (Rle_abs M3). pose proof (Rle_abs M4). pose proof (Rle_abs M5).
    split; [lra|]. split.
    { intros s Hs. rewrite <- (is_derive_unique _ _ _ (D1 s Hs)). apply is_derive_unique, HY'; assumption. }
    do 4 (split; [assumption|]). intros s Hs. specialize (B3 s Hs). specialize (B4 s Hs). specialize (B5 s Hs). lra. }
  { exact Rho. }
  { intros u Hu. apply (dl_lorentz T (Rmin 1 (w - w0)) Rho Y HB (clipped w T G)); [|exact Hu].
    intros e He. apply (dl_field w w0 T HT Hw G HR HS Y HB Hin e He). }
  set (C := C1 + C2). assert (C0 : 0 <= C) by (unfold C; lra).
  assert (c0 : 0 < c_SI) by (unfold c_SI; lra).
  set (K := C * T * exp (C * T)).
  assert (K0 : 0 <= K) by (unfold K; apply Rmult_le_pos; [apply Rmult_le_pos; assumption|left; apply exp_pos]).
  set (e := (w - w0) / 2). assert (e0 : 0 < e) by (unfold e; lra).
  exists C, (Rmin 1 (Rmin (e / (K + 1)) (e / (2 * c_SI)))). split; [exact C0|]. split.
  { apply Rmin_pos; [lra|]. apply Rmin_pos; apply Rdiv_lt_0_compat; lra. }
  intros d t h p Hd Hh H0 H1 He.
  assert (D1 : d <= 1) by (eapply Rle_trans; [exact Hd|apply Rmin_l]).
  assert (D2 : d <= e / (K + 1)).
  { eapply Rle_trans; [exact Hd|]. eapply Rle_trans; [apply Rmin_r|apply Rmin_l]. }
  assert (D3 : d <= e / (2 * c_SI)).
  { eapply Rle_trans; [exact Hd|]. eapply Rle_trans; [apply Rmin_r|apply Rmin_r]. }
  assert (D2' : d * K <= e).
  { apply Rle_trans with (d * (K + 1)); [apply Rmult_le_compat_l; lra|].
    apply Rmult_le_compat_r with (r := K + 1) in D2; [|lra]. replace (e / (K + 1) * (K + 1)) with e in D2 by (field; lra). exact D2. }
  assert (D3' : 2 * c_SI * h <= e).
  { apply Rle_trans with (2 * c_SI * d); [apply Rmult_le_compat_l; lra|].
    apply Rmult_le_compat_l with (r := 2 * c_SI) in D3; [|lra]. replace (2 * c_SI * (e / (2 * c_SI))) with e in D3 by (field; lra).
    exact D3. }
  assert (Dd : 0 <= d ^ 4 <= d).
  { split; [apply pow_le; lra|]. cbn [pow]. rewrite <- (Rmult_1_r d) at 5. apply Rmult_le_compat_l; [lra|].
    assert (X : forall a, 0 <= a <= 1 -> 0 <= d * a <= 1).
    { intros a Ha. split; [apply Rmult_le_pos; lra|]. rewrite <- (Rmult_1_r 1). apply Rmult_le_compat; lra. }
    apply X, X, X. lra. }
  assert (Ek : err C (d ^ 4) t <= d * K).
  { eapply Rle_trans; [apply (err_le C (d ^ 4) t T); lra|]. fold K. rewrite (Rmult_comm d K). apply Rmult_le_compat_l; lra. }
  assert (Wp : within (w - 2 * c_SI * h) (pos_of p)).
  { destruct (Hin t ltac:(lra)) as (I1 & I2 & I3). unfold pos_of in *. cbn [fst snd] in *.
    assert (M : forall u, In u coords -> Rabs (u (Y t)) <= w0 -> Rabs (u p) <= w - 2 * c_SI * h).
    { intros u Hu I. pose proof (coord_le u p (Y t) Hu) as L. replace (u p) with ((u p - u (Y t)) + u (Y t)) by ring.
      eapply Rle_trans; [apply Rabs_triang|]. unfold e in *. lra. }
    unfold within. cbn [fst snd]. split; [|split].
    - apply (M x); [unfold coords; cbn; tauto|exact I1].
    - apply (M y); [unfold coords; cbn; tauto|exact I2].
    - apply (M xi); [unfold coords; cbn; tauto|exact I3]. }
  assert (E : push1 "rk4" q m G t h p = one_step Phi h t p).
  { unfold Phi, one_step. rewrite <- rk4_method. unfold push1. cbn [String.eqb Ascii.eqb Bool.eqb]. symmetry. apply rk4_same; lra || assumption. }
  rewrite E. eapply Rle_trans; [apply (pdist_tri _ (one_step Phi h t (Y t)))|].
  pose proof (St h t p (Y t) ltac:(lra)) as S1.
  assert (A : ad 1 T h t) by (unfold ad; lra). pose proof (Co h t A) as S2. cbv beta in S2.
  rewrite (Rabs_right (pdist _ _)) in S2 by (apply Rle_ge, pdist_pos).
  assert (Hk : h ^ 4 <= d ^ 4) by (apply pow_incr; lra).
  eapply Rle_trans; [|apply (err_stepk C (d ^ 4) 4 t h (pdist p (Y t)) C0 H0 (proj1 Hh) Hk He)].
  assert (A1 : (1 + C1 * h) * pdist p (Y t) <= (1 + C * h) * pdist p (Y t)).
  { apply Rmult_le_compat_r; [apply pdist_pos|]. apply Rplus_le_compat_l, Rmult_le_compat_r; unfold C; lra. }
  assert (A2 : C2 * h ^ 5 <= C * h ^ 5) by (apply Rmult_le_compat_r; [apply pow_le; lra|unfold C; lra]).
  fold Phi in S2. lra.
Qed.
