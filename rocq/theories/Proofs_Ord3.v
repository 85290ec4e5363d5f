(** Lemmas: one push near a motion to second order; runs that follow a motion up to a given error. *)
From Coq Require Import Reals QArith Qreals String List Bool Arith ZArith Lia Lqa Lra.
From Coquelicot Require Import Coquelicot.
From Verif Require Import Model_Push Spec_Push Proofs_Push Model_Bunch Spec_Bunch Proofs_Bunch
  Model_Tracker Spec_Tracker Proofs_Tracker Properties_Tracker Model_Run Spec_Run Proofs_Run
  Spec_Conv Proofs_Conv Proofs_Conv2 Proofs_Conv3 Proofs_Conv4 Proofs_Conv5 Proofs_Conv6 Proofs_Ord Proofs_Ord2.
Import ListNotations.
Open Scope R_scope.

(** Fields felt along a motion. *)
Lemma felt_c11 q m G w w0 T Y : 0 <= T -> w0 <= w -> regular w T G -> smooth w T G ->
  (forall t, 0 <= t <= T -> forall u, In u coords -> is_derive (fun s => u (Y s)) t (u (lorentz q m (clipped w T G) t (Y t)))) ->
  (forall t, 0 <= t <= T -> within w0 (pos_of (Y t))) ->
  forall e, In e components -> C11 1 T (fun s => e (felt (clipped w T G) Y s)).
Proof.
  intros HT Hw HR (L & L0 & HS) HY Hin e He.
  assert (H1 : 0 <= 1 <= 1) by lra.
  assert (W0 : 0 <= w0).
  { destruct (Hin 0 ltac:(lra)) as (H & _). eapply Rle_trans; [apply Rabs_pos|exact H]. }
  assert (HG : tame (clipped w T G)) by (apply clipped_tame; [lra|exact HT|exact HR]).
  pose proof (motion_c11 q m 1 T (clipped w T G) HG Y HY) as HC.
  assert (Cx : C11 1 T (fun s => x (Y s))) by (apply HC; unfold coords; cbn [In]; tauto).
  assert (Cy : C11 1 T (fun s => y (Y s))) by (apply HC; unfold coords; cbn [In]; tauto).
  assert (Cz : C11 1 T (fun s => xi (Y s))) by (apply HC; unfold coords; cbn [In]; tauto).
  clear HC. destruct HG as (M & M0 & HB & HL).
  assert (Bd : forall k : R -> R -> R, Big 1 T 0 (fun h t => e (felt (clipped w T G) Y (k h t)))).
  { intros k. exists M. split; [exact M0|]. intros h t _. cbn [pow]. rewrite Rmult_1_r.
    pose proof (component_le e (felt (clipped w T G) Y (k h t)) em0 He) as C.
    replace (e em0) with 0 in C by (unfold components in He; cbn [In] in He; destruct He as [<-|[<-|[<-|[<-|[<-|[<-|[]]]]]]]; reflexivity).
    rewrite Rminus_0_r in C. eapply Rle_trans; [exact C|]. unfold felt. apply HB. }
  assert (Dr : Big 1 T 1 (fun h t => rdist (pos_of (Y (t + h))) (pos_of (Y t)))).
  { unfold rdist, pos_of. cbn [fst snd].
    apply (big_plus 1 T 1 (fun h t => Rabs (x (Y (t + h)) - x (Y t)) + Rabs (y (Y (t + h)) - y (Y t)))); [apply big_plus|]; apply big_abs;
      [apply Cx|apply Cy|apply Cz]. }
  assert (Dt : Big 1 T 1 (fun h t => rdist (pos_of (Y (t + h))) (pos_of (Y t)) + Rabs (t + h - t))).
  { apply big_plus; [exact Dr|]. apply big_abs. apply (big_ext 1 T 1 (fun h _ => h)); [intros; ring|apply big_h]. }
  split; [apply (Bd (fun h t => t + h))|]. split; [apply (Bd (fun h t => t + h / 2))|]. split; [apply (Bd (fun h t => t))|]. split.
  - apply (big_le 1 T 1 _ _ (big_scal 1 T 1 M _ Dt)). intros h t _. eapply Rle_trans; [apply component_le, He|].
    unfold felt. eapply Rle_trans; [apply HL|]. apply Rle_abs.
  - assert (Dm : Big 1 T 2 (fun h t => rdist (middle (pos_of (Y (t + h))) (pos_of (Y t))) (pos_of (Y (t + h / 2))))).
    { unfold rdist, middle, pos_of. cbn [fst snd].
      assert (E : forall v : part -> R, C11 1 T (fun s => v (Y s)) -> Big 1 T 2 (fun h t => Rabs ((v (Y (t + h)) + v (Y t)) / 2 - v (Y (t + h / 2))))).
      { intros v (_ & _ & _ & _ & V). apply big_abs. apply (big_ext 1 T 2 (fun h t => / 2 * second (fun s => v (Y s)) h t));
          [intros; unfold second; field|]. apply big_scal, V. }
      apply (big_plus 1 T 2 (fun h t => Rabs ((x (Y (t + h)) + x (Y t)) / 2 - x (Y (t + h / 2))) +
        Rabs ((y (Y (t + h)) + y (Y t)) / 2 - y (Y (t + h / 2))))); [apply big_plus|]; apply E; assumption. }
    assert (Ds : Big 1 T 2 (fun h t => 2 * (L * (rdist (pos_of (Y (t + h))) (pos_of (Y t)) + Rabs (t + h - t)) ^ 2)
       + 2 * (M * rdist (middle (pos_of (Y (t + h))) (pos_of (Y t))) (pos_of (Y (t + h / 2)))))).
    { apply big_plus; apply big_scal, big_scal; [|exact Dm].
      apply (big_ext 1 T 2 (fun h t => (rdist (pos_of (Y (t + h))) (pos_of (Y t)) + Rabs (t + h - t)) *
        (rdist (pos_of (Y (t + h))) (pos_of (Y t)) + Rabs (t + h - t)))); [intros; ring|].
      apply (big_mult 1 T 1 1 (fun h t => rdist (pos_of (Y (t + h))) (pos_of (Y t)) + Rabs (t + h - t))); exact Dt. }
    apply (big_le 1 T 2 _ _ Ds). intros h t ((A1 & A2) & A3 & A4). unfold second, felt.
    set (r1 := pos_of (Y (t + h))). set (r0 := pos_of (Y t)). set (rm := pos_of (Y (t + h / 2))).
    assert (W1 : within w r1) by (eapply within_less; [exact Hw|apply Hin; lra]).
    assert (W2 : within w r0) by (eapply within_less; [exact Hw|apply Hin; lra]).
    assert (Wm : within w (middle r1 r0)).
    { destruct W1 as (a1 & a2 & a3), W2 as (b1 & b2 & b3). unfold within, middle. cbn [fst snd].
      assert (Q : forall a b, Rabs a <= w -> Rabs b <= w -> Rabs ((a + b) / 2) <= w).
      { intros a b Ha Hb. apply Rabs_le_between in Ha. apply Rabs_le_between in Hb. apply Rabs_le. lra. }
      auto. }
    rewrite (clipped_same w T G r1 (t + h)) by (lra || assumption). rewrite (clipped_same w T G r0 t) by (lra || assumption).
    set (g := G (middle r1 r0) ((t + h + t) / 2)).
    assert (S1 : Rabs (e g - (e (G r1 (t + h)) + e (G r0 t)) / 2) <= L * (rdist r1 r0 + Rabs (t + h - t)) ^ 2).
    { pose proof (HS r1 r0 (t + h) t W1 W2 ltac:(lra) ltac:(lra)) as Q. eapply Rle_trans; [|exact Q].
      pose proof (component_le e g (mean (G r1 (t + h)) (G r0 t)) He) as C.
      replace (e (mean (G r1 (t + h)) (G r0 t))) with ((e (G r1 (t + h)) + e (G r0 t)) / 2) in C
        by (unfold components in He; cbn [In] in He; destruct He as [<-|[<-|[<-|[<-|[<-|[<-|[]]]]]]]; reflexivity).
      exact C. }
    assert (S2 : Rabs (e g - e (clipped w T G rm (t + h / 2))) <= M * rdist (middle r1 r0) rm).
    { unfold g. rewrite <- (clipped_same w T G (middle r1 r0)) by (lra || assumption).
      eapply Rle_trans; [apply component_le, He|]. eapply Rle_trans; [apply HL|].
      replace ((t + h + t) / 2 - (t + h / 2)) with 0 by field. rewrite Rabs_R0, Rplus_0_r. lra. }
    eapply Rle_trans; [|apply Rle_abs].
    replace (e (G r1 (t + h)) + e (G r0 t) - 2 * e (clipped w T G rm (t + h / 2)))
      with (- (2 * (e g - (e (G r1 (t + h)) + e (G r0 t)) / 2)) + 2 * (e g - e (clipped w T G rm (t + h / 2)))) by field.
    eapply Rle_trans; [apply Rabs_triang|]. rewrite Rabs_Ropp, !Rabs_mult, (Rabs_right 2) by lra. lra.
Qed.

Lemma push1_method2 pusher q m G : tame G -> exists Phi, BLs Phi /\ (forall t p, Phi (mka 0 t p) = lorentz q m G t p) /\
  (forall h t p, push1 pusher q m G t h p = one_step Phi h t p) /\
  forall T Y, (forall t, 0 <= t <= T -> forall u, In u coords -> is_derive (fun s => u (Y s)) t (u (lorentz q m G t (Y t)))) ->
    (forall e, In e components -> C11 1 T (fun s => e (felt G Y s))) ->
    Big 1 T 3 (fun h t => pdist (one_step Phi h t (Y t)) (Y (t + h))).
Proof.
  intros HG. assert (H1 : 0 <= 1 <= 1) by lra. unfold push1. destruct (String.eqb pusher "rk4").
  - exists (phi_rk4 q m G). split; [apply bls_rk4, HG|]. split; [apply rk4_at_zero|]. split; [intros h t p; apply rk4_method|].
    intros T Y HY HF. apply (third_order q m 1 T H1 G HG Y HY HF). intros u Hu. apply (rk4_second q m 1 T H1 G HG Y HY HF u Hu).
  - exists (phi_boris (q / (m * c_SI)) G). split; [apply bls_boris, HG|]. split; [intros t p; apply boris_at_zero; reflexivity|].
    split; [intros h t p; apply boris_method|].
    intros T Y HY HF. apply (third_order q m 1 T H1 G HG Y HY HF). intros u Hu. apply (boris_second q m 1 T H1 G HG Y HY HF u Hu).
Qed.

Lemma err_step2 C d t h e : 0 <= C -> 0 <= t -> 0 <= h <= d -> e <= err C (d * d) t ->
  (1 + C * h) * e + C * h ^ 3 <= err C (d * d) (t + h).
Proof.
  intros C0 H0 Hh He.
  assert (Dd : 0 <= d * d) by (apply Rmult_le_pos; lra).
  assert (Ch : 0 <= C * h) by (apply Rmult_le_pos; lra).
  assert (E1 : 1 + C * h <= exp (C * h)) by apply exp_ineq1_le.
  assert (E2 : 1 <= exp (C * (t + h))).
  { pose proof (exp_ineq1_le (C * (t + h))). assert (0 <= C * (t + h)) by (apply Rmult_le_pos; lra). lra. }
  assert (P : 0 <= err C (d * d) t).
  { unfold err. apply Rmult_le_pos; [|left; apply exp_pos]. apply Rmult_le_pos; [apply Rmult_le_pos; assumption|exact H0]. }
  assert (S1 : (1 + C * h) * e <= exp (C * h) * err C (d * d) t).
  { apply Rle_trans with ((1 + C * h) * err C (d * d) t); [apply Rmult_le_compat_l; lra|apply Rmult_le_compat_r; lra]. }
  assert (S2 : exp (C * h) * err C (d * d) t = C * (d * d) * t * exp (C * (t + h))).
  { unfold err. replace (C * (t + h)) with (C * h + C * t) by ring. rewrite exp_plus. ring. }
  assert (S3 : C * h ^ 3 <= C * (d * d) * h * exp (C * (t + h))).
  { replace (C * h ^ 3) with (C * (h * h) * h * 1) by ring.
    assert (h * h <= d * d) by (apply Rmult_le_compat; lra). assert (0 <= h * h) by (apply Rmult_le_pos; lra).
    apply Rmult_le_compat; [apply Rmult_le_pos; [apply Rmult_le_pos; assumption|lra]|lra| |exact E2].
    apply Rmult_le_compat_r; [lra|]. apply Rmult_le_compat_l; assumption. }
  unfold err at 1. replace (C * (d * d) * (t + h) * exp (C * (t + h)))
    with (C * (d * d) * t * exp (C * (t + h)) + C * (d * d) * h * exp (C * (t + h))) by ring. lra.
Qed.
Lemma err_le C d t T : 0 <= C -> 0 <= d -> 0 <= t <= T -> err C d t <= C * T * exp (C * T) * d.
Proof.
  intros C0 D0 Ht. unfold err. replace (C * T * exp (C * T) * d) with (C * d * T * exp (C * T)) by ring.
  assert (0 <= C * d) by (apply Rmult_le_pos; assumption).
  apply Rmult_le_compat; [apply Rmult_le_pos; lra|left; apply exp_pos|apply Rmult_le_compat_l; lra|].
  destruct (Rle_lt_or_eq_dec (C * t) (C * T)) as [L|L]; [apply Rmult_le_compat_l; lra| |rewrite L; lra].
  left. apply exp_increasing, L.
Qed.

Lemma near_motion2 pusher q m G w w0 T Y : 0 <= T -> w0 < w -> regular w T G -> smooth w T G -> motion q m G T Y ->
  (forall t, 0 <= t <= T -> within w0 (pos_of (Y t))) ->
  exists C d0, 0 <= C /\ 0 < d0 /\ forall d t h p, d <= d0 -> 0 <= h <= d -> 0 <= t -> t + h <= T ->
    pdist p (Y t) <= err C (d * d) t -> pdist (push1 pusher q m G t h p) (Y (t + h)) <= err C (d * d) (t + h).
Proof.
  intros HT Hw HR HS HY Hin.
  assert (W0 : 0 <= w0).
  { destruct (Hin 0 ltac:(lra)) as (H & _). eapply Rle_trans; [apply Rabs_pos|exact H]. }
  assert (HG : tame (clipped w T G)) by (apply clipped_tame; [lra|exact HT|exact HR]).
  destruct (push1_method2 pusher q m (clipped w T G) HG) as (Phi & HP & Hf & Hpush & H3).
  assert (HY' : forall t, 0 <= t <= T -> forall u, In u coords ->
            is_derive (fun s => u (Y s)) t (u (lorentz q m (clipped w T G) t (Y t)))).
  { intros t Ht u Hu. rewrite lorentz_same; [|eapply within_less; [|apply Hin, Ht]; lra|exact Ht].
    destruct (HY t Ht) as (D1 & D2 & D3 & D4 & D5 & D6). each Hu; assumption. }
  destruct (stable_consistent _ Phi HP Hf T Y HY') as (C1 & C10 & St & _).
  destruct (H3 T Y HY') as (C2 & C20 & Co).
  { apply (felt_c11 q m G w w0 T Y); try assumption. lra. }
  set (C := C1 + C2). assert (C0 : 0 <= C) by (unfold C; lra).
  assert (c0 : 0 < c_SI) by (unfold c_SI; lra).
  set (K := C * T * exp (C * T)).
  assert (K0 : 0 <= K) by (unfold K; apply Rmult_le_pos; [apply Rmult_le_pos; assumption|left; apply exp_pos]).
  set (e := (w - w0) / 2). assert (e0 : 0 < e) by (unfold e; lra).
  exists C, (Rmin 1 (Rmin (e / (K + 1)) (e / (2 * c_SI)))). split; [exact C0|]. split.
  { apply Rmin_pos; [lra|]. apply Rmin_pos; apply Rdiv_lt_0_compat; lra. }
  intros d t h p Hd Hh H0 H1 He.
  assert (D1 : d <= 1) by (eapply Rle_trans; [exact Hd|apply Rmin_l]).
  assert (D2 : d <= e / (K + 1)).
  { eapply Rle_trans; [exact Hd|]. eapply Rle_trans; [apply Rmin_r|apply Rmin_l]. }
  assert (D3 : d <= e / (2 * c_SI)).
  { eapply Rle_trans; [exact Hd|]. eapply Rle_trans; [apply Rmin_r|apply Rmin_r]. }
  assert (D2' : d * K <= e).
  { apply Rle_trans with (d * (K + 1)); [apply Rmult_le_compat_l; lra|].
    apply Rmult_le_compat_r with (r := K + 1) in D2; [|lra]. replace (e / (K + 1) * (K + 1)) with e in D2 by (field; lra). exact D2. }
  assert (D3' : 2 * c_SI * h <= e).
  { apply Rle_trans with (2 * c_SI * d); [apply Rmult_le_compat_l; lra|].
    apply Rmult_le_compat_l with (r := 2 * c_SI) in D3; [|lra]. replace (2 * c_SI * (e / (2 * c_SI))) with e in D3 by (field; lra).
    exact D3. }
  assert (Dd : 0 <= d * d <= d).
  { split; [apply Rmult_le_pos; lra|]. rewrite <- (Rmult_1_r d) at 3. apply Rmult_le_compat_l; lra. }
  assert (Ek : err C (d * d) t <= d * K).
  { eapply Rle_trans; [apply (err_le C (d * d) t T); lra|]. fold K. rewrite (Rmult_comm d K). apply Rmult_le_compat_l; lra. }
  assert (Wp : within (w - 2 * c_SI * h) (pos_of p)).
  { destruct (Hin t ltac:(lra)) as (I1 & I2 & I3). unfold pos_of in *. cbn [fst snd] in *.
    assert (M : forall u, In u coords -> Rabs (u (Y t)) <= w0 -> Rabs (u p) <= w - 2 * c_SI * h).
    { intros u Hu I. pose proof (coord_le u p (Y t) Hu) as L. replace (u p) with ((u p - u (Y t)) + u (Y t)) by ring.
      eapply Rle_trans; [apply Rabs_triang|]. unfold e in *. lra. }
    unfold within. cbn [fst snd]. split; [|split].
    - apply (M x); [unfold coords; cbn; tauto|exact I1].
    - apply (M y); [unfold coords; cbn; tauto|exact I2].
    - apply (M xi); [unfold coords; cbn; tauto|exact I3]. }
  assert (E : push1 pusher q m G t h p = one_step Phi h t p).
  { rewrite <- Hpush. unfold push1. destruct (String.eqb pusher "rk4"); symmetry; [apply rk4_same|apply boris_same]; lra || assumption. }
  rewrite E. eapply Rle_trans; [apply (pdist_tri _ (one_step Phi h t (Y t)))|].
  pose proof (St h t p (Y t) ltac:(lra)) as S1.
  assert (A : ad 1 T h t) by (unfold ad; lra). pose proof (Co h t A) as S2. cbv beta in S2.
  rewrite (Rabs_right (pdist _ _)) in S2 by (apply Rle_ge, pdist_pos).
  eapply Rle_trans; [|apply (err_step2 C d t h (pdist p (Y t)) C0 H0 Hh He)].
  assert (A1 : (1 + C1 * h) * pdist p (Y t) <= (1 + C * h) * pdist p (Y t)).
  { apply Rmult_le_compat_r; [apply pdist_pos|]. apply Rplus_le_compat_l, Rmult_le_compat_r; unfold C; lra. }
  assert (A2 : C2 * h ^ 3 <= C * h ^ 3) by (apply Rmult_le_compat_r; [apply pow_le; lra|unfold C; lra]).
  lra.
Qed.

(** Runs whose pushes keep a particle within a given error of [Y]. *)
Lemma tracking_near pusher fields G (T : Q) q m Y C D : known pusher -> gathers fields G -> 0 <= C -> 0 <= D -> 0 <= Q2R T ->
  forall auto_dt dmin fuel c bunches s i b j d,
  (forall t h p, 0 <= h <= Q2R d -> 0 <= t -> t + h <= Q2R T -> pdist p (Y t) <= err C D t ->
     pdist (push1 pusher q m G t h p) (Y (t + h)) <= err C D (t + h)) ->
  good_config c bunches -> bounded_below auto_dt dmin -> c_push_before c = true -> (c_tfinal c == T)%Q ->
  steps_at_most auto_dt c i d ->
  track pusher auto_dt exact fields fuel c bunches = Model_Tracker.Done s ->
  nth_error bunches i = Some b -> ready b -> z_injection (snd b) = None ->
  q_species (snd b) = q -> m_species (snd b) = m ->
  nth_error (particles (fst b) (snd b)) j = Some (Y 0) ->
  (exists r p, nth_error (bs s) i = Some r /\ nth_error (particles (fst r) (snd r)) j = Some p /\
     pdist p (Y (Q2R T)) <= C * Q2R T * exp (C * Q2R T) * D) /\
  (exists o, nth_error (out s) i = Some o /\ length o = S (c_ndiags c) /\
     forall k, (k <= c_ndiags c)%nat -> exists r p, nth_error o k = Some r /\
       nth_error (particles (fst r) (snd r)) j = Some p /\
       pdist p (Y (INR k * (Q2R T / INR (c_ndiags c)))) <= C * Q2R T * exp (C * Q2R T) * D).
Proof.
  intros K HG C0 D0 T0 auto_dt dmin fuel c bunches s i b j d Hp Hg Ha Hpb ET Hd H Hb Hr Hz Hq Hm Hj.
  assert (Eb : forall t, 0 <= t <= Q2R T -> err C D t <= C * Q2R T * exp (C * Q2R T) * D) by (intros; apply err_le; assumption).
  destruct (along_short tracked (list field) (evolve_tracked pusher) no_update auto_dt copy_tracked fields (fun _ _ _ => eq_refl)
              T d (near q m Y (err C D) j)) with (c := c) (bs0 := bunches) (m := dmin) (fuel := fuel) (s := s) (i := i) (b := b)
    as ((r & Er & _ & _ & _ & _ & p & Ep & Dp) & (o & Eo & Lo & Ho)); try assumption.
  - intros t t' b' Et (N1 & N2 & N3 & N4 & p & N5 & N6). do 4 (split; [assumption|]). exists p.
    rewrite <- (Qeq_eqR _ _ Et). auto.
  - apply (near_step pusher fields G q m Y (err C D) j T d K HG). intros t h p Hh. apply Hp; assumption.
  - do 4 (split; [assumption|]). exists (Y 0). split; [exact Hj|]. rewrite Q2R_0', pdist_refl. unfold err. rewrite Rmult_0_r, Rmult_0_l. lra.
  - split.
    + exists r, p. split; [exact Er|]. split; [exact Ep|]. eapply Rle_trans; [exact Dp|apply Eb; lra].
    + exists o. split; [exact Eo|]. split; [exact Lo|]. intros k Hk.
      destruct (Ho k Hk) as (r' & Er' & Rr' & _ & _ & _ & p' & Ep' & Dp').
      exists (copy_tracked r'), p'. split; [exact Er'|]. split.
      { pose proof (copy_seen r' Rr') as Es. apply (f_equal (fun z => fst (fst z))) in Es.
        cbn [seen contents fst] in Es. unfold seen, contents in Es. cbn [fst snd] in Es. rewrite Es. exact Ep'. }
      assert (Et : Q2R (inject_Z (Z.of_nat k) * (T / inject_Z (Z.of_nat (c_ndiags c)))) = INR k * (Q2R T / INR (c_ndiags c))).
      { unfold Qdiv, Rdiv. rewrite !Q2R_mult.
        assert (Q2Rn : forall n, Q2R (inject_Z (Z.of_nat n)) = INR n).
        { intros n. unfold Q2R. cbn [inject_Z Qnum Qden]. rewrite <- INR_IZR_INZ. field. }
        destruct (c_ndiags c) as [|n] eqn:En.
        - replace k with 0%nat by lia. rewrite !Q2Rn. cbn [INR]. ring.
        - rewrite Q2R_inv, !Q2Rn; [reflexivity|]. intros E. unfold Qeq in E. cbn in E. lia. }
      rewrite Et in Dp'. eapply Rle_trans; [exact Dp'|apply Eb].
      destruct (c_ndiags c) as [|n] eqn:En.
      { replace k with 0%nat by lia. cbn [INR]. rewrite Rmult_0_l. lra. }
      assert (Kn : 0 <= INR k <= INR (S n)) by (split; [apply pos_INR|apply le_INR; lia]).
      assert (Np : 0 < INR (S n)) by (apply lt_0_INR; lia).
      assert (F : 0 <= INR k / INR (S n) <= 1).
      { split; [apply Rmult_le_pos; [lra|left; apply Rinv_0_lt_compat, Np]|].
        apply Rmult_le_reg_r with (INR (S n)); [exact Np|]. unfold Rdiv. rewrite Rmult_assoc, Rinv_l by lra. lra. }
      replace (INR k * (Q2R T / INR (S n))) with (INR k / INR (S n) * Q2R T) by (field; lra).
      split; [apply Rmult_le_pos; lra|]. rewrite <- (Rmult_1_l (Q2R T)) at 2. apply Rmult_le_compat_r; lra.
Qed.

(** Steps of a run have a length. *)
Lemma step_nonneg {B} (auto_dt : B -> Q) dmin c (bunches : list B) i b d : good_config c bunches -> bounded_below auto_dt dmin ->
  steps_at_most auto_dt c i d -> nth_error bunches i = Some b -> 0 <= Q2R d.
Proof.
  intros Hg Ha Hd Hb. rewrite <- Q2R_0'. apply Qle_Rle. unfold steps_at_most in Hd. destruct Hg as (_ & _ & Hpos & _).
  destruct (nth_error (c_dtb c) i) as [[d'|]|] eqn:Ed; [| |contradiction].
  - specialize (Hpos d' (nth_error_In _ _ Ed)). apply Qlt_le_weak. apply Qlt_le_trans with d'; assumption.
  - destruct Ha as [Hm0 Ha]. apply Qlt_le_weak. apply Qlt_le_trans with dmin; [exact Hm0|].
    apply Qle_trans with (auto_dt b); auto.
Qed.

(** Fields that are affine in position and time. *)
Lemma affine_smooth w T G : affine (fun r t => ex (G r t)) -> affine (fun r t => ey (G r t)) -> affine (fun r t => ez (G r t)) ->
  affine (fun r t => bx (G r t)) -> affine (fun r t => by_ (G r t)) -> affine (fun r t => bz (G r t)) -> smooth w T G.
Proof.
  assert (E : forall f, affine f -> forall r r' t t', Rabs (f (middle r r') ((t + t') / 2) - (f r t + f r' t') / 2) = 0).
  { intros f (a & b & c & d & e & E) r r' t t'. rewrite !E. unfold middle. cbn [fst snd].
    match goal with |- Rabs ?v = 0 => replace v with 0 by field end. apply Rabs_R0. }
  intros A1 A2 A3 A4 A5 A6. exists 0. split; [lra|]. intros r r' t t' _ _ _ _. unfold em_dist, mean. cbn [ex ey ez bx by_ bz].
  pose proof (E _ A1 r r' t t') as E1. pose proof (E _ A2 r r' t t') as E2. pose proof (E _ A3 r r' t t') as E3.
  pose proof (E _ A4 r r' t t') as E4. pose proof (E _ A5 r r' t t') as E5. pose proof (E _ A6 r r' t t') as E6.
  cbv beta in *. rewrite E1, E2, E3, E4, E5, E6. lra.
Qed.
