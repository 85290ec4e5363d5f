(** Lemmas: fields that are regular in a box, and one push of either pusher near a motion. *)
From Coq Require Import Reals List Lia Lra Psatz String.
From Coquelicot Require Import Coquelicot.
From Verif Require Import Model_Push Spec_Push Proofs_Push Model_Bunch Spec_Bunch Proofs_Bunch
  Spec_Conv Proofs_Conv Proofs_Conv2 Proofs_Conv3 Proofs_Conv4.
Import ListNotations.
Open Scope R_scope.

(** Continuing the fields outside the box. *)
Definition clip (a b v : R) : R := Rmax a (Rmin b v).
Lemma clip_in a b v : a <= b -> a <= clip a b v <= b.
Proof. intros H. unfold clip. split; [apply Rmax_l|]. apply Rmax_lub; [exact H|apply Rmin_l]. Qed.
Lemma clip_id a b v : a <= v <= b -> clip a b v = v.
Proof. intros H. unfold clip. rewrite Rmin_right by lra. apply Rmax_right. lra. Qed.
Lemma clip_lip a b v w : Rabs (clip a b v - clip a b w) <= Rabs (v - w).
Proof.
  unfold clip, Rmax, Rmin. destruct (Rle_dec b v), (Rle_dec b w);
    repeat match goal with |- context [Rle_dec ?u ?k] => destruct (Rle_dec u k) end;
    unfold Rabs; repeat destruct (Rcase_abs _); lra.
Qed.
Definition clipped (w T : R) (G : pos -> R -> em) (r : pos) (t : R) : em :=
  G (clip (-w) w (fst (fst r)), clip (-w) w (snd (fst r)), clip (-w) w (snd r)) (clip 0 T t).
Lemma clipped_same w T G r t : within w r -> 0 <= t <= T -> clipped w T G r t = G r t.
Proof.
  destruct r as [[a b] c]. intros (H1 & H2 & H3) Ht. cbn [fst snd] in *. unfold clipped. cbn [fst snd].
  apply Rabs_le_between in H1. apply Rabs_le_between in H2. apply Rabs_le_between in H3.
  rewrite !clip_id by assumption. reflexivity.
Qed.
Lemma em_dist_tri f g k : em_dist f k <= em_dist f g + em_dist g k.
Proof.
  unfold em_dist.
  assert (T : forall a b c, Rabs (a - c) <= Rabs (a - b) + Rabs (b - c)).
  { intros a b c. replace (a - c) with ((a - b) + (b - c)) by ring. apply Rabs_triang. }
  pose proof (T (ex f) (ex g) (ex k)). pose proof (T (ey f) (ey g) (ey k)). pose proof (T (ez f) (ez g) (ez k)).
  pose proof (T (bx f) (bx g) (bx k)). pose proof (T (by_ f) (by_ g) (by_ k)). pose proof (T (bz f) (bz g) (bz k)). lra.
Qed.
Lemma em_dist_pos f g : 0 <= em_dist f g.
Proof.
  unfold em_dist. pose proof (Rabs_pos (ex f - ex g)). pose proof (Rabs_pos (ey f - ey g)). pose proof (Rabs_pos (ez f - ez g)).
  pose proof (Rabs_pos (bx f - bx g)). pose proof (Rabs_pos (by_ f - by_ g)). pose proof (Rabs_pos (bz f - bz g)). lra.
Qed.
Lemma clipped_tame w T G : 0 <= w -> 0 <= T -> regular w T G -> tame (clipped w T G).
Proof.
  intros Hw HT (L & L0 & HL).
  assert (In1 : forall v, Rabs (clip (-w) w v) <= w).
  { intros v. apply Rabs_le. pose proof (clip_in (-w) w v). lra. }
  assert (InT : forall t, 0 <= clip 0 T t <= T) by (intros t; apply clip_in, HT).
  set (g0 := em_dist (G (0, 0, 0) 0) em0). exists (g0 + L * (3 * w + T) + L).
  assert (G0 : 0 <= g0) by apply em_dist_pos.
  assert (B0 : 0 <= L * (3 * w + T)) by (apply Rmult_le_pos; lra).
  split; [lra|]. split.
  - intros r t. unfold clipped. set (r' := (clip (- w) w (fst (fst r)), clip (- w) w (snd (fst r)), clip (- w) w (snd r))).
    pose proof (em_dist_tri (G r' (clip 0 T t)) (G (0, 0, 0) 0) em0) as Tr. fold g0 in Tr.
    assert (D : em_dist (G r' (clip 0 T t)) (G (0, 0, 0) 0) <= L * (3 * w + T)).
    { eapply Rle_trans; [apply HL|].
      - unfold within, r'. cbn [fst snd]. auto.
      - unfold within. cbn [fst snd]. rewrite Rabs_R0. auto.
      - apply InT.
      - lra.
      - apply Rmult_le_compat_l; [exact L0|]. unfold rdist, r'. cbn [fst snd]. rewrite !Rminus_0_r.
        pose proof (In1 (fst (fst r))). pose proof (In1 (snd (fst r))). pose proof (In1 (snd r)).
        pose proof (InT t). rewrite (Rabs_right (clip 0 T t)) by lra. lra. }
    lra.
  - intros r r' t t'. unfold clipped.
    assert (D : 0 <= rdist r r' + Rabs (t - t')).
    { unfold rdist. pose proof (Rabs_pos (t - t')). pose proof (Rabs_pos (fst (fst r) - fst (fst r'))).
      pose proof (Rabs_pos (snd (fst r) - snd (fst r'))). pose proof (Rabs_pos (snd r - snd r')). lra. }
    assert (A : 0 <= (g0 + L * (3 * w + T)) * (rdist r r' + Rabs (t - t'))) by (apply Rmult_le_pos; lra).
    eapply Rle_trans; [apply HL|].
    + unfold within. cbn [fst snd]. auto.
    + unfold within. cbn [fst snd]. auto.
    + apply InT.
    + apply InT.
    + apply Rle_trans with (L * (rdist r r' + Rabs (t - t'))); [|lra]. apply Rmult_le_compat_l; [exact L0|].
      unfold rdist. cbn [fst snd]. pose proof (clip_lip (-w) w (fst (fst r)) (fst (fst r'))).
      pose proof (clip_lip (-w) w (snd (fst r)) (snd (fst r'))). pose proof (clip_lip (-w) w (snd r) (snd r')).
      pose proof (clip_lip 0 T t t'). lra.
Qed.

(** Speeds. *)
Lemma speed p : Rabs (vx p) <= c_SI /\ Rabs (vy p) <= c_SI /\ Rabs (vz p) <= c_SI.
Proof.
  pose proof (gam_ge (px p) (py p) (pz p)) as (G1 & G2 & G3). pose proof (gam_ge1 (px p) (py p) (pz p)) as G0.
  unfold vx, vy, vz. rewrite gamma_gam. set (g := gam (px p) (py p) (pz p)) in *.
  assert (c0 : 0 < c_SI) by (unfold c_SI; lra).
  assert (H : forall v, Rabs v <= g -> Rabs (c_SI / g * v) <= c_SI).
  { intros v Hv. rewrite Rabs_mult. unfold Rdiv. rewrite Rabs_mult, (Rabs_right c_SI) by lra.
    rewrite (Rabs_right (/ g)) by (apply Rle_ge, Rlt_le, Rinv_0_lt_compat; lra).
    apply Rmult_le_reg_r with g; [lra|]. replace (c_SI * / g * Rabs v * g) with (c_SI * Rabs v) by (field; lra).
    apply Rmult_le_compat_l; lra. }
  auto.
Qed.
Lemma within_move w h a p vx' vy' vz' : 0 <= a <= h -> Rabs vx' <= 2 * c_SI -> Rabs vy' <= 2 * c_SI -> Rabs vz' <= 2 * c_SI ->
  within (w - 2 * c_SI * h) (pos_of p) ->
  within w (x p + a * vx', y p + a * vy', xi p + a * vz').
Proof.
  intros Ha H1 H2 H3 (W1 & W2 & W3). unfold pos_of, within in *. cbn [fst snd] in *.
  assert (M : forall u v, Rabs u <= w - 2 * c_SI * h -> Rabs v <= 2 * c_SI -> Rabs (u + a * v) <= w).
  { intros u v Hu Hv. eapply Rle_trans; [apply Rabs_triang|]. rewrite Rabs_mult, (Rabs_right a) by lra.
    assert (a * Rabs v <= h * (2 * c_SI)) by (apply Rmult_le_compat; try lra; apply Rabs_pos). lra. }
  auto.
Qed.
Lemma within_less w w' r : w <= w' -> within w r -> within w' r.
Proof. unfold within. intros H (H1 & H2 & H3). repeat split; lra. Qed.

Section Local.
  Variables q m w T : R.
  Variable G : pos -> R -> em.
  Notation Gc := (clipped w T G).
  Lemma lorentz_same t p : within w (pos_of p) -> 0 <= t <= T -> lorentz q m Gc t p = lorentz q m G t p.
  Proof. intros Hp Ht. unfold lorentz. rewrite clipped_same by assumption. reflexivity. Qed.
  Lemma stage_within H t p p' h a : 0 <= a <= h -> within (w - 2 * c_SI * h) (pos_of p) ->
    within w (pos_of (padd p (pscal a (lorentz q m H t p')))).
  Proof.
    intros Ha Hp. destruct (speed p') as (S1 & S2 & S3).
    assert (c0 : 0 < c_SI) by (unfold c_SI; lra).
    change (pos_of (padd p (pscal a (lorentz q m H t p'))))
      with (x p + a * vx p', y p + a * vy p', xi p + a * (vz p' - c_SI)).
    apply within_move with h; try assumption; try lra.
    eapply Rle_trans; [apply Rabs_triang|]. rewrite Rabs_Ropp, (Rabs_right c_SI) by lra. lra.
  Qed.
  Lemma rk4_same t h p : 0 <= h -> 0 <= t -> t + h <= T -> within (w - 2 * c_SI * h) (pos_of p) ->
    classical_rk4 (lorentz q m Gc) t h p = classical_rk4 (lorentz q m G) t h p.
  Proof.
    intros Hh H0 H1 Hp. unfold classical_rk4. cbv zeta.
    assert (c0 : 0 < c_SI) by (unfold c_SI; lra).
    assert (Hc : 0 <= 2 * c_SI * h) by (apply Rmult_le_pos; lra).
    rewrite (lorentz_same t p); [|eapply within_less; [|exact Hp]; lra|lra].
    set (k1 := lorentz q m G t p).
    rewrite (lorentz_same (t + h / 2) (padd p (pscal (h / 2) k1))); [|apply stage_within with h; [lra|exact Hp]|lra].
    set (k2 := lorentz q m G (t + h / 2) (padd p (pscal (h / 2) k1))).
    rewrite (lorentz_same (t + h / 2) (padd p (pscal (h / 2) k2))); [|apply stage_within with h; [lra|exact Hp]|lra].
    set (k3 := lorentz q m G (t + h / 2) (padd p (pscal (h / 2) k2))).
    rewrite (lorentz_same (t + h) (padd p (pscal h k3))); [|apply stage_within with h; [lra|exact Hp]|lra].
    reflexivity.
  Qed.
  Lemma boris_same qm t h p : 0 <= h -> 0 <= t -> t + h <= T -> within (w - 2 * c_SI * h) (pos_of p) ->
    boris1 qm Gc t h p = boris1 qm G t h p.
  Proof.
    intros Hh H0 H1 Hp. unfold boris1. cbv zeta. rewrite clipped_same; [reflexivity| |lra].
    destruct (speed p) as (S1 & S2 & S3). assert (c0 : 0 < c_SI) by (unfold c_SI; lra).
    change (pos_of (drift (h / 2) p)) with (x p + vx p * (h / 2), y p + vy p * (h / 2), xi p + (vz p - c_SI) * (h / 2)).
    rewrite (Rmult_comm (vx p)), (Rmult_comm (vy p)), (Rmult_comm (vz p - c_SI)).
    apply within_move with h; try assumption; try lra.
    eapply Rle_trans; [apply Rabs_triang|]. rewrite Rabs_Ropp, (Rabs_right c_SI) by lra. lra.
  Qed.
End Local.

(** One push of one particle. *)
Definition push1 (pusher : string) (q m : R) (G : pos -> R -> em) (t h : R) (p : part) : part :=
  if String.eqb pusher "rk4" then classical_rk4 (lorentz q m G) t h p else boris1 (q / (m * c_SI)) G t h p.
Lemma fresh_push1 pusher q m fields G t h l : known pusher -> gathers fields G ->
  fresh_push q m l (fields, t, h, pusher) = map (push1 pusher q m G t h) l.
Proof.
  intros [-> | ->] HG; unfold push1; cbn [String.eqb Ascii.eqb Bool.eqb].
  - apply (fresh_rk4 q m fields G t h l HG).
  - apply (fresh_boris q m fields G t h l HG).
Qed.

Lemma push1_method pusher q m G : tame G -> exists Phi, BLs Phi /\ (forall t p, Phi (mka 0 t p) = lorentz q m G t p) /\
  forall h t p, push1 pusher q m G t h p = one_step Phi h t p.
Proof.
  intros HG. unfold push1. destruct (String.eqb pusher "rk4").
  - exists (phi_rk4 q m G). split; [apply bls_rk4, HG|]. split; [apply rk4_at_zero|]. intros h t p. apply rk4_method.
  - exists (phi_boris (q / (m * c_SI)) G). split; [apply bls_boris, HG|]. split; [intros t p; apply boris_at_zero; reflexivity|].
    intros h t p. apply boris_method.
Qed.

Lemma near_motion pusher q m G w w0 T Y : 0 <= T -> w0 < w -> regular w T G -> motion q m G T Y ->
  (forall t, 0 <= t <= T -> within w0 (pos_of (Y t))) ->
  exists C d0, 0 <= C /\ 0 < d0 /\ forall d t h p, d <= d0 -> 0 <= h <= d -> 0 <= t -> t + h <= T ->
    pdist p (Y t) <= err C d t -> pdist (push1 pusher q m G t h p) (Y (t + h)) <= err C d (t + h).
Proof.
  intros HT Hw HR HY Hin.
  assert (W0 : 0 <= w0).
  { destruct (Hin 0 ltac:(lra)) as (H & _). eapply Rle_trans; [apply Rabs_pos|exact H]. }
  assert (HG : tame (clipped w T G)) by (apply clipped_tame; [lra|exact HT|exact HR]).
  destruct (push1_method pusher q m (clipped w T G) HG) as (Phi & HP & Hf & Hpush).
  assert (HY' : forall t, 0 <= t <= T -> forall u, In u coords ->
            is_derive (fun s => u (Y s)) t (u (lorentz q m (clipped w T G) t (Y t)))).
  { intros t Ht u Hu. rewrite lorentz_same; [|eapply within_less; [|apply Hin, Ht]; lra|exact Ht].
    destruct (HY t Ht) as (D1 & D2 & D3 & D4 & D5 & D6). each Hu; assumption. }
  destruct (stable_consistent _ Phi HP Hf T Y HY') as (C & C0 & St & Co).
  assert (c0 : 0 < c_SI) by (unfold c_SI; lra).
  set (K := C * T * exp (C * T)).
  assert (K0 : 0 <= K) by (unfold K; apply Rmult_le_pos; [apply Rmult_le_pos; assumption|left; apply exp_pos]).
  set (e := (w - w0) / 2). assert (e0 : 0 < e) by (unfold e; lra).
  exists C, (Rmin 1 (Rmin (e / (K + 1)) (e / (2 * c_SI)))). split; [exact C0|]. split.
  { apply Rmin_pos; [lra|]. apply Rmin_pos; apply Rdiv_lt_0_compat; lra. }
  intros d t h p Hd Hh H0 H1 He.
  assert (D1 : d <= 1) by (eapply Rle_trans; [exact Hd|apply Rmin_l]).
  assert (D2 : d <= e / (K + 1)).
  { eapply Rle_trans; [exact Hd|]. eapply Rle_trans; [apply Rmin_r|apply Rmin_l]. }
  assert (D3 : d <= e / (2 * c_SI)).
  { eapply Rle_trans; [exact Hd|]. eapply Rle_trans; [apply Rmin_r|apply Rmin_r]. }
  assert (D2' : d * K <= e).
  { apply Rle_trans with (d * (K + 1)); [apply Rmult_le_compat_l; lra|].
    apply Rmult_le_compat_r with (r := K + 1) in D2; [|lra]. replace (e / (K + 1) * (K + 1)) with e in D2 by (field; lra). exact D2. }
  assert (D3' : 2 * c_SI * h <= e).
  { apply Rle_trans with (2 * c_SI * d); [apply Rmult_le_compat_l; lra|].
    apply Rmult_le_compat_l with (r := 2 * c_SI) in D3; [|lra]. replace (2 * c_SI * (e / (2 * c_SI))) with e in D3 by (field; lra).
    exact D3. }
  assert (Ek : err C d t <= d * K).
  { unfold err, K. replace (d * (C * T * exp (C * T))) with (C * d * T * exp (C * T)) by ring.
    assert (Cd : 0 <= C * d) by (apply Rmult_le_pos; lra).
    apply Rmult_le_compat; [apply Rmult_le_pos; lra|left; apply exp_pos|apply Rmult_le_compat_l; lra|].
    destruct (Rle_lt_or_eq_dec (C * t) (C * T)) as [L|L]; [apply Rmult_le_compat_l; lra| |rewrite L; lra].
    left. apply exp_increasing, L. }
  assert (Wp : within (w - 2 * c_SI * h) (pos_of p)).
  { destruct (Hin t ltac:(lra)) as (I1 & I2 & I3). unfold pos_of in *. cbn [fst snd] in *.
    assert (M : forall u, In u coords -> Rabs (u (Y t)) <= w0 -> Rabs (u p) <= w - 2 * c_SI * h).
    { intros u Hu I. pose proof (coord_le u p (Y t) Hu) as L. replace (u p) with ((u p - u (Y t)) + u (Y t)) by ring.
      eapply Rle_trans; [apply Rabs_triang|]. unfold e in *. lra. }
    unfold within. cbn [fst snd]. split; [|split].
    - apply (M x); [unfold coords; cbn; tauto|exact I1].
    - apply (M y); [unfold coords; cbn; tauto|exact I2].
    - apply (M xi); [unfold coords; cbn; tauto|exact I3]. }
  assert (E : push1 pusher q m G t h p = one_step Phi h t p).
  { rewrite <- Hpush. unfold push1. destruct (String.eqb pusher "rk4"); symmetry; [apply rk4_same|apply boris_same]; lra || assumption. }
  rewrite E. eapply Rle_trans; [apply (pdist_tri _ (one_step Phi h t (Y t)))|].
  pose proof (St h t p (Y t) ltac:(lra)) as S1. pose proof (Co h t ltac:(lra) H0 H1) as S2.
  eapply Rle_trans; [apply Rplus_le_compat; [exact S1|exact S2]|].
  apply err_step; assumption.
Qed.
