(** Property C116: tracking converges to the motion in the fields as the steps are refined.
    Vocabulary: Spec_Conv, Spec_Push, Spec_Run, Spec_Tracker. *)
From Coq Require Import Reals QArith Qreals String List Bool Arith ZArith Lia Lqa Lra.
From Coquelicot Require Import Coquelicot.
From Verif Require Import Model_Push Spec_Push Proofs_Push Model_Bunch Spec_Bunch Proofs_Bunch
  Model_Tracker Spec_Tracker Proofs_Tracker Properties_Tracker Model_Run Spec_Run Proofs_Run
  Spec_Conv Proofs_Conv Proofs_Conv2 Proofs_Conv5 Proofs_Conv6 Proofs_Ord3 Proofs_Ord7 Proofs_Ord8.
From Verif Require Properties_Split.
Import ListNotations.
Open Scope R_scope.

(** ** C116 *)
(** For every motion in the fields that stays inside a box where the fields vary at a bounded rate,
    there is a constant such that in every run, whatever its pusher steps (fixed or adapted), its
    outputs and its other bunches, a particle that starts on this motion stays as close to it as the
    constant times the longest step, provided the steps are short enough: at the end of the run, and
    in every output at the time of the output. *)
Theorem C116_tracking_converges :
  forall pusher fields G w w0 (T : Q) q m Y,
  known pusher -> gathers fields G -> w0 < w -> regular w (Q2R T) G ->
  motion q m G (Q2R T) Y -> (forall t, 0 <= t <= Q2R T -> within w0 (pos_of (Y t))) ->
  exists K h0, 0 <= K /\ 0 < h0 /\
  forall auto_dt dmin fuel c bunches s i b j d,
  good_config c bunches -> bounded_below auto_dt dmin -> c_push_before c = true -> (c_tfinal c == T)%Q ->
  steps_at_most auto_dt c i d -> Q2R d <= h0 ->
  track pusher auto_dt exact fields fuel c bunches = Model_Tracker.Done s ->
  nth_error bunches i = Some b -> ready b -> z_injection (snd b) = None ->
  q_species (snd b) = q -> m_species (snd b) = m ->
  nth_error (particles (fst b) (snd b)) j = Some (Y 0) ->
  (exists r p, nth_error (bs s) i = Some r /\ nth_error (particles (fst r) (snd r)) j = Some p /\
     pdist p (Y (Q2R T)) <= K * Q2R d) /\
  (exists o, nth_error (out s) i = Some o /\ length o = S (c_ndiags c) /\
     forall k, (k <= c_ndiags c)%nat -> exists r p, nth_error o k = Some r /\
       nth_error (particles (fst r) (snd r)) j = Some p /\
       pdist p (Y (INR k * (Q2R T / INR (c_ndiags c)))) <= K * Q2R d).
Proof.
  intros pusher fields G w w0 T q m Y K HG Hw HR HY Hin.
  destruct (Rle_lt_dec 0 (Q2R T)) as [T0|T0].
  2:{ exists 0, 1. split; [lra|]. split; [lra|]. intros auto_dt dmin fuel c bunches s i b j d (Tp & _) _ _ ET.
      rewrite ET in Tp. apply Qlt_Rlt in Tp. rewrite Q2R_0' in Tp. lra. }
  destruct (near_motion pusher q m G w w0 (Q2R T) Y T0 Hw HR HY Hin) as (C & h0 & C0 & Hh0 & Hp).
  exists (C * Q2R T * exp (C * Q2R T)), h0.
  split; [apply Rmult_le_pos; [apply Rmult_le_pos; assumption|left; apply exp_pos]|]. split; [exact Hh0|].
  intros auto_dt dmin fuel c bunches s i b j d Hg Ha Hpb ET Hd Hdh H Hb.
  pose proof (step_nonneg auto_dt dmin c bunches i b d Hg Ha Hd Hb) as D0.
  apply (tracking_near pusher fields G T q m Y C (Q2R d) K HG C0 D0 T0 auto_dt dmin fuel c bunches s i b j d); try assumption.
  intros t h p Hh. apply Hp; assumption.
Qed.

(** If moreover the fields are smooth in the box, the particle stays as close to the motion as a constant
    times the square of the longest step, with either pusher. *)
Theorem C116_second_order :
  forall pusher fields G w w0 (T : Q) q m Y,
  known pusher -> gathers fields G -> w0 < w -> regular w (Q2R T) G -> smooth w (Q2R T) G ->
  motion q m G (Q2R T) Y -> (forall t, 0 <= t <= Q2R T -> within w0 (pos_of (Y t))) ->
  exists K h0, 0 <= K /\ 0 < h0 /\
  forall auto_dt dmin fuel c bunches s i b j d,
  good_config c bunches -> bounded_below auto_dt dmin -> c_push_before c = true -> (c_tfinal c == T)%Q ->
  steps_at_most auto_dt c i d -> Q2R d <= h0 ->
  track pusher auto_dt exact fields fuel c bunches = Model_Tracker.Done s ->
  nth_error bunches i = Some b -> ready b -> z_injection (snd b) = None ->
  q_species (snd b) = q -> m_species (snd b) = m ->
  nth_error (particles (fst b) (snd b)) j = Some (Y 0) ->
  (exists r p, nth_error (bs s) i = Some r /\ nth_error (particles (fst r) (snd r)) j = Some p /\
     pdist p (Y (Q2R T)) <= K * (Q2R d * Q2R d)) /\
  (exists o, nth_error (out s) i = Some o /\ length o = S (c_ndiags c) /\
     forall k, (k <= c_ndiags c)%nat -> exists r p, nth_error o k = Some r /\
       nth_error (particles (fst r) (snd r)) j = Some p /\
       pdist p (Y (INR k * (Q2R T / INR (c_ndiags c)))) <= K * (Q2R d * Q2R d)).
Proof.
  intros pusher fields G w w0 T q m Y K HG Hw HR HS HY Hin.
  destruct (Rle_lt_dec 0 (Q2R T)) as [T0|T0].
  2:{ exists 0, 1. split; [lra|]. split; [lra|]. intros auto_dt dmin fuel c bunches s i b j d (Tp & _) _ _ ET.
      rewrite ET in Tp. apply Qlt_Rlt in Tp. rewrite Q2R_0' in Tp. lra. }
  destruct (near_motion2 pusher q m G w w0 (Q2R T) Y T0 Hw HR HS HY Hin) as (C & h0 & C0 & Hh0 & Hp).
  exists (C * Q2R T * exp (C * Q2R T)), h0.
  split; [apply Rmult_le_pos; [apply Rmult_le_pos; assumption|left; apply exp_pos]|]. split; [exact Hh0|].
  intros auto_dt dmin fuel c bunches s i b j d Hg Ha Hpb ET Hd Hdh H Hb.
  pose proof (step_nonneg auto_dt dmin c bunches i b d Hg Ha Hd Hb) as D0.
  assert (D1 : 0 <= Q2R d * Q2R d) by (apply Rmult_le_pos; assumption).
  apply (tracking_near pusher fields G T q m Y C (Q2R d * Q2R d) K HG C0 D1 T0 auto_dt dmin fuel c bunches s i b j d); try assumption.
  intros t h p Hh. apply Hp; assumption.
Qed.

(** If moreover the fields have gradients in the box and the motion has five derivatives, the
    Runge-Kutta pusher keeps the particle as close to the motion as a constant times the fourth power of
    the longest step. *)
Theorem C116_rk4_fourth_order :
  forall fields G w w0 (T : Q) q m Y,
  gathers fields G -> w0 < w -> regular w (Q2R T) G -> gradients w (Q2R T) G ->
  motion q m G (Q2R T) Y -> (forall t, 0 <= t <= Q2R T -> within w0 (pos_of (Y t))) ->
  (forall u, In u [x; y; xi; px; py; pz] -> derivable_times 5 (Q2R T) (fun s => u (Y s))) ->
  exists K h0, 0 <= K /\ 0 < h0 /\
  forall auto_dt dmin fuel c bunches s i b j d,
  good_config c bunches -> bounded_below auto_dt dmin -> c_push_before c = true -> (c_tfinal c == T)%Q ->
  steps_at_most auto_dt c i d -> Q2R d <= h0 ->
  track "rk4" auto_dt exact fields fuel c bunches = Model_Tracker.Done s ->
  nth_error bunches i = Some b -> ready b -> z_injection (snd b) = None ->
  q_species (snd b) = q -> m_species (snd b) = m ->
  nth_error (particles (fst b) (snd b)) j = Some (Y 0) ->
  (exists r p, nth_error (bs s) i = Some r /\ nth_error (particles (fst r) (snd r)) j = Some p /\
     pdist p (Y (Q2R T)) <= K * Q2R d ^ 4) /\
  (exists o, nth_error (out s) i = Some o /\ length o = S (c_ndiags c) /\
     forall k, (k <= c_ndiags c)%nat -> exists r p, nth_error o k = Some r /\
       nth_error (particles (fst r) (snd r)) j = Some p /\
       pdist p (Y (INR k * (Q2R T / INR (c_ndiags c)))) <= K * Q2R d ^ 4).
Proof.
  intros fields G w w0 T q m Y HG Hw HR HS HY Hin H5.
  destruct (Rle_lt_dec 0 (Q2R T)) as [T0|T0].
  2:{ exists 0, 1. split; [lra|]. split; [lra|]. intros auto_dt dmin fuel c bunches s i b j d (Tp & _) _ _ ET.
      rewrite ET in Tp. apply Qlt_Rlt in Tp. rewrite Q2R_0' in Tp. lra. }
  destruct (near_motion4 q m G w w0 (Q2R T) Y T0 Hw HR HS HY Hin H5) as (C & h0 & C0 & Hh0 & Hp).
  exists (C * Q2R T * exp (C * Q2R T)), h0.
  split; [apply Rmult_le_pos; [apply Rmult_le_pos; assumption|left; apply exp_pos]|]. split; [exact Hh0|].
  intros auto_dt dmin fuel c bunches s i b j d Hg Ha Hpb ET Hd Hdh H Hb.
  pose proof (step_nonneg auto_dt dmin c bunches i b d Hg Ha Hd Hb) as D0.
  assert (D1 : 0 <= Q2R d ^ 4) by (apply pow_le, D0).
  apply (tracking_near "rk4" fields G T q m Y C (Q2R d ^ 4) (or_introl eq_refl) HG C0 D1 T0 auto_dt dmin fuel c bunches s i b j d); try assumption.
  intros t h p Hh. apply Hp; assumption.
Qed.

(** So there is at most one such motion from each starting point. *)
Theorem C116_motion_is_unique :
  forall G w w0 T q m Y Y', w0 < w -> regular w T G -> motion q m G T Y -> motion q m G T Y' ->
  (forall t, 0 <= t <= T -> within w0 (pos_of (Y t))) -> (forall t, 0 <= t <= T -> within w0 (pos_of (Y' t))) ->
  Y 0 = Y' 0 -> forall t, 0 <= t <= T -> Y t = Y' t.
Proof.
  intros G w w0 T q m Y Y' Hw HR HY HY' Hin Hin' E0 t Ht.
  assert (T0 : 0 <= T) by lra.
  destruct (near_motion "boris" q m G w w0 T Y T0 Hw HR HY Hin) as (C & h0 & C0 & Hh & Hp).
  destruct (near_motion "boris" q m G w w0 T Y' T0 Hw HR HY' Hin') as (C' & h0' & C0' & Hh' & Hp').
  assert (It : forall (n : nat) d, d <= h0 -> d <= h0' -> 0 <= d -> INR n * d <= T -> exists p,
             pdist p (Y (INR n * d)) <= err C d (INR n * d) /\ pdist p (Y' (INR n * d)) <= err C' d (INR n * d)).
  { intros n d D1 D2 D3. induction n as [|n IH]; intros Hn.
    - exists (Y 0). cbn [INR]. rewrite Rmult_0_l, <- E0, !pdist_refl. unfold err. rewrite !Rmult_0_r, !Rmult_0_l. split; lra.
    - rewrite S_INR in *. destruct IH as (p & P1 & P2); [lra|]. replace ((INR n + 1) * d) with (INR n * d + d) in * by ring.
      assert (0 <= INR n * d) by (apply Rmult_le_pos; [apply pos_INR|exact D3]).
      exists (push1 "boris" q m G (INR n * d) d p). split; [apply Hp|apply Hp']; lra || assumption. }
  assert (Z : pdist (Y t) (Y' t) <= 0).
  { apply le_epsilon. intros eps He.
    set (A := (C * t * exp (C * t) + C' * t * exp (C' * t)) * t).
    assert (A0 : 0 <= A).
    { unfold A. pose proof (exp_pos (C * t)). pose proof (exp_pos (C' * t)).
      assert (0 <= C * t) by (apply Rmult_le_pos; lra). assert (0 <= C' * t) by (apply Rmult_le_pos; lra).
      apply Rmult_le_pos; [|lra]. apply Rplus_le_le_0_compat; apply Rmult_le_pos; lra. }
    destruct (above_any (A / eps + t / h0 + t / h0' + 1)) as [n Hn].
    assert (F1 : 0 <= A / eps) by (apply Rmult_le_pos; [exact A0|left; apply Rinv_0_lt_compat, He]).
    assert (F2 : 0 <= t / h0) by (apply Rmult_le_pos; [lra|left; apply Rinv_0_lt_compat, Hh]).
    assert (F3 : 0 <= t / h0') by (apply Rmult_le_pos; [lra|left; apply Rinv_0_lt_compat, Hh']).
    assert (Np : 0 < INR n) by lra.
    assert (Dn : forall a b, 0 < b -> a / b <= INR n -> a / INR n <= b).
    { intros a b Hb Hab. apply Rmult_le_reg_r with (INR n); [exact Np|]. unfold Rdiv. rewrite Rmult_assoc, Rinv_l by lra.
      apply Rmult_le_compat_l with (r := b) in Hab; [|lra]. replace (b * (a / b)) with a in Hab by (field; lra). lra. }
    destruct (It n (t / INR n)) as (p & P1 & P2).
    - apply Dn; lra.
    - apply Dn; lra.
    - apply Rmult_le_pos; [lra|left; apply Rinv_0_lt_compat, Np].
    - replace (INR n * (t / INR n)) with t by (field; lra). lra.
    - replace (INR n * (t / INR n)) with t in * by (field; lra).
      eapply Rle_trans; [apply (pdist_tri _ p)|]. rewrite pdist_sym. eapply Rle_trans; [apply Rplus_le_compat; [exact P1|exact P2]|].
      apply Rle_trans with (A / INR n); [unfold err, A; right; field; lra|]. rewrite Rplus_0_l. apply Dn; lra. }
  apply pdist_zero, Z.
Qed.

(** ** The fields of the beamline elements *)
(** Fields of magnets and of analytical wakefields in a uniform plasma satisfy the hypotheses of the
    theorems above in every box, and so do the motions in them. *)
Theorem C116_element_fields_are_regular :
  (forall k, exists G, gathers [quadrupole_field k] G /\ well_behaved G) /\
  (forall k, exists G, gathers [apl_field k] G /\ well_behaved G) /\
  (forall e m_e eps0 n, exists G, gathers [focusing_blowout e m_e eps0 (fun _ => n)] G /\ well_behaved G) /\
  (forall n vg e0 slope foc xi0, exists G,
     gathers [custom_blowout (fun _ => n) vg e0 slope foc xi0] G /\ well_behaved G) /\
  (forall e m_e n w_p vg l_c off, exists G,
     gathers [simple_blowout e m_e (fun _ => n) w_p vg l_c off] G /\ well_behaved G).
Proof.
  split; [|split; [|split; [|split]]].
  - intros k. eexists. split; [apply gathers_analytical|]. apply affine_well_behaved; cbn [c_ex c_ey c_ez c_bx c_by c_bz ex ey ez bx by_ bz]; unfold no_field.
    + exists 0, 0, 0, 0, 0. intros. ring.
    + exists 0, 0, 0, 0, 0. intros. ring.
    + exists 0, 0, 0, 0, 0. intros. ring.
    + exists 0, (- k), 0, 0, 0. intros. ring.
    + exists (- k), 0, 0, 0, 0. intros. ring.
    + exists 0, 0, 0, 0, 0. intros. ring.
  - intros k. eexists. split; [apply gathers_analytical|]. apply affine_well_behaved; cbn [c_ex c_ey c_ez c_bx c_by c_bz ex ey ez bx by_ bz]; unfold no_field.
    + exists 0, 0, 0, 0, 0. intros. ring.
    + exists 0, 0, 0, 0, 0. intros. ring.
    + exists 0, 0, 0, 0, 0. intros. ring.
    + exists 0, k, 0, 0, 0. intros. ring.
    + exists (- k), 0, 0, 0, 0. intros. ring.
    + exists 0, 0, 0, 0, 0. intros. ring.
  - intros e m_e eps0 n. eexists. split; [apply gathers_analytical|].
    apply affine_well_behaved; cbn [c_ex c_ey c_ez c_bx c_by c_bz ex ey ez bx by_ bz]; unfold no_field.
    + exists (c_SI * (m_e / (2 * e * c_SI) * sqrt (n * e ^ 2 / (m_e * eps0)) ^ 2)), 0, 0, 0, 0. intros. ring.
    + exists 0, (c_SI * (m_e / (2 * e * c_SI) * sqrt (n * e ^ 2 / (m_e * eps0)) ^ 2)), 0, 0, 0. intros. ring.
    + exists 0, 0, 0, 0, 0. intros. ring.
    + exists 0, 0, 0, 0, 0. intros. ring.
    + exists 0, 0, 0, 0, 0. intros. ring.
    + exists 0, 0, 0, 0, 0. intros. ring.
  - intros n vg e0 slope foc xi0. eexists. split; [apply gathers_analytical|].
    apply affine_well_behaved; cbn [c_ex c_ey c_ez c_bx c_by c_bz ex ey ez bx by_ bz]; unfold no_field.
    + exists (c_SI * foc), 0, 0, 0, 0. intros. ring.
    + exists 0, (c_SI * foc), 0, 0, 0. intros. ring.
    + exists 0, 0, slope, (slope * ((1 - vg n) * c_SI)), (e0 - slope * xi0). intros. ring.
    + exists 0, 0, 0, 0, 0. intros. ring.
    + exists 0, 0, 0, 0, 0. intros. ring.
    + exists 0, 0, 0, 0, 0. intros. ring.
  - intros e m_e n w_p vg l_c off. eexists. split; [apply gathers_analytical|].
    set (g := w_p n ^ 2 / 2 * m_e / (e * c_SI)). set (s := w_p n ^ 2 / 2 * m_e / e). set (lp := 2 * PI * c_SI / w_p n).
    apply affine_well_behaved; cbn [c_ex c_ey c_ez c_bx c_by c_bz ex ey ez bx by_ bz]; unfold no_field; fold g s lp.
    + exists (c_SI * g), 0, 0, 0, 0. intros. ring.
    + exists 0, (c_SI * g), 0, 0, 0. intros. ring.
    + exists 0, 0, s, (s * ((1 - vg n) * c_SI)), (s * (lp / 2 - l_c - off)). intros. ring.
    + exists 0, 0, 0, 0, 0. intros. ring.
    + exists 0, 0, 0, 0, 0. intros. ring.
    + exists 0, 0, 0, 0, 0. intros. ring.
Qed.

(** ** Non-vacuity *)
(** A particle at rest in a constant accelerating field: its motion, and runs to which the theorem
    applies with steps as short as one likes. *)
Definition pull : field := fun _ _ b => map (fun v => mke (ex v) (ey v) (ez v + 1) (bx v) (by_ v) (bz v)) b.
Definition pulled (t : R) : part := mkp 0 0 (c_SI * (sqrt (1 + t * t) - 1) - c_SI * t) 0 0 t.
Example ex_pull_gathers : gathers [pull] (fun _ _ => mke 0 0 1 0 0 0).
Proof.
  intros ps t b Hl. unfold gather_fields. cbn [fold_left]. unfold pull, reset_particle_fields. rewrite map_map.
  revert b Hl. induction ps as [|p ps IH]; intros [|v b] Hl; try discriminate; cbn [map]; [reflexivity|].
  f_equal; [unfold em0; cbn; f_equal; ring|]. apply IH. cbn in Hl. congruence.
Qed.
Example ex_pull_regular w T : regular w T (fun _ _ => mke 0 0 1 0 0 0).
Proof.
  apply affine_regular; cbn [ex ey ez bx by_ bz]; [exists 0, 0, 0, 0, 0|exists 0, 0, 0, 0, 0|exists 0, 0, 0, 0, 1
    |exists 0, 0, 0, 0, 0|exists 0, 0, 0, 0, 0|exists 0, 0, 0, 0, 0]; intros; ring.
Qed.
Example ex_pull_smooth w T : smooth w T (fun _ _ => mke 0 0 1 0 0 0).
Proof.
  apply affine_smooth; cbn [ex ey ez bx by_ bz]; [exists 0, 0, 0, 0, 0|exists 0, 0, 0, 0, 0|exists 0, 0, 0, 0, 1
    |exists 0, 0, 0, 0, 0|exists 0, 0, 0, 0, 0|exists 0, 0, 0, 0, 0]; intros; ring.
Qed.
Example ex_pull_well_behaved : well_behaved (fun _ _ => mke 0 0 1 0 0 0).
Proof.
  apply affine_well_behaved; cbn [ex ey ez bx by_ bz]; [exists 0, 0, 0, 0, 0|exists 0, 0, 0, 0, 0|exists 0, 0, 0, 0, 1
    |exists 0, 0, 0, 0, 0|exists 0, 0, 0, 0, 0|exists 0, 0, 0, 0, 0]; intros; ring.
Qed.
Example ex_pull_motion T : motion c_SI 1 (fun _ _ => mke 0 0 1 0 0 0) T pulled.
Proof.
  intros t _. assert (c0 : c_SI <> 0) by (unfold c_SI; lra).
  assert (Sp : 0 < 1 + t * t) by nra.
  unfold lorentz, velocity, gamma, momentum, pulled, e_field, b_field, cross, scal, vadd3, pos_of. cbn [x y xi px py pz ex ey ez bx by_ bz].
  assert (Q : sqrt (1 + (0 * 0 + 0 * 0 + t * t)) = sqrt (1 + t * t)) by (f_equal; ring).
  rewrite !Q.
  assert (S0 : 0 < sqrt (1 + t * t)) by (apply sqrt_lt_R0; exact Sp).
  split; [|split; [|split; [|split; [|split]]]].
  - auto_derive; [exact I|]. ring.
  - auto_derive; [exact I|]. ring.
  - auto_derive; [exact Sp|]. field. lra.
  - auto_derive; [exact I|]. ring.
  - auto_derive; [exact I|]. ring.
  - auto_derive; [exact I|]. field. split; [lra|exact c0].
Qed.
Example ex_pull_within t : 0 <= t <= 1 -> within (2 * c_SI) (pos_of (pulled t)).
Proof.
  intros Ht. assert (c0 : 0 < c_SI) by (unfold c_SI; lra). unfold within, pos_of, pulled. cbn [x y xi fst snd]. rewrite Rabs_R0.
  split; [lra|]. split; [lra|].
  assert (S1 : 1 <= sqrt (1 + t * t)) by (rewrite <- sqrt_1 at 1; apply sqrt_le_1; nra).
  assert (S2 : sqrt (1 + t * t) <= 2).
  { replace 2 with (sqrt (2 * 2)) by (apply sqrt_square; lra). apply sqrt_le_1; nra. }
  apply Rabs_le. split; nra.
Qed.
Definition in_steps (n : positive) : config :=
  {| c_tfinal := 1; c_dtb := [Some (1 # n)]; c_fields := []; c_ndiags := 3; c_push_before := true |}.
Example ex_converges : forall eps, 0 < eps -> exists n fuel s r p,
  track "rk4" (fun _ => 1%Q) exact [pull] fuel (in_steps n) [Properties_Split.one_at_rest] = Model_Tracker.Done s /\
  nth_error (bs s) 0 = Some r /\ nth_error (particles (fst r) (snd r)) 0 = Some p /\
  pdist p (mkp 0 0 (c_SI * (sqrt 2 - 2)) 0 0 1) <= eps.
Proof.
  intros eps He.
  assert (Q1 : Q2R 1 = 1) by (unfold Q2R; cbn; lra).
  destruct (C116_tracking_converges "rk4" [pull] _ (3 * c_SI) (2 * c_SI) 1 c_SI 1 pulled (or_introl eq_refl) ex_pull_gathers)
    as (K & h0 & K0 & H0 & Hc).
  - unfold c_SI. lra.
  - apply ex_pull_regular.
  - apply ex_pull_motion.
  - rewrite Q1. apply ex_pull_within.
  - destruct (above_any (1 / h0 + K / eps)) as [k Hk].
    assert (F1 : 0 < 1 / h0) by (apply Rdiv_lt_0_compat; lra).
    assert (F2 : 0 <= K / eps) by (apply Rmult_le_pos; [exact K0|left; apply Rinv_0_lt_compat, He]).
    assert (Kp : 0 < INR k) by lra.
    set (n := Pos.of_nat k).
    assert (En : Q2R (1 # n) = / INR k).
    { unfold Q2R. cbn [Qnum Qden]. rewrite Rmult_1_l. f_equal. unfold n.
      assert (k <> 0)%nat by (intros ->; cbn in Kp; lra).
      rewrite <- (Nat2Pos.id k) at 2 by assumption. rewrite INR_IZR_INZ. f_equal. rewrite positive_nat_Z. reflexivity. }
    assert (Gd : good_config (B := tracked) (in_steps n) [Properties_Split.one_at_rest]).
    { split; [reflexivity|]. split; [reflexivity|]. split; [intros d [E|[]]; injection E as <-; reflexivity|intros d b []]. }
    destruct (C01_tracking_terminates tracked (list field) (evolve_tracked "rk4") no_update (fun _ => 1%Q) copy_tracked
      (in_steps n) [Properties_Split.one_at_rest] [pull] 1 Gd Properties_Split.some_auto) as (fuel & s & H); [cbn; lia|].
    specialize (H fuel (Nat.le_refl _)).
    destruct (Hc (fun _ => 1%Q) 1%Q fuel (in_steps n) [Properties_Split.one_at_rest] s 0%nat Properties_Split.one_at_rest 0%nat (1 # n)%Q)
      as ((r & p & Er & Ep & Dp) & _); try reflexivity; try assumption.
    + apply Properties_Split.some_auto.
    + cbn. apply Qle_refl.
    + rewrite En. apply Rmult_le_reg_r with (INR k); [exact Kp|]. rewrite Rinv_l by lra.
      assert (1 / h0 <= INR k) as L by lra. apply Rmult_le_compat_l with (r := h0) in L; [|lra].
      replace (h0 * (1 / h0)) with 1 in L by (field; lra). exact L.
    + apply Properties_Split.rest_ready.
    + cbn. f_equal. unfold pulled. rewrite Rmult_0_l, Rplus_0_r, sqrt_1. f_equal. ring.
    + exists n, fuel, s, r, p. split; [exact H|]. split; [exact Er|]. split; [exact Ep|].
      rewrite Q1 in Dp. unfold pulled in Dp. replace (c_SI * (sqrt (1 + 1 * 1) - 1) - c_SI * 1) with (c_SI * (sqrt 2 - 2)) in Dp.
      2:{ replace (1 + 1 * 1) with 2 by ring. ring. }
      eapply Rle_trans; [exact Dp|]. rewrite En. apply Rmult_le_reg_r with (INR k); [exact Kp|].
      rewrite Rmult_assoc, Rinv_l by lra. assert (K / eps <= INR k) as L by lra.
      apply Rmult_le_compat_l with (r := eps) in L; [|lra]. replace (eps * (K / eps)) with K in L by (field; lra). lra.
Qed.

Example ex_second_order : forall pusher, known pusher -> exists K n0, 0 <= K /\ forall n, (n0 <= n)%positive ->
  exists fuel s r p,
  track pusher (fun _ => 1%Q) exact [pull] fuel (in_steps n) [Properties_Split.one_at_rest] = Model_Tracker.Done s /\
  nth_error (bs s) 0 = Some r /\ nth_error (particles (fst r) (snd r)) 0 = Some p /\
  pdist p (mkp 0 0 (c_SI * (sqrt 2 - 2)) 0 0 1) <= K * (Q2R (1 # n) * Q2R (1 # n)).
Proof.
  intros pusher Hk.
  assert (Q1 : Q2R 1 = 1) by (unfold Q2R; cbn; lra).
  destruct (C116_second_order pusher [pull] _ (3 * c_SI) (2 * c_SI) 1 c_SI 1 pulled Hk ex_pull_gathers)
    as (K & h0 & K0 & H0 & Hc).
  - unfold c_SI. lra.
  - apply ex_pull_regular.
  - apply ex_pull_smooth.
  - apply ex_pull_motion.
  - rewrite Q1. apply ex_pull_within.
  - destruct (above_any (1 / h0)) as [k Hkk]. assert (F1 : 0 < 1 / h0) by (apply Rdiv_lt_0_compat; lra).
    exists K, (Pos.of_nat k). split; [exact K0|]. intros n Hn.
    assert (En : Q2R (1 # n) = / INR (Pos.to_nat n)).
    { unfold Q2R. cbn [Qnum Qden]. rewrite Rmult_1_l. f_equal. rewrite INR_IZR_INZ, positive_nat_Z. reflexivity. }
    assert (Kn : INR k <= INR (Pos.to_nat n)).
    { apply le_INR. destruct k as [|k]; [lia|]. apply Pos2Nat.inj_le in Hn. rewrite Nat2Pos.id in Hn by lia. exact Hn. }
    assert (Np : 0 < INR (Pos.to_nat n)) by lra.
    assert (Gd : good_config (B := tracked) (in_steps n) [Properties_Split.one_at_rest]).
    { split; [reflexivity|]. split; [reflexivity|]. split; [intros d [E|[]]; injection E as <-; reflexivity|intros d b []]. }
    destruct (C01_tracking_terminates tracked (list field) (evolve_tracked pusher) no_update (fun _ => 1%Q) copy_tracked
      (in_steps n) [Properties_Split.one_at_rest] [pull] 1 Gd Properties_Split.some_auto) as (fuel & s & H); [cbn; lia|].
    specialize (H fuel (Nat.le_refl _)).
    destruct (Hc (fun _ => 1%Q) 1%Q fuel (in_steps n) [Properties_Split.one_at_rest] s 0%nat Properties_Split.one_at_rest 0%nat (1 # n)%Q)
      as ((r & p & Er & Ep & Dp) & _); try reflexivity; try assumption.
    + apply Properties_Split.some_auto.
    + cbn. apply Qle_refl.
    + rewrite En. apply Rmult_le_reg_r with (INR (Pos.to_nat n)); [exact Np|]. rewrite Rinv_l by lra.
      assert (1 / h0 <= INR (Pos.to_nat n)) as L by lra. apply Rmult_le_compat_l with (r := h0) in L; [|lra].
      replace (h0 * (1 / h0)) with 1 in L by (field; lra). exact L.
    + apply Properties_Split.rest_ready.
    + cbn. f_equal. unfold pulled. rewrite Rmult_0_l, Rplus_0_r, sqrt_1. f_equal. ring.
    + exists fuel, s, r, p. split; [exact H|]. split; [exact Er|]. split; [exact Ep|].
      rewrite Q1 in Dp. unfold pulled in Dp. replace (c_SI * (sqrt (1 + 1 * 1) - 1) - c_SI * 1) with (c_SI * (sqrt 2 - 2)) in Dp.
      2:{ replace (1 + 1 * 1) with 2 by ring. ring. }
      exact Dp.
Qed.

Example ex_fourth_order : exists K n0, 0 <= K /\ forall n, (n0 <= n)%positive ->
  exists fuel s r p,
  track "rk4" (fun _ => 1%Q) exact [pull] fuel (in_steps n) [Properties_Split.one_at_rest] = Model_Tracker.Done s /\
  nth_error (bs s) 0 = Some r /\ nth_error (particles (fst r) (snd r)) 0 = Some p /\
  pdist p (mkp 0 0 (c_SI * (sqrt 2 - 2)) 0 0 1) <= K * Q2R (1 # n) ^ 4.
Proof.
    assert (Q1 : Q2R 1 = 1) by (unfold Q2R; cbn; lra).
  destruct (C116_rk4_fourth_order [pull] _ (3 * c_SI) (2 * c_SI) 1 c_SI 1 pulled ex_pull_gathers)
    as (K & h0 & K0 & H0 & Hc).
  - unfold c_SI. lra.
  - apply ex_pull_regular.
  - apply ex_pull_well_behaved.
  - apply ex_pull_motion.
  - rewrite Q1. apply ex_pull_within.
  - apply (ex_pull_well_behaved (2 * c_SI) (Q2R 1)) with (q := c_SI) (m := 1); [apply ex_pull_motion|]. rewrite Q1. apply ex_pull_within.
  - destruct (above_any (1 / h0)) as [k Hkk]. assert (F1 : 0 < 1 / h0) by (apply Rdiv_lt_0_compat; lra).
    exists K, (Pos.of_nat k). split; [exact K0|]. intros n Hn.
    assert (En : Q2R (1 # n) = / INR (Pos.to_nat n)).
    { unfold Q2R. cbn [Qnum Qden]. rewrite Rmult_1_l. f_equal. rewrite INR_IZR_INZ, positive_nat_Z. reflexivity. }
    assert (Kn : INR k <= INR (Pos.to_nat n)).
    { apply le_INR. destruct k as [|k]; [lia|]. apply Pos2Nat.inj_le in Hn. rewrite Nat2Pos.id in Hn by lia. exact Hn. }
    assert (Np : 0 < INR (Pos.to_nat n)) by lra.
    assert (Gd : good_config (B := tracked) (in_steps n) [Properties_Split.one_at_rest]).
    { split; [reflexivity|]. split; [reflexivity|]. split; [intros d [E|[]]; injection E as <-; reflexivity|intros d b []]. }
    destruct (C01_tracking_terminates tracked (list field) (evolve_tracked "rk4") no_update (fun _ => 1%Q) copy_tracked
      (in_steps n) [Properties_Split.one_at_rest] [pull] 1 Gd Properties_Split.some_auto) as (fuel & s & H); [cbn; lia|].
    specialize (H fuel (Nat.le_refl _)).
    destruct (Hc (fun _ => 1%Q) 1%Q fuel (in_steps n) [Properties_Split.one_at_rest] s 0%nat Properties_Split.one_at_rest 0%nat (1 # n)%Q)
      as ((r & p & Er & Ep & Dp) & _); try reflexivity; try assumption.
    + apply Properties_Split.some_auto.
    + cbn. apply Qle_refl.
    + rewrite En. apply Rmult_le_reg_r with (INR (Pos.to_nat n)); [exact Np|]. rewrite Rinv_l by lra.
      assert (1 / h0 <= INR (Pos.to_nat n)) as L by lra. apply Rmult_le_compat_l with (r := h0) in L; [|lra].
      replace (h0 * (1 / h0)) with 1 in L by (field; lra). exact L.
    + apply Properties_Split.rest_ready.
    + cbn. f_equal. unfold pulled. rewrite Rmult_0_l, Rplus_0_r, sqrt_1. f_equal. ring.
    + exists fuel, s, r, p. split; [exact H|]. split; [exact Er|]. split; [exact Ep|].
      rewrite Q1 in Dp. unfold pulled in Dp. replace (c_SI * (sqrt (1 + 1 * 1) - 1) - c_SI * 1) with (c_SI * (sqrt 2 - 2)) in Dp.
      2:{ replace (1 + 1 * 1) with 2 by ring. ring. }
      exact Dp.
Qed.

Print Assumptions C116_tracking_converges.
Print Assumptions C116_second_order.
Print Assumptions C116_rk4_fourth_order.
Print Assumptions C116_motion_is_unique.
Print Assumptions C116_element_fields_are_regular.
