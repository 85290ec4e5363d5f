(** Property C119: uniform fields.  Vocabulary: Spec_Circle, Spec_Push, Spec_Run. *)
From Coq Require Import Reals QArith Qreals String List Bool Arith ZArith Lia Lqa Lra.
From Verif Require Proofs_Run.
From Verif Require Import Model_Push Spec_Push Proofs_Push Model_Bunch Spec_Bunch
  Model_Tracker Spec_Tracker Properties_Tracker Model_Run Spec_Run Proofs_Run
  Model_Own Spec_Own Properties_Own Spec_Conv Spec_Circle Proofs_Circle Proofs_Circle2 Proofs_Circle3.
From Verif Require Proofs_Conv6.
From Verif Require Properties_Split Properties_Conv.
Import ListNotations.
Open Scope R_scope.

Lemma runs_on_way : forall pusher auto_dt m fields G E B fuel c bunches s i hb,
  known pusher -> pusher = "rk4"%string \/ E = (0, 0, 0) -> gathers fields G -> uniform G E B ->
  good_config c bunches -> bounded_below auto_dt m -> c_push_before c = true ->
  track pusher auto_dt exact fields fuel c bunches = Model_Tracker.Done s ->
  nth_error bunches i = Some hb -> ready hb -> z_injection (snd hb) = None ->
  let k := q_species (snd hb) / (m_species (snd hb) * c_SI) in
  let good t r := prop_distance (snd r) = prop_distance (snd hb) + c_SI * Q2R t /\
    Forall2 (fun p p' => inv k B p' = vadd3 (inv k B p) (scal (Q2R t) (rate k E B)) /\ (pusher = "boris"%string -> pmod p' = pmod p))
      (particles (fst hb) (snd hb)) (particles (fst r) (snd r)) in
  (exists r, nth_error (bs s) i = Some r /\ good (c_tfinal c) r) /\
  (exists o, nth_error (out s) i = Some o /\ List.length o = S (c_ndiags c) /\
     forall j, (j <= c_ndiags c)%nat -> exists r, nth_error o j = Some r /\
       good (inject_Z (Z.of_nat j) * (c_tfinal c / inject_Z (Z.of_nat (c_ndiags c))))%Q r).
Proof.
  intros pusher auto_dt m fields G E B fuel c bunches s i hb K D HG HU Hg Ha Hpb H Hi Hr Hz k good.
  destruct (Proofs_Run.along tracked (list field) (evolve_tracked pusher) no_update auto_dt copy_tracked
              (fun _ _ _ => eq_refl) fields (on_way pusher k E B hb) (on_way_ext pusher k E B hb)
              (fun t t' d b => on_way_step pusher fields G k E B hb t t' d b K HG D HU)
              c bunches Hg m Ha Hpb fuel s i hb H Hi (on_way_start pusher E B hb Hr Hz))
    as ((r & Er & Kr) & (o & Eo & Lo & Ho)).
  split.
  - exists r. split; [exact Er|]. destruct Kr as (_ & _ & _ & K1 & K2). split; [exact K1|exact K2].
  - exists o. split; [exact Eo|]. split; [exact Lo|]. intros j Hj. destruct (Ho j Hj) as (b & Eb & R1 & _ & _ & K1 & K2).
    exists (copy_tracked b). split; [exact Eb|]. pose proof (copy_seen b R1) as Es. apply triple in Es as (E1 & _ & E3).
    unfold good. rewrite E1, E3. split; [exact K1|exact K2].
Qed.

(** ** C119 *)
(** In uniform fields, with either pusher in a magnetic field and with Runge-Kutta also in an electric field,
    and whatever the time steps: the momentum a particle has gained is exactly q/(mc) (E t + d x B), where
    d is how far it has moved in the laboratory. *)
Theorem C119_momentum_gain : forall pusher auto_dt m fields G E B fuel c bunches s i hb,
  known pusher -> pusher = "rk4"%string \/ E = (0, 0, 0) -> gathers fields G -> uniform G E B ->
  good_config c bunches -> bounded_below auto_dt m -> c_push_before c = true ->
  track pusher auto_dt exact fields fuel c bunches = Model_Tracker.Done s ->
  nth_error bunches i = Some hb -> ready hb -> z_injection (snd hb) = None ->
  let k := q_species (snd hb) / (m_species (snd hb) * c_SI) in
  let gained (t : Q) (r : heap * bunch) := Forall2 (fun p p' =>
      vsub (momentum p') (momentum p) = scal k (vadd3 (scal (Q2R t) E) (cross (vsub (lab r p') (lab hb p)) B)))
      (particles (fst hb) (snd hb)) (particles (fst r) (snd r)) in
  (exists r, nth_error (bs s) i = Some r /\ gained (c_tfinal c) r) /\
  (exists o, nth_error (out s) i = Some o /\ List.length o = S (c_ndiags c) /\
     forall j, (j <= c_ndiags c)%nat -> exists r, nth_error o j = Some r /\
       gained (inject_Z (Z.of_nat j) * (c_tfinal c / inject_Z (Z.of_nat (c_ndiags c))))%Q r).
Proof.
  intros pusher auto_dt m fields G E B fuel c bunches s i hb K D HG HU Hg Ha Hpb H Hi Hr Hz k gained.
  assert (X : forall t r, prop_distance (snd r) = prop_distance (snd hb) + c_SI * Q2R t ->
    Forall2 (fun p p' => inv k B p' = vadd3 (inv k B p) (scal (Q2R t) (rate k E B)) /\ (pusher = "boris"%string -> pmod p' = pmod p))
      (particles (fst hb) (snd hb)) (particles (fst r) (snd r)) -> gained t r).
  { intros t r Hd. unfold gained. induction 1 as [|p p' l l' [H1 _] HF IH]; constructor; [|exact IH]. apply inv_lab; assumption. }
  destruct (runs_on_way pusher auto_dt m fields G E B fuel c bunches s i hb K D HG HU Hg Ha Hpb H Hi Hr Hz) as ((r & Er & K1 & K2) & (o & Eo & Lo & Ho)).
  split; [exists r; split; [exact Er|apply X; assumption]|]. exists o. split; [exact Eo|]. split; [exact Lo|].
  intros j Hj. destruct (Ho j Hj) as (r' & Er' & K1' & K2'). exists r'. split; [exact Er'|]. apply X; assumption.
Qed.
Print Assumptions C119_momentum_gain.

(** With the Boris pusher in a uniform magnetic field every particle moves on a fixed cylinder (a circle, if it
    does not move along the field) of the radius p/(q/(mc) B) of the exact motion, p being its momentum
    perpendicular to the field: the cylinder is the same whatever the time steps, for all other bunches and
    elements of any length. Its momenta along the field and perpendicular to it stay what they were. *)
Theorem C119_circle : forall fields G B hb,
  gathers fields G -> uniform G (0, 0, 0) B -> B <> (0, 0, 0) ->
  ready hb -> z_injection (snd hb) = None ->
  let k := q_species (snd hb) / (m_species (snd hb) * c_SI) in k <> 0 ->
  exists centre : part -> vec,
  let circles (r : heap * bunch) := Forall2 (fun p p' =>
      perpendicular (vsub (lab r p') (centre p)) B = perpendicular (momentum p) B / (Rabs k * norm B) /\
      perpendicular (momentum p') B = perpendicular (momentum p) B /\ along (momentum p') B = along (momentum p) B)
      (particles (fst hb) (snd hb)) (particles (fst r) (snd r)) in
  forall auto_dt m fuel c bunches s i,
  good_config c bunches -> bounded_below auto_dt m -> c_push_before c = true ->
  track "boris" auto_dt exact fields fuel c bunches = Model_Tracker.Done s ->
  nth_error bunches i = Some hb ->
  (exists r, nth_error (bs s) i = Some r /\ circles r) /\
  (exists o, nth_error (out s) i = Some o /\ List.length o = S (c_ndiags c) /\
     forall j, (j <= c_ndiags c)%nat -> exists r, nth_error o j = Some r /\ circles r).
Proof.
  intros fields G B hb HG HU HB Hr Hz k Hk. exists (fun p => middle k B (lab hb p) (momentum p)). intros circles auto_dt m fuel c bunches s i Hg Ha Hpb H Hi.
  assert (X : forall t r, prop_distance (snd r) = prop_distance (snd hb) + c_SI * Q2R t ->
    Forall2 (fun p p' => inv k B p' = vadd3 (inv k B p) (scal (Q2R t) (rate k (0, 0, 0) B)) /\ ("boris"%string = "boris"%string -> pmod p' = pmod p))
      (particles (fst hb) (snd hb)) (particles (fst r) (snd r)) -> circles r).
  { intros t r Hd. unfold circles. induction 1 as [|p p' l l' [H1 H2] HF IH]; constructor; [|exact IH].
    pose proof (inv_lab k (0, 0, 0) B hb r (Q2R t) p p' Hd H1) as V.
    assert (V' : vsub (momentum p') (momentum p) = scal k (cross (vsub (lab r p') (lab hb p)) B)).
    { rewrite V. f_equal. destruct (cross _ B) as [[u1 u2] u3]. apply vec_ext; cbn; ring. }
    pose proof (along_same _ _ _ _ _ _ V') as A.
    assert (P : perpendicular (momentum p') B = perpendicular (momentum p) B).
    { unfold perpendicular, norm. rewrite (sq_cross_same (momentum p) (momentum p') B (pmod_sq _ _ (H2 eq_refl)) A). reflexivity. }
    split; [|split; [exact P|exact A]]. rewrite <- P. apply circle; assumption. }
  destruct (runs_on_way "boris" auto_dt m fields G (0, 0, 0) B fuel c bunches s i hb (or_intror eq_refl) (or_intror eq_refl) HG HU Hg Ha Hpb H Hi Hr Hz)
    as ((r & Er & K1 & K2) & (o & Eo & Lo & Ho)).
  split; [exists r; split; [exact Er|eapply X; eassumption]|]. exists o. split; [exact Eo|]. split; [exact Lo|].
  intros j Hj. destruct (Ho j Hj) as (r' & Er' & K1' & K2'). exists r'. split; [exact Er'|]. eapply X; eassumption.
Qed.
Print Assumptions C119_circle.

(** The exact motion in the same field turns the momentum at the cyclotron frequency. *)
Theorem C119_exact_motion : forall q m G B T Y, m <> 0 -> B <> (0, 0, 0) -> uniform G (0, 0, 0) B -> motion q m G T Y ->
  forall t, 0 <= t <= T -> momentum (Y t) = turned (frequency q m B (Y 0) * t) B (momentum (Y 0)).
Proof. intros q m G [[b1 b2] b3] T Y Hm HB HU HY t Ht. exact (exact_motion q m T G b1 b2 b3 Hm HB HU Y HY t Ht). Qed.
Print Assumptions C119_exact_motion.

(** Where on its circle the particle is: with steps of at most [d], its momentum has turned about the field
    as much as that of the exact motion does in a time that lags behind by at most the fraction (w d)^2/12, w
    being the cyclotron frequency. *)
Theorem C119_phase : forall auto_dt m fields G B fuel c bunches s i hb d,
  gathers fields G -> uniform G (0, 0, 0) B -> B <> (0, 0, 0) ->
  good_config c bunches -> bounded_below auto_dt m -> c_push_before c = true ->
  steps_at_most auto_dt c i d ->
  track "boris" auto_dt exact fields fuel c bunches = Model_Tracker.Done s ->
  nth_error bunches i = Some hb -> ready hb -> z_injection (snd hb) = None -> m_species (snd hb) <> 0 ->
  let turns (t : Q) (r : heap * bunch) := Forall2 (fun p p' =>
      let w := frequency (q_species (snd hb)) (m_species (snd hb)) B p in
      exists a, Q2R t * (1 - (w * Q2R d) ^ 2 / 12) <= a <= Q2R t /\ momentum p' = turned (w * a) B (momentum p))
      (particles (fst hb) (snd hb)) (particles (fst r) (snd r)) in
  (exists r, nth_error (bs s) i = Some r /\ turns (c_tfinal c) r) /\
  (exists o, nth_error (out s) i = Some o /\ List.length o = S (c_ndiags c) /\
     forall j, (j <= c_ndiags c)%nat -> exists r, nth_error o j = Some r /\
       turns (inject_Z (Z.of_nat j) * (c_tfinal c / inject_Z (Z.of_nat (c_ndiags c))))%Q r).
Proof.
  intros auto_dt m fields G B fuel c bunches s i hb d HG HU HB Hg Ha Hpb Hd H Hi Hr Hz Hm turns.
  assert (X : forall t r, gyrates (q_species (snd hb)) (m_species (snd hb)) (Q2R d) B hb t r -> turns t r).
  { intros t r (_ & _ & _ & _ & HF). unfold turns. induction HF as [|p p' l l' [_ H2] HF IH]; constructor; [exact H2|exact IH]. }
  destruct (Proofs_Conv6.along_short tracked (list field) (evolve_tracked "boris") no_update auto_dt copy_tracked fields
              (fun _ _ _ => eq_refl) (c_tfinal c) d (gyrates (q_species (snd hb)) (m_species (snd hb)) (Q2R d) B hb) (gyrates_ext _ _ _ B hb)
              (fun t t' h b _ _ H0 H1 _ => gyrates_step fields G _ _ d B hb t t' h b Hm HB HG HU H0 H1)
              c bunches Hg m Ha Hpb (Qeq_refl _) fuel s i hb Hd H Hi (gyrates_start (Q2R d) B hb Hr Hz))
    as ((r & Er & Kr) & (o & Eo & Lo & Ho)).
  split; [exists r; split; [exact Er|apply X, Kr]|]. exists o. split; [exact Eo|]. split; [exact Lo|].
  intros j Hj. destruct (Ho j Hj) as (b & Eb & Kb). exists (copy_tracked b). split; [exact Eb|].
  pose proof (copy_seen b (proj1 Kb)) as Es. apply triple in Es as (E1 & _). unfold turns. rewrite E1. apply X, Kb.
Qed.
Print Assumptions C119_phase.

(** ** Non-vacuity *)
(** A particle with momentum 1 along z in a vertical field of strength 3 given by a user: it moves on a circle of
    radius 1/3 around a point that does not depend on the number of steps. *)
Definition constant_by : own := mkown (fun c => match c with By => Assigns (fun _ _ k => nth 0 k 0) | _ => Absent end) (Some [3]).
Definition one_moving : heap * bunch :=
  ([[0];[0];[0];[0];[0];[1];[1]]%R,
   mkb 0%nat 1%nat 2%nat 3%nat 4%nat 5%nat 6%nat None 0%R 0%R None 0%R 0%R "b" c_SI 1%R None None).
Lemma moving_ready : ready one_moving.
Proof.
  split; [split; [|split]|split; [|left; reflexivity]].
  - unfold footprint. cbn. repeat constructor; cbn; intuition discriminate.
  - unfold footprint. cbn. intros a Ha. intuition lia.
  - unfold footprint, rd. cbn. intros a Ha.
    destruct Ha as [<-|[<-|[<-|[<-|[<-|[<-|[<-|[]]]]]]]]; reflexivity.
  - split; intros; discriminate.
Qed.
Example ex_circle : exists C, forall n, exists fuel s r p,
  track "boris" (fun _ => 1%Q) exact [field_of constant_by] fuel (Properties_Conv.in_steps n) [one_moving] = Model_Tracker.Done s /\
  nth_error (bs s) 0 = Some r /\ particles (fst r) (snd r) = [p] /\
  perpendicular (vsub (lab r p) C) (0, 3, 0) = 1 / 3.
Proof.
  assert (E1 : c_SI / (1 * c_SI) = 1) by (unfold c_SI; field).
  destruct (C118_alone constant_by) as (G & HG & EG).
  assert (HU : uniform G (0, 0, 0) (0, 3, 0)).
  { intros r t. split; unfold e_field, b_field; apply vec_eq.
    - exact (EG Ex r t). - exact (EG Ey r t). - exact (EG Ez r t). - exact (EG Bx r t). - exact (EG By r t). - exact (EG Bz r t). }
  assert (HB : (0, 3, 0) <> (0, 0, 0)) by (intros E; injection E; lra).
  destruct (C119_circle [field_of constant_by] G (0, 3, 0) one_moving HG HU HB moving_ready eq_refl) as (centre & H).
  { cbn [one_moving snd q_species m_species]. rewrite E1. lra. }
  exists (centre (mkp 0 0 0 0 0 1)). intros n.
  assert (Gd : good_config (B := tracked) (Properties_Conv.in_steps n) [one_moving]).
  { split; [reflexivity|]. split; [reflexivity|]. split; [intros d [E|[]]; injection E as <-; reflexivity|intros d b []]. }
  destruct (C01_tracking_terminates tracked (list field) (evolve_tracked "boris") no_update (fun _ => 1%Q) copy_tracked
    (Properties_Conv.in_steps n) [one_moving] [field_of constant_by] 1 Gd Properties_Split.some_auto) as (fuel & s & R0); [cbn; lia|].
  specialize (R0 fuel (Nat.le_refl _)).
  destruct (H (fun _ => 1%Q) 1%Q fuel (Properties_Conv.in_steps n) [one_moving] s 0%nat Gd Properties_Split.some_auto eq_refl R0 eq_refl) as ((r & Er & Cr) & _).
  change (particles (fst one_moving) (snd one_moving)) with [mkp 0 0 0 0 0 1] in Cr.
  inversion Cr as [|p p' l l' [Hp _] Hn E2 E3]; subst. inversion Hn; subst.
  exists fuel, s, r, p'. split; [exact R0|]. split; [exact Er|]. split; [symmetry; exact E3|]. rewrite Hp.
  cbn [one_moving snd q_species m_species]. rewrite E1, Rabs_R1. unfold perpendicular, norm, sq, cross, momentum. cbn [px py pz].
  replace ((0 * 0 - 1 * 3) * (0 * 0 - 1 * 3) + (1 * 0 - 0 * 0) * (1 * 0 - 0 * 0) + (0 * 3 - 0 * 0) * (0 * 3 - 0 * 0)) with (3 * 3) by ring.
  replace (0 * 0 + 3 * 3 + 0 * 0) with (3 * 3) by ring. rewrite sqrt_square by lra. field.
Qed.
(** The same particle, in steps of 1/n: its frequency is 3 c / sqrt 2. *)
Example ex_phase : forall n, exists fuel s r p a,
  track "boris" (fun _ => 1%Q) exact [field_of constant_by] fuel (Properties_Conv.in_steps n) [one_moving] = Model_Tracker.Done s /\
  nth_error (bs s) 0 = Some r /\ particles (fst r) (snd r) = [p] /\
  momentum p = turned (frequency c_SI 1 (0, 3, 0) (mkp 0 0 0 0 0 1) * a) (0, 3, 0) (0, 0, 1) /\
  1 - (frequency c_SI 1 (0, 3, 0) (mkp 0 0 0 0 0 1) * Q2R (1 # n)) ^ 2 / 12 <= a <= 1.
Proof.
  intros n. destruct (C118_alone constant_by) as (G & HG & EG).
  assert (HU : uniform G (0, 0, 0) (0, 3, 0)).
  { intros r t. split; unfold e_field, b_field; apply vec_eq.
    - exact (EG Ex r t). - exact (EG Ey r t). - exact (EG Ez r t). - exact (EG Bx r t). - exact (EG By r t). - exact (EG Bz r t). }
  assert (HB : (0, 3, 0) <> (0, 0, 0)) by (intros E; injection E; lra).
  assert (Gd : good_config (B := tracked) (Properties_Conv.in_steps n) [one_moving]).
  { split; [reflexivity|]. split; [reflexivity|]. split; [intros d [E|[]]; injection E as <-; reflexivity|intros d b []]. }
  destruct (C01_tracking_terminates tracked (list field) (evolve_tracked "boris") no_update (fun _ => 1%Q) copy_tracked
    (Properties_Conv.in_steps n) [one_moving] [field_of constant_by] 1 Gd Properties_Split.some_auto) as (fuel & s & R0); [cbn; lia|].
  specialize (R0 fuel (Nat.le_refl _)).
  destruct (C119_phase (fun _ => 1%Q) 1%Q [field_of constant_by] G (0, 3, 0) fuel (Properties_Conv.in_steps n) [one_moving] s 0%nat one_moving (1 # n)%Q
    HG HU HB Gd Properties_Split.some_auto eq_refl (Qle_refl _) R0 eq_refl moving_ready eq_refl) as ((r & Er & Cr) & _).
  { cbn. lra. }
  change (particles (fst one_moving) (snd one_moving)) with [mkp 0 0 0 0 0 1] in Cr.
  inversion Cr as [|p p' l l' (a & Ha & Hp) Hn E2 E3]; subst. inversion Hn; subst.
  exists fuel, s, r, p', a. split; [exact R0|]. split; [exact Er|]. split; [symmetry; exact E3|].
  split; [exact Hp|]. assert (Q1 : Q2R 1 = 1) by (unfold Q2R; cbn; lra).
  change (c_tfinal (Properties_Conv.in_steps n)) with 1%Q in Ha. rewrite Q1, Rmult_1_l in Ha. exact Ha.
Qed.
