(** Properties C97-C101: whole runs of the tracker.  Vocabulary: Spec_Run,
    Spec_Tracker, Spec_Bunch, Spec_Push. *)
From Coq Require Import Reals QArith Qreals String List Bool Arith ZArith Lia Lqa Lra.
From Verif Require Import Model_Push Spec_Push Proofs_Push Model_Bunch Spec_Bunch Proofs_Bunch
  Model_Tracker Spec_Tracker Proofs_Tracker Properties_Tracker Model_Float32
  Model_Run Spec_Run Proofs_Solo Proofs_Run.
Import ListNotations.
Open Scope Q_scope.

(** ** C97 *)
(** A bunch tracked together with others, in fields that do not depend on the
    bunches, ends, and is seen in every output, as if it were alone.  [rnd] is
    arbitrary: exact, float32 or any other comparison of times. *)
Theorem C97_tracked_together_as_alone :
  forall B F evolve update auto_dt copy rnd fuel (c : config) (bs0 : list B) (fs0 : F) s i d b,
  ignores_bunches update c -> length bs0 = length (c_dtb c) ->
  nth_error (c_dtb c) i = Some d -> nth_error bs0 i = Some b ->
  do_tracking B F evolve update auto_dt copy rnd fuel c bs0 fs0 = Done s ->
  exists fuel1 s1,
    do_tracking B F evolve update auto_dt copy rnd fuel1 (with_steps [d] c) [b] fs0 = Done s1 /\
    nth_error (bs s) i = nth_error (bs s1) 0 /\
    nth_error (out s) i = nth_error (out s1) 0 /\
    fs s = fs s1 /\
    Spec_Tracker.pushes i (log s) = Spec_Tracker.pushes 0 (log s1) /\
    diag_times (log s) = diag_times (log s1) /\
    (forall j, field_times j (log s) = field_times j (log s1)).
Proof.
  intros B F evolve update auto_dt copy rnd fuel c bs0 fs0 s i d b Hign Hl Hd Hb H.
  destruct (solo_lemma B F evolve update auto_dt copy rnd c Hign i d Hd fuel bs0 fs0 b s Hl Hb H)
    as (fuel1 & s1 & H1 & R).
  exists fuel1, s1. split; [exact H1|].
  repeat split; apply R.
Qed.

(** Hence other bunches can be added, removed or put in another order. *)
Theorem C97_other_bunches_do_not_matter :
  forall B F evolve update auto_dt copy rnd fuel fuel' (c : config) steps (bs0 bs0' : list B)
    (fs0 : F) s s' i i' d b,
  ignores_bunches update c ->
  length bs0 = length (c_dtb c) -> length bs0' = length steps ->
  nth_error (c_dtb c) i = Some d -> nth_error bs0 i = Some b ->
  nth_error steps i' = Some d -> nth_error bs0' i' = Some b ->
  do_tracking B F evolve update auto_dt copy rnd fuel c bs0 fs0 = Done s ->
  do_tracking B F evolve update auto_dt copy rnd fuel' (with_steps steps c) bs0' fs0 = Done s' ->
  nth_error (bs s) i = nth_error (bs s') i' /\ nth_error (out s) i = nth_error (out s') i' /\
  fs s = fs s' /\ Spec_Tracker.pushes i (log s) = Spec_Tracker.pushes i' (log s').
Proof.
  intros B F evolve update auto_dt copy rnd fuel fuel' c steps bs0 bs0' fs0 s s' i i' d b
    Hign Hl Hl' Hd Hb Hd' Hb' H H'.
  destruct (solo_lemma B F evolve update auto_dt copy rnd c Hign i d Hd fuel bs0 fs0 b s Hl Hb H)
    as (f1 & s1 & H1 & R).
  destruct (solo_lemma B F evolve update auto_dt copy rnd (with_steps steps c) Hign i' d Hd'
              fuel' bs0' fs0 b s' Hl' Hb' H') as (f2 & s2 & H2 & R').
  change (with_steps [d] (with_steps steps c)) with (with_steps [d] c) in H2.
  assert (E : s1 = s2).
  { unfold do_tracking in H1, H2. change (c_ndiags (with_steps [d] c)) with (c_ndiags c) in *.
    destruct (c_ndiags c); [discriminate|].
    eapply loop_det; eassumption. }
  subst s2.
  rewrite (r_b _ _ _ _ _ _ _ R), (r_b _ _ _ _ _ _ _ R'),
    (r_o _ _ _ _ _ _ _ R), (r_o _ _ _ _ _ _ _ R'),
    (r_f _ _ _ _ _ _ _ R), (r_f _ _ _ _ _ _ _ R'),
    (r_p _ _ _ _ _ _ _ R), (r_p _ _ _ _ _ _ _ R').
  auto.
Qed.

(** ** C98 *)
(** When the bunches are not pushed to the time of the outputs, the number of
    outputs has no influence on bunches and fields. *)
Theorem C98_outputs_do_not_perturb :
  forall B F evolve update auto_dt copy rnd fuel fuel' n (c : config) (bs0 : list B) (fs0 : F)
    s s',
  c_push_before c = false -> bs0 <> [] -> length bs0 = length (c_dtb c) ->
  do_tracking B F evolve update auto_dt copy rnd fuel c bs0 fs0 = Done s ->
  do_tracking B F evolve update auto_dt copy rnd fuel' (with_outputs n c) bs0 fs0 = Done s' ->
  bs s = bs s' /\ fs s = fs s' /\
  (forall i, Spec_Tracker.pushes i (log s) = Spec_Tracker.pushes i (log s')) /\
  (forall j, field_times j (log s) = field_times j (log s')).
Proof.
  intros B F evolve update auto_dt copy rnd fuel fuel' n c bs0 fs0 s s' Hpb Hne Hl H H'.
  assert (Hd : forall c fuel s, do_tracking B F evolve update auto_dt copy rnd fuel c bs0 fs0
                          = Done s -> (0 < c_ndiags c)%nat).
  { intros c0 f0 s0 H0. unfold do_tracking in H0. destruct (c_ndiags c0); [|lia].
    destruct bs0; [contradiction|discriminate]. }
  assert (Hnb : (0 < nb c)%nat).
  { unfold nb, n_bunches. rewrite <- Hl. destruct bs0; [contradiction|cbn; lia]. }
  destruct (outputs_silent_lemma B F evolve update auto_dt copy rnd c Hpb (Hd _ _ _ H) Hnb
              fuel bs0 fs0 s Hl H) as (f1 & s1 & H1 & R).
  destruct (outputs_silent_lemma B F evolve update auto_dt copy rnd (with_outputs n c) Hpb
              (Hd _ _ _ H') Hnb fuel' bs0 fs0 s' Hl H') as (f2 & s2 & H2 & R').
  change (with_outputs 0 (with_outputs n c)) with (with_outputs 0 c) in H2.
  assert (s1 = s2) by (eapply loop_det; eassumption). subst s2.
  rewrite (e_b _ _ _ _ _ R), (e_b _ _ _ _ _ R'), (e_f _ _ _ _ _ R), (e_f _ _ _ _ _ R').
  split; [reflexivity|]. split; [reflexivity|]. split; intros k.
  - rewrite (e_p _ _ _ _ _ R), (e_p _ _ _ _ _ R'). reflexivity.
  - rewrite (e_ft _ _ _ _ _ R), (e_ft _ _ _ _ _ R'). reflexivity.
Qed.

(** With synchronised outputs (the default) the number of outputs does change
    the pushes. *)
Theorem C98_synchronised_outputs_refuted :
  exists c s s', good_config c [0] /\ c_push_before c = true /\
    ex_run exact 20 c [0] = Done s /\ ex_run exact 20 (with_outputs 2 c) [0] = Done s' /\
    Spec_Tracker.pushes 0 (log s) <> Spec_Tracker.pushes 0 (log s').
Proof.
  exists {| c_tfinal := 1; c_dtb := [Some 1]; c_fields := []; c_ndiags := 1;
            c_push_before := true |}.
  do 2 eexists. split; [|split; [reflexivity|split; [vm_compute; reflexivity|
    split; [vm_compute; reflexivity|vm_compute; discriminate]]]].
  repeat split; simpl.
  - intros d [E|[]]. injection E as <-. reflexivity.
  - intros d b [].
Qed.

(** ** C99 *)
(** Tracking in any analytical fields: particles, weights and species stay;
    the propagation distance grows by c times the time, also in the outputs. *)
Theorem C99_tracking_keeps_particles_and_weights :
  forall pusher auto_dt m fields G fuel c bunches s i hb,
  known pusher -> gathers fields G ->
  good_config c bunches -> bounded_below auto_dt m -> c_push_before c = true ->
  track pusher auto_dt exact fields fuel c bunches = Model_Tracker.Done s ->
  nth_error bunches i = Some hb -> ready hb ->
  let after (t : Q) (r : heap * bunch) :=
    length (particles (fst r) (snd r)) = length (particles (fst hb) (snd hb)) /\
    rd (fst r) (b_w (snd r)) = rd (fst hb) (b_w (snd hb)) /\
    q_species (snd r) = q_species (snd hb) /\ m_species (snd r) = m_species (snd hb) /\
    prop_distance (snd r) = (prop_distance (snd hb) + c_SI * Q2R t)%R in
  (exists r, nth_error (bs s) i = Some r /\ after (c_tfinal c) r) /\
  (exists o, nth_error (out s) i = Some o /\ length o = S (c_ndiags c) /\
     forall k, (k <= c_ndiags c)%nat -> exists r, nth_error o k = Some r /\
       after (inject_Z (Z.of_nat k) * (c_tfinal c / inject_Z (Z.of_nat (c_ndiags c)))) r).
Proof.
  intros pusher auto_dt m fields G fuel c bunches s i hb K HG Hg Ha Hpb H Hi Hr after.
  destruct (along tracked (list field) (evolve_tracked pusher) no_update auto_dt copy_tracked
              (fun _ _ _ => eq_refl) fields (kept hb) (kept_ext hb)
              (fun t t' d b => kept_step pusher fields G hb t t' d b K HG)
              c bunches Hg m Ha Hpb fuel s i hb H Hi (kept_start hb Hr))
    as ((r & Er & Kr) & (o & Eo & Lo & Ho)).
  split.
  - exists r. split; [exact Er|]. apply Kr.
  - exists o. split; [exact Eo|]. split; [exact Lo|]. intros k Hk.
    destruct (Ho k Hk) as (b & Eb & (K1 & K2 & K3 & K4 & K5 & K6)).
    exists (copy_tracked b). split; [exact Eb|].
    pose proof (copy_seen b K1) as Es. apply triple in Es as (E1 & E2 & E3).
    unfold after. rewrite E1, E2, E3.
    assert (Eq : q_species (snd (copy_tracked b)) = q_species (snd b) /\
                 m_species (snd (copy_tracked b)) = m_species (snd b)).
    { destruct b as [h b]. unfold copy_tracked, Model_Bunch.copy. cbn. auto. }
    destruct Eq as [-> ->]. auto.
Qed.

(** ** C100 *)
(** Tracking through an element without fields is free flight, whatever the
    pusher, the steps of the bunches, the other bunches and the outputs. *)
Theorem C100_empty_element_is_free_flight :
  forall pusher auto_dt m fuel c bunches s i hb,
  known pusher ->
  good_config c bunches -> bounded_below auto_dt m -> c_push_before c = true ->
  track pusher auto_dt exact [] fuel c bunches = Model_Tracker.Done s ->
  nth_error bunches i = Some hb -> ready hb ->
  let after (t : Q) :=
    (map (drift (Q2R t)) (particles (fst hb) (snd hb)), rd (fst hb) (b_w (snd hb)),
     (prop_distance (snd hb) + c_SI * Q2R t)%R) in
  (exists r, nth_error (bs s) i = Some r /\ seen r = after (c_tfinal c)) /\
  (exists o, nth_error (out s) i = Some o /\ length o = S (c_ndiags c) /\
     forall k, (k <= c_ndiags c)%nat -> exists r, nth_error o k = Some r /\
       seen r = after (inject_Z (Z.of_nat k) *
                       (c_tfinal c / inject_Z (Z.of_nat (c_ndiags c))))).
Proof.
  intros pusher auto_dt m fuel c bunches s i hb K Hg Ha Hpb H Hi Hr after.
  destruct (along tracked (list field) (evolve_tracked pusher) no_update auto_dt copy_tracked
              (fun _ _ _ => eq_refl) [] (flown hb) (flown_ext hb)
              (fun t t' d b => flown_step pusher hb t t' d b K)
              c bunches Hg m Ha Hpb fuel s i hb H Hi (flown_start hb Hr))
    as ((r & Er & Kr) & (o & Eo & Lo & Ho)).
  split.
  - exists r. split; [exact Er|]. apply Kr.
  - exists o. split; [exact Eo|]. split; [exact Lo|]. intros k Hk.
    destruct (Ho k Hk) as (b & Eb & [K1 K2]).
    exists (copy_tracked b). split; [exact Eb|]. rewrite copy_seen by exact K1. exact K2.
Qed.

(** ** C101 *)
(** With the Boris pusher, magnetic fields of any shape and time dependence
    leave the energy of every particle unchanged through the whole element and
    in every output. *)
Theorem C101_magnets_keep_the_energy :
  forall auto_dt m fields G fuel c bunches s i hb,
  gathers fields G -> (forall r t, e_field (G r t) = (0, 0, 0)%R) ->
  good_config c bunches -> bounded_below auto_dt m -> c_push_before c = true ->
  track "boris" auto_dt exact fields fuel c bunches = Model_Tracker.Done s ->
  nth_error bunches i = Some hb -> ready hb ->
  let energies (r : heap * bunch) := map gamma (particles (fst r) (snd r)) in
  (exists r, nth_error (bs s) i = Some r /\ energies r = energies hb) /\
  (exists o, nth_error (out s) i = Some o /\ length o = S (c_ndiags c) /\
     forall k, (k <= c_ndiags c)%nat -> exists r, nth_error o k = Some r /\
       energies r = energies hb).
Proof.
  intros auto_dt m fields G fuel c bunches s i hb HG HE Hg Ha Hpb H Hi Hr energies.
  destruct (along tracked (list field) (evolve_tracked "boris") no_update auto_dt copy_tracked
              (fun _ _ _ => eq_refl) fields (same_energy hb) (same_energy_ext hb)
              (fun t t' d b => same_energy_step fields G hb t t' d b HG HE)
              c bunches Hg m Ha Hpb fuel s i hb H Hi (same_energy_start hb Hr))
    as ((r & Er & Kr) & (o & Eo & Lo & Ho)).
  assert (Hgam : forall p, gamma p = sqrt (1 + pmod p * pmod p)).
  { intros p. unfold gamma, pmod. f_equal. rewrite sqrt_sqrt; [ring|].
    pose proof (Rle_0_sqr (px p)). pose proof (Rle_0_sqr (py p)). pose proof (Rle_0_sqr (pz p)).
    unfold Rsqr in *. lra. }
  assert (He : forall l l', map pmod l = map pmod l' -> map gamma l = map gamma l').
  { intros l l' E. rewrite (map_ext _ _ Hgam l), (map_ext _ _ Hgam l').
    rewrite <- (map_map pmod (fun v => sqrt (1 + v * v)) l).
    rewrite <- (map_map pmod (fun v => sqrt (1 + v * v)) l'). rewrite E. reflexivity. }
  split.
  - exists r. split; [exact Er|]. apply He, Kr.
  - exists o. split; [exact Eo|]. split; [exact Lo|]. intros k Hk.
    destruct (Ho k Hk) as (b & Eb & [K1 K2]).
    exists (copy_tracked b). split; [exact Eb|].
    pose proof (copy_seen b K1) as Es. apply triple in Es as (E1 & _ & _).
    unfold energies. rewrite E1. apply He, K2.
Qed.

(** ** Non-vacuity *)
(** Two bunches of which one has an adaptive step, a field that ignores the
    bunches, and the same bunches in the opposite order. *)
Example ex_together : exists s s1 s2,
  ignores_bunches ex_update ex_c /\
  ex_run f32 60 ex_c [0; 0] = Done s /\
  ex_run f32 60 (with_steps [Some (3#10)] ex_c) [0] = Done s1 /\
  ex_run f32 60 (with_steps [None; Some (3#10)] ex_c) [0; 0] = Done s2 /\
  Spec_Tracker.pushes 0 (log s) = Spec_Tracker.pushes 0 (log s1) /\
  Spec_Tracker.pushes 0 (log s) = Spec_Tracker.pushes 1 (log s2) /\
  length (Spec_Tracker.pushes 0 (log s)) = 5%nat.
Proof.
  do 3 eexists. split; [intros j f l l' _; reflexivity|].
  split; [vm_compute; reflexivity|]. split; [vm_compute; reflexivity|].
  split; [vm_compute; reflexivity|]. vm_compute. auto.
Qed.
Example ex_silent_outputs : exists s s',
  ex_run exact 60 {| c_tfinal := 1; c_dtb := [Some (3#10); None];
    c_fields := [((2#5), false)]; c_ndiags := 7; c_push_before := false |} [0; 0] = Done s /\
  ex_run exact 60 {| c_tfinal := 1; c_dtb := [Some (3#10); None];
    c_fields := [((2#5), false)]; c_ndiags := 1; c_push_before := false |} [0; 0] = Done s' /\
  length (out s) = length (out s') /\ bs s = [1; 1] /\ bs s' = [1; 1] /\
  length (diag_times (log s)) = 8%nat /\ length (diag_times (log s')) = 2%nat.
Proof.
  do 2 eexists. split; [vm_compute; reflexivity|]. split; [vm_compute; reflexivity|].
  vm_compute. auto 10.
Qed.

(** A bunch of two particles in a quadrupole, adaptive step, three outputs. *)
Definition ex_bunch : heap * bunch :=
  ([[1;2];[0;0];[0;0];[0;0];[1;0];[3;4];[1;1]]%R,
   mkb 0%nat 1%nat 2%nat 3%nat 4%nat 5%nat 6%nat None 0%R 0%R None 0%R 0%R "b" (-1)%R 1%R
     None None).
Definition ex_cfg : config :=
  {| c_tfinal := 1; c_dtb := [None]; c_fields := []; c_ndiags := 3; c_push_before := true |}.
Example ex_ready : ready ex_bunch.
Proof.
  split; [split; [|split]|split; [|left; reflexivity]].
  - unfold footprint. cbn. repeat constructor; cbn; intuition discriminate.
  - unfold footprint. cbn. intros a Ha. intuition lia.
  - unfold footprint, rd. cbn. intros a Ha.
    destruct Ha as [<-|[<-|[<-|[<-|[<-|[<-|[<-|[]]]]]]]]; reflexivity.
  - split; intros; discriminate.
Qed.
Example ex_cfg_good : good_config ex_cfg [ex_bunch].
Proof.
  repeat split; simpl.
  - intros d [E|[]]. discriminate.
  - intros d b [].
Qed.
Example ex_magnet_runs : exists fuel s,
  track "boris" (fun _ => 2 # 5) exact [quadrupole_field 100] fuel ex_cfg [ex_bunch]
    = Model_Tracker.Done s.
Proof.
  destruct (C01_tracking_terminates tracked (list field) (evolve_tracked "boris") no_update
    (fun _ => 2 # 5) copy_tracked ex_cfg [ex_bunch] [quadrupole_field 100] (2 # 5) ex_cfg_good)
    as (n & s & H).
  - split; [reflexivity|]. intros b. apply Qle_refl.
  - cbn. lia.
  - exists n, s. apply H. lia.
Qed.
Example ex_magnet : exists G, gathers [quadrupole_field 100] G /\
  (forall r t, e_field (G r t) = (0, 0, 0)%R) /\ exists r t, b_field (G r t) <> (0, 0, 0)%R.
Proof.
  exists (fun p _ => mke 0 0 0 (- 100 * snd (fst p)) (- 100 * fst (fst p)) 0)%R.
  split; [|split].
  - intros ps t b Hl.
    rewrite (superposition_lemma [quadrupole_field 100]
      [fun p _ => mke 0 0 0 (- 100 * snd (fst p)) (- 100 * fst (fst p)) 0]%R
      (Forall2_cons _ _ (quadrupole_adds 100) (Forall2_nil _)) ps t b Hl).
    apply map_ext. intros p. unfold em_sum. cbn.
    apply em_eq; cbn; ring.
  - reflexivity.
  - exists (1, 0, 0)%R, 0%R. unfold b_field. cbn. intros E. injection E as E1 E2. lra.
Qed.

Print Assumptions C97_tracked_together_as_alone.
Print Assumptions C97_other_bunches_do_not_matter.
Print Assumptions C98_outputs_do_not_perturb.
Print Assumptions C98_synchronised_outputs_refuted.
Print Assumptions C99_tracking_keeps_particles_and_weights.
Print Assumptions C100_empty_element_is_free_flight.
Print Assumptions C101_magnets_keep_the_energy.
