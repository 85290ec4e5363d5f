(** Property C115: fixed steps that fit between the outputs.  Vocabulary: Spec_Split, Spec_Run,
    Spec_Tracker, Spec_Push. *)
From Coq Require Import Reals QArith Qreals String List Bool Arith ZArith Lia Lqa Lra.
From Verif Require Import Model_Push Spec_Push Proofs_Push Model_Bunch Spec_Bunch Proofs_Bunch
  Model_Tracker Spec_Tracker Proofs_Tracker Properties_Tracker Model_Run Spec_Run Proofs_Run
  Spec_Split Proofs_Split Proofs_Split2.
Import ListNotations.
Open Scope Q_scope.

(** ** C115 *)
(** If [k] steps fit between two outputs, the bunch is pushed exactly at 0, d, 2 d, ... for [d]
    each time, and otherwise only by pushes of no duration. *)
Theorem C115_pushes :
  forall B F evolve update auto_dt copy c (bs0 : list B) (fs0 : F) m fuel s i d k,
  good_config c bs0 -> bounded_below auto_dt m ->
  do_tracking B F evolve update auto_dt copy exact fuel c bs0 fs0 = Done s ->
  (i < length bs0)%nat -> steps_fit c i d k ->
  let l := Spec_Tracker.pushes i (log s) in
  multiples d (c_ndiags c * k) (map fst (real_pushes l)) /\
  Forall (fun p => snd p == d) (real_pushes l) /\
  Forall (fun p => snd p == 0 \/ snd p == d) l.
Proof.
  intros B F evolve update auto_dt copy c bs0 fs0 m fuel s i d k Hg Ha H Hi (Hpb & Hd & Hk) l.
  destruct (fixed_pushes B F evolve update auto_dt copy c bs0 fs0 Hg m Ha Hpb fuel s H i d k Hi Hd Hk) as (L & N & A).
  split; [split|split].
  - rewrite map_length. exact L.
  - intros j t E. rewrite nth_error_map in E. fold l in N. destruct (nth_error (real_pushes l) j) as [[t' x]|] eqn:E'; [|discriminate].
    injection E as <-. apply (N j t' x E').
  - rewrite Forall_forall. intros [t x] I. apply In_nth_error in I as [j E]. apply (N j t x E).
  - rewrite Forall_forall. intros [t x] I. apply (A t x I).
Qed.

(** Tracking is then calling [evolve] step by step, at the end and in every output. *)
Theorem C115_tracking_is_stepping :
  forall pusher auto_dt m fields G fuel c bunches s i b d k,
  known pusher -> gathers fields G ->
  good_config c bunches -> bounded_below auto_dt m -> steps_fit c i d k ->
  track pusher auto_dt exact fields fuel c bunches = Model_Tracker.Done s ->
  nth_error bunches i = Some b -> ready b ->
  (exists r, nth_error (bs s) i = Some r /\ seen r = seen (by_hand pusher fields d (c_ndiags c * k) b)) /\
  (exists o, nth_error (out s) i = Some o /\ length o = S (c_ndiags c) /\
     forall q, (q <= c_ndiags c)%nat -> exists r, nth_error o q = Some r /\
       seen r = seen (by_hand pusher fields d (q * k) b)).
Proof.
  intros pusher auto_dt m fields G fuel c bunches s i b d k K HG Hg Ha Hf H Hb Hr.
  destruct (tracking_is_stepping pusher fields G K HG auto_dt m fuel c bunches s i b d k Hg Ha Hf H Hb Hr)
    as ((r & Er & _ & Vr) & Ho).
  split; [|exact Ho]. exists r. split; [exact Er|]. unfold view in Vr. congruence.
Qed.

(** Hence the number of outputs does not change what happens to the bunch. *)
Theorem C115_number_of_outputs :
  forall pusher auto_dt m fields G fuel fuel' c n bunches s s' i b d k k',
  known pusher -> gathers fields G ->
  good_config c bunches -> bounded_below auto_dt m ->
  steps_fit c i d k -> steps_fit (with_outputs n c) i d k' ->
  track pusher auto_dt exact fields fuel c bunches = Model_Tracker.Done s ->
  track pusher auto_dt exact fields fuel' (with_outputs n c) bunches = Model_Tracker.Done s' ->
  nth_error bunches i = Some b -> ready b ->
  (exists r r', nth_error (bs s) i = Some r /\ nth_error (bs s') i = Some r' /\ seen r = seen r') /\
  (exists o o', nth_error (out s) i = Some o /\ nth_error (out s') i = Some o' /\
     forall q q', (q <= c_ndiags c)%nat -> (q' <= n)%nat ->
       times q (c_tfinal c / inject_Z (Z.of_nat (c_ndiags c))) == times q' (c_tfinal c / inject_Z (Z.of_nat n)) ->
       exists r r', nth_error o q = Some r /\ nth_error o' q' = Some r' /\ seen r = seen r').
Proof.
  intros pusher auto_dt m fields G fuel fuel' c n bunches s s' i b d k k' K HG Hg Ha Hf Hf' H H' Hb Hr.
  assert (Hg' : good_config (with_outputs n c) bunches) by exact Hg.
  assert (Hi : (i < length bunches)%nat) by (apply nth_error_Some; congruence).
  destruct (C115_tracking_is_stepping pusher auto_dt m fields G fuel c bunches s i b d k K HG Hg Ha Hf H Hb Hr)
    as ((r & Er & Sr) & (o & Eo & _ & Ho)).
  destruct (C115_tracking_is_stepping pusher auto_dt m fields G fuel' _ bunches s' i b d k' K HG Hg' Ha Hf' H' Hb Hr)
    as ((r' & Er' & Sr') & (o' & Eo' & _ & Ho')).
  cbn [with_outputs c_ndiags] in Sr', Ho'.
  destruct Hf as (Hpb & Hd & Hk). destruct Hf' as (Hpb' & Hd' & Hk'). cbn [with_outputs c_ndiags c_tfinal] in Hk'.
  pose proof (d_pos tracked c bunches Hg i d Hd) as Dp.
  assert (En : (c_ndiags c * k = n * k')%nat).
  { apply (times_inj _ _ d Dp).
    rewrite <- (final_time tracked (list field) (evolve_tracked pusher) no_update auto_dt copy_tracked c bunches fields fuel s H d k Hk).
    apply (final_time tracked (list field) (evolve_tracked pusher) no_update auto_dt copy_tracked (with_outputs n c) bunches fields
             fuel' s' H' d k' Hk'). }
  split.
  - exists r, r'. split; [exact Er|]. split; [exact Er'|]. rewrite Sr, Sr', En. reflexivity.
  - exists o, o'. split; [exact Eo|]. split; [exact Eo'|]. intros q q' Hq Hq' Eq.
    destruct (Ho q Hq) as (u & Eu & Su). destruct (Ho' q' Hq') as (u' & Eu' & Su').
    exists u, u'. split; [exact Eu|]. split; [exact Eu'|]. rewrite Su, Su'.
    replace (q' * k')%nat with (q * k)%nat; [reflexivity|].
    apply (times_inj _ _ d Dp). rewrite <- !times_mul. unfold times at 1 3. rewrite <- Hk, <- Hk'. exact Eq.
Qed.

(** In fields that do not change with time, an element may be divided in two: tracking through the
    first part and then, with what comes out, through the second, is tracking through the whole. *)
Theorem C115_divided_element :
  forall pusher auto_dt m fields fuel fuel1 fuel2 c c1 c2 bunches bunches1 bunches2 s s1 s2 i i1 i2 b b1 d k k1 k2,
  known pusher -> static fields -> bounded_below auto_dt m ->
  good_config c bunches -> good_config c1 bunches1 -> good_config c2 bunches2 ->
  steps_fit c i d k -> steps_fit c1 i1 d k1 -> steps_fit c2 i2 d k2 ->
  c_tfinal c == c_tfinal c1 + c_tfinal c2 ->
  ready b -> nth_error bunches i = Some b -> nth_error bunches1 i1 = Some b ->
  track pusher auto_dt exact fields fuel c bunches = Model_Tracker.Done s ->
  track pusher auto_dt exact fields fuel1 c1 bunches1 = Model_Tracker.Done s1 ->
  nth_error (bs s1) i1 = Some b1 -> nth_error bunches2 i2 = Some b1 ->
  track pusher auto_dt exact fields fuel2 c2 bunches2 = Model_Tracker.Done s2 ->
  exists r r2, nth_error (bs s) i = Some r /\ nth_error (bs s2) i2 = Some r2 /\ seen r = seen r2.
Proof.
  intros pusher auto_dt m fields fuel fuel1 fuel2 c c1 c2 bunches bunches1 bunches2 s s1 s2 i i1 i2 b b1 d k k1 k2
    K St Ha Hg Hg1 Hg2 Hf Hf1 Hf2 ET Hr Hb Hb1 H H1 E1 Hb2 H2.
  pose proof St as (G & HG & _).
  destruct (tracking_is_stepping pusher fields G K HG auto_dt m fuel c bunches s i b d k Hg Ha Hf H Hb Hr) as ((r & Er & _ & Vr) & _).
  destruct (tracking_is_stepping pusher fields G K HG auto_dt m fuel1 c1 bunches1 s1 i1 b d k1 Hg1 Ha Hf1 H1 Hb1 Hr)
    as ((r1 & Er1 & Rr1 & Vr1) & _).
  rewrite E1 in Er1. injection Er1 as <-.
  destruct (tracking_is_stepping pusher fields G K HG auto_dt m fuel2 c2 bunches2 s2 i2 b1 d k2 Hg2 Ha Hf2 H2 Hb2 Rr1)
    as ((r2 & Er2 & _ & Vr2) & _).
  exists r, r2. split; [exact Er|]. split; [exact Er2|].
  destruct Hf as (_ & Hd & Hk), Hf1 as (_ & _ & Hk1), Hf2 as (_ & _ & Hk2).
  assert (Hi : (i < length bunches)%nat) by (apply nth_error_Some; congruence).
  pose proof (d_pos tracked c bunches Hg i d Hd) as Dp.
  assert (En : (c_ndiags c * k = c_ndiags c2 * k2 + c_ndiags c1 * k1)%nat).
  { apply (times_inj _ _ d Dp).
    rewrite <- (final_time tracked (list field) (evolve_tracked pusher) no_update auto_dt copy_tracked c bunches fields fuel s H d k Hk).
    rewrite ET.
    rewrite (final_time tracked (list field) (evolve_tracked pusher) no_update auto_dt copy_tracked c1 bunches1 fields fuel1 s1 H1 d k1 Hk1).
    rewrite (final_time tracked (list field) (evolve_tracked pusher) no_update auto_dt copy_tracked c2 bunches2 fields fuel2 s2 H2 d k2 Hk2).
    unfold times. rewrite Nat2Z.inj_add, inject_Z_plus. ring. }
  assert (E : view r = view r2).
  { rewrite Vr, Vr2, En, (by_hand_app pusher fields d b K St Hr). symmetry.
    apply (by_hand_view pusher fields d _ _ G K HG Rr1); [apply (by_hand_ready pusher fields G K HG), Hr|exact Vr1]. }
  unfold view in E. congruence.
Qed.

(** ** Time-dependent fields *)
(** A longitudinal field that grows with time: every element starts at time 0, so dividing the
    element changes the result. *)
Definition ramp : field := fun _ t b =>
  map (fun v => mke (ex v) (ey v) (ez v + t) (bx v) (by_ v) (bz v)) b.
Definition one_at_rest : heap * bunch :=
  ([[0];[0];[0];[0];[0];[0];[1]]%R,
   mkb 0%nat 1%nat 2%nat 3%nat 4%nat 5%nat 6%nat None 0%R 0%R None 0%R 0%R "b" c_SI 1%R None None).
Definition two_steps : config :=
  {| c_tfinal := 2; c_dtb := [Some 1]; c_fields := []; c_ndiags := 1; c_push_before := true |}.
Definition one_step : config :=
  {| c_tfinal := 1; c_dtb := [Some 1]; c_fields := []; c_ndiags := 1; c_push_before := true |}.

Lemma ramp_gathers : gathers [ramp] (fun _ t => mke 0 0 t 0 0 0).
Proof.
  intros ps t b Hl. unfold gather_fields. cbn [fold_left]. unfold ramp, reset_particle_fields. rewrite map_map.
  revert b Hl. induction ps as [|p ps IH]; intros [|v b] Hl; try discriminate; cbn [map]; [reflexivity|].
  f_equal; [unfold em0; cbn; f_equal; ring|]. apply IH. cbn in Hl. congruence.
Qed.
Lemma ramp_pz t d p : pz (boris1 1 (fun _ t => mke 0 0 t 0 0 0) t d p) = (pz p + d * (t + d / 2))%R.
Proof.
  unfold boris1. cbv zeta. unfold drift at 1. destruct (velocity _) as [[vx vy] vz]. cbn [pz].
  assert (E : pz (drift (d / 2) p) = pz p) by (unfold drift; destruct (velocity p) as [[ux uy] uz]; reflexivity).
  unfold push_momentum1. cbv zeta. cbn [pz ez ex ey bx by_ bz]. rewrite E.
  rewrite !Rmult_0_r. field.
Qed.
Lemma ramp_step hb t d : ready hb -> z_injection (snd hb) = None -> q_species (snd hb) = c_SI -> m_species (snd hb) = 1%R ->
  let r := evolve_tracked "boris" [ramp] hb t d in
  ready r /\ z_injection (snd r) = None /\ q_species (snd r) = c_SI /\ m_species (snd r) = 1%R /\
  map pz (particles (fst r) (snd r)) = map (fun v => v + Q2R d * (Q2R t + Q2R d / 2))%R (map pz (particles (fst hb) (snd hb))).
Proof.
  intros Hr Hz Hq Hm r.
  destruct (evolve_view "boris" [ramp] _ hb t d (or_intror eq_refl) ramp_gathers Hr) as (fs & G' & A & _ & HG & Rr & V).
  unfold acting in A. rewrite Hz in A. injection A as <-. fold r in Rr, V.
  rewrite Hz, Hq, Hm in V. remember (fresh_push _ _ _ _) as L eqn:EL. unfold view in V. injection V as V1 V2 V3 V4 V5 V6.
  split; [exact Rr|]. split; [exact V6|]. split; [exact V4|]. split; [exact V5|]. rewrite V1, EL.
  rewrite (fresh_boris _ _ [ramp] _ _ _ _ ramp_gathers), !map_map. apply map_ext. intros p.
  replace (c_SI / (1 * c_SI))%R with 1%R by (unfold c_SI; field). apply ramp_pz.
Qed.
Lemma rest_ready : ready one_at_rest.
Proof.
  split; [split; [|split]|split; [|left; reflexivity]].
  - unfold footprint. cbn. repeat constructor; cbn; intuition discriminate.
  - unfold footprint. cbn. intros a Ha. intuition lia.
  - unfold footprint, rd. cbn. intros a Ha.
    destruct Ha as [<-|[<-|[<-|[<-|[<-|[<-|[<-|[]]]]]]]]; reflexivity.
  - split; intros; discriminate.
Qed.
Lemma two_good l : length l = 1%nat -> good_config (B := tracked) two_steps l.
Proof. intros L. split; [reflexivity|]. split; [exact L|]. split; [intros d [E|[]]; injection E as <-; reflexivity|intros d b []]. Qed.
Lemma one_good l : length l = 1%nat -> good_config (B := tracked) one_step l.
Proof. intros L. split; [reflexivity|]. split; [exact L|]. split; [intros d [E|[]]; injection E as <-; reflexivity|intros d b []]. Qed.
Lemma two_fit : steps_fit two_steps 0 1 2.
Proof. split; [reflexivity|]. split; reflexivity. Qed.
Lemma one_fit : steps_fit one_step 0 1 1.
Proof. split; [reflexivity|]. split; reflexivity. Qed.
Lemma some_auto : bounded_below (fun _ : tracked => 1) 1.
Proof. split; [reflexivity|intros b; apply Qle_refl]. Qed.

Theorem C115_time_dependent_refuted :
  exists fuel fuel1 fuel2 s s1 s2 b1 r r2,
  gathers [ramp] (fun _ t => mke 0 0 t 0 0 0) /\ ready one_at_rest /\
  track "boris" (fun _ => 1) exact [ramp] fuel two_steps [one_at_rest] = Model_Tracker.Done s /\
  track "boris" (fun _ => 1) exact [ramp] fuel1 one_step [one_at_rest] = Model_Tracker.Done s1 /\
  nth_error (bs s1) 0 = Some b1 /\
  track "boris" (fun _ => 1) exact [ramp] fuel2 one_step [b1] = Model_Tracker.Done s2 /\
  nth_error (bs s) 0 = Some r /\ nth_error (bs s2) 0 = Some r2 /\ seen r <> seen r2.
Proof.
  destruct (C01_tracking_terminates tracked (list field) (evolve_tracked "boris") no_update (fun _ => 1) copy_tracked
    two_steps [one_at_rest] [ramp] 1 (two_good [one_at_rest] eq_refl) some_auto) as (n & s & H); [cbn; lia|].
  destruct (C01_tracking_terminates tracked (list field) (evolve_tracked "boris") no_update (fun _ => 1) copy_tracked
    one_step [one_at_rest] [ramp] 1 (one_good [_] eq_refl) some_auto) as (n1 & s1 & H1); [cbn; lia|].
  pose proof (H n (Nat.le_refl _)) as Hr. pose proof (H1 n1 (Nat.le_refl _)) as Hr1.
  destruct (tracking_is_stepping "boris" [ramp] _ (or_intror eq_refl) ramp_gathers (fun _ => 1) 1 n two_steps [one_at_rest] s 0
    one_at_rest 1 2 (two_good [one_at_rest] eq_refl) some_auto two_fit Hr eq_refl rest_ready) as ((r & Er & _ & Vr) & _).
  destruct (tracking_is_stepping "boris" [ramp] _ (or_intror eq_refl) ramp_gathers (fun _ => 1) 1 n1 one_step [one_at_rest] s1 0
    one_at_rest 1 1 (one_good [_] eq_refl) some_auto one_fit Hr1 eq_refl rest_ready) as ((b1 & E1 & R1 & V1) & _).
  destruct (C01_tracking_terminates tracked (list field) (evolve_tracked "boris") no_update (fun _ => 1) copy_tracked
    one_step [b1] [ramp] 1 (one_good [_] eq_refl) some_auto) as (n2 & s2 & H2); [cbn; lia|].
  pose proof (H2 n2 (Nat.le_refl _)) as Hr2.
  destruct (tracking_is_stepping "boris" [ramp] _ (or_intror eq_refl) ramp_gathers (fun _ => 1) 1 n2 one_step [b1] s2 0
    b1 1 1 (one_good [_] eq_refl) some_auto one_fit Hr2 eq_refl R1) as ((r2 & E2 & _ & V2) & _).
  exists n, n1, n2, s, s1, s2, b1, r, r2.
  split; [apply ramp_gathers|]. split; [apply rest_ready|]. split; [exact Hr|]. split; [exact Hr1|]. split; [exact E1|].
  split; [exact Hr2|]. split; [exact Er|]. split; [exact E2|].
  cbn [two_steps one_step c_ndiags Nat.mul Nat.add by_hand] in *.
  destruct (ramp_step one_at_rest (times 0 1) 1 rest_ready eq_refl eq_refl eq_refl) as (A1 & A2 & A3 & A4 & A5).
  set (u := evolve_tracked "boris" [ramp] one_at_rest (times 0 1) 1) in *.
  destruct (ramp_step u (times 1 1) 1 A1 A2 A3 A4) as (_ & _ & _ & _ & B5).
  apply view_parts in V1 as (V1 & _ & _ & Vq & Vm & Vz).
  assert (Z1 : z_injection (snd b1) = None) by congruence.
  assert (Q1 : q_species (snd b1) = c_SI) by congruence.
  assert (M1 : m_species (snd b1) = 1%R) by congruence.
  destruct (ramp_step b1 (times 0 1) 1 R1 Z1 Q1 M1) as (_ & _ & _ & _ & C5).
  apply view_parts in Vr as (Vr & _). apply view_parts in V2 as (V2 & _).
  intros E. assert (E' : map pz (particles (fst r) (snd r)) = map pz (particles (fst r2) (snd r2))).
  { unfold seen, contents in E. injection E as E _ _. rewrite E. reflexivity. }
  rewrite Vr, V2, B5, C5, V1, A5 in E'. cbn [one_at_rest fst snd] in E'.
  change (map pz (particles [[0];[0];[0];[0];[0];[0];[1]]%R
    (mkb 0%nat 1%nat 2%nat 3%nat 4%nat 5%nat 6%nat None 0%R 0%R None 0%R 0%R "b" c_SI 1%R None None))) with [0%R] in E'.
  cbn [map] in E'. injection E' as E'.
  replace (Q2R (times 0 1)) with 0%R in E' by (unfold Q2R; cbn; lra).
  replace (Q2R (times 1 1)) with 1%R in E' by (unfold Q2R; cbn; lra).
  replace (Q2R 1) with 1%R in E' by (unfold Q2R; cbn; lra). lra.
Qed.

(** ** Non-vacuity *)
(** A magnet that does not change with time, runs of the whole element and of its two halves, and the
    whole element asked for two outputs. *)
Example ex_static : static [quadrupole_field 100].
Proof.
  exists (fun p _ => mke 0 0 0 (- 100 * snd (fst p)) (- 100 * fst (fst p)) 0)%R. split; [|reflexivity].
  intros ps t b Hl.
  rewrite (superposition_lemma [quadrupole_field 100]
    [fun p _ => mke 0 0 0 (- 100 * snd (fst p)) (- 100 * fst (fst p)) 0]%R
    (Forall2_cons _ _ (quadrupole_adds 100) (Forall2_nil _)) ps t b Hl).
  apply map_ext. intros p. unfold em_sum. cbn. apply em_eq; cbn; ring.
Qed.
Example ex_divided : exists fuel fuel1 fuel2 fuel3 s s1 s2 s3 b1,
  track "boris" (fun _ => 1) exact [quadrupole_field 100] fuel two_steps [one_at_rest] = Model_Tracker.Done s /\
  track "boris" (fun _ => 1) exact [quadrupole_field 100] fuel1 one_step [one_at_rest] = Model_Tracker.Done s1 /\
  nth_error (bs s1) 0 = Some b1 /\
  track "boris" (fun _ => 1) exact [quadrupole_field 100] fuel2 one_step [b1] = Model_Tracker.Done s2 /\
  track "boris" (fun _ => 1) exact [quadrupole_field 100] fuel3 (with_outputs 2 two_steps) [one_at_rest] = Model_Tracker.Done s3 /\
  steps_fit two_steps 0 1 2 /\ steps_fit one_step 0 1 1 /\ steps_fit (with_outputs 2 two_steps) 0 1 1 /\
  c_tfinal two_steps == c_tfinal one_step + c_tfinal one_step.
Proof.
  destruct (C01_tracking_terminates tracked (list field) (evolve_tracked "boris") no_update (fun _ => 1) copy_tracked
    two_steps [one_at_rest] [quadrupole_field 100] 1 (two_good [one_at_rest] eq_refl) some_auto) as (n & s & H); [cbn; lia|].
  destruct (C01_tracking_terminates tracked (list field) (evolve_tracked "boris") no_update (fun _ => 1) copy_tracked
    one_step [one_at_rest] [quadrupole_field 100] 1 (one_good [_] eq_refl) some_auto) as (n1 & s1 & H1); [cbn; lia|].
  destruct (C01_tracking_terminates tracked (list field) (evolve_tracked "boris") no_update (fun _ => 1) copy_tracked
    (with_outputs 2 two_steps) [one_at_rest] [quadrupole_field 100] 1 (two_good [one_at_rest] eq_refl) some_auto) as (n3 & s3 & H3); [cbn; lia|].
  pose proof (H n (Nat.le_refl _)) as Hr. pose proof (H1 n1 (Nat.le_refl _)) as Hr1. pose proof (H3 n3 (Nat.le_refl _)) as Hr3.
  pose proof ex_static as (G & HG & _).
  destruct (tracking_is_stepping "boris" [quadrupole_field 100] G (or_intror eq_refl) HG (fun _ => 1) 1 n1 one_step [one_at_rest] s1 0
    one_at_rest 1 1 (one_good [_] eq_refl) some_auto one_fit Hr1 eq_refl rest_ready) as ((b1 & E1 & R1 & V1) & _).
  destruct (C01_tracking_terminates tracked (list field) (evolve_tracked "boris") no_update (fun _ => 1) copy_tracked
    one_step [b1] [quadrupole_field 100] 1 (one_good [_] eq_refl) some_auto) as (n2 & s2 & H2); [cbn; lia|].
  pose proof (H2 n2 (Nat.le_refl _)) as Hr2.
  exists n, n1, n2, n3, s, s1, s2, s3, b1.
  split; [exact Hr|]. split; [exact Hr1|]. split; [exact E1|]. split; [exact Hr2|]. split; [exact Hr3|].
  split; [apply two_fit|]. split; [apply one_fit|]. split; [split; [reflexivity|split; reflexivity]|reflexivity].
Qed.

Print Assumptions C115_pushes.
Print Assumptions C115_tracking_is_stepping.
Print Assumptions C115_number_of_outputs.
Print Assumptions C115_divided_element.
Print Assumptions C115_time_dependent_refuted.
