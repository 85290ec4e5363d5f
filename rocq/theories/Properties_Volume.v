(** Property C117: the Boris pusher conserves phase-space volume.
    Vocabulary: Spec_Volume, Spec_Push, Spec_Run. *)
From Coq Require Import Reals QArith Qreals String List Bool Arith ZArith Lia Lqa Lra.
From Coquelicot Require Import Coquelicot.
From Verif Require Import Model_Push Spec_Push Proofs_Push Model_Bunch Spec_Bunch
  Model_Tracker Spec_Tracker Properties_Tracker Model_Run Spec_Run
  Spec_Conv Proofs_Conv Proofs_Conv6 Spec_Volume Proofs_Volume Proofs_Volume2 Proofs_Volume3 Proofs_Volume4 Proofs_Volume5.
From Verif Require Properties_Split Properties_Conv.
Import ListNotations.
Open Scope R_scope.

(** ** C117 *)
(** Whatever pushes a bunch undergoes, in fields that have gradients when they are used, what happens to
    a particle is given by a map of phase space that can be differentiated everywhere, and the
    determinant of the matrix of its derivatives is 1. *)
Theorem C117_boris_preserves_volume q m steps :
  List.Forall (fun s => exists G, gathers (p_fields s) G /\ differentiable G (p_time s + p_dt s / 2)) steps ->
  exists F, conserves_volume F /\
    forall l b, List.length l = List.length b -> fst (push_all q m steps (l, b)) = map F l.
Proof.
  intros H. destruct (volume_pushes q m steps H (fun p => p) volume_id) as (F & HF & E). exists F. split.
  - apply volume_conserved, HF.
  - intros l b Hl. rewrite <- (E l b Hl), map_id. reflexivity.
Qed.
Print Assumptions C117_boris_preserves_volume.

(** Tracking a bunch with a fixed time step through an element: there are maps that conserve volume, one
    for the end of the element and one for each output, which give the particles of every bunch with this
    charge, mass and step in every run, whatever other bunches are in it and however their steps are
    chosen, also if times are rounded when they are compared. *)
Theorem C117_tracking_preserves_volume :
  forall fields G q m rnd c d, gathers fields G -> (forall t, differentiable G t) ->
  exists F Fs, conserves_volume F /\ List.Forall conserves_volume Fs /\
  forall auto_dt fuel bunches s i b,
  List.length bunches = List.length (c_dtb c) -> nth_error (c_dtb c) i = Some (Some d) ->
  nth_error bunches i = Some b -> ready b -> z_injection (snd b) = None ->
  q_species (snd b) = q -> m_species (snd b) = m ->
  track "boris" auto_dt rnd fields fuel c bunches = Model_Tracker.Done s ->
  (exists r, nth_error (bs s) i = Some r /\
     particles (fst r) (snd r) = map F (particles (fst b) (snd b))) /\
  (exists o, nth_error (out s) i = Some o /\
     Forall2 (fun r Fk => particles (fst r) (snd r) = map Fk (particles (fst b) (snd b))) o Fs).
Proof.
  intros fields G q m rnd c d HG HD. destruct (tracking_volume fields G q m rnd c d HG HD) as (F & Fs & HF & HFs & H).
  exists F, Fs. split; [apply volume_conserved, HF|]. split; [|exact H].
  revert HFs. apply List.Forall_impl. apply volume_conserved.
Qed.
Print Assumptions C117_tracking_preserves_volume.

(** The fields of magnets and of analytical wakefields in a uniform plasma have gradients everywhere and
    at all times. *)
Theorem C117_element_fields_are_differentiable :
  (forall k, exists G, gathers [quadrupole_field k] G /\ forall t, differentiable G t) /\
  (forall k, exists G, gathers [apl_field k] G /\ forall t, differentiable G t) /\
  (forall e m_e eps0 n, exists G, gathers [focusing_blowout e m_e eps0 (fun _ => n)] G /\ forall t, differentiable G t) /\
  (forall n vg e0 slope foc xi0, exists G,
     gathers [custom_blowout (fun _ => n) vg e0 slope foc xi0] G /\ forall t, differentiable G t) /\
  (forall e m_e n w_p vg l_c off, exists G,
     gathers [simple_blowout e m_e (fun _ => n) w_p vg l_c off] G /\ forall t, differentiable G t).
Proof.
  split; [|split; [|split; [|split]]].
  - intros k. eexists. split; [apply gathers_analytical|]. apply affine_differentiable; cbn [c_ex c_ey c_ez c_bx c_by c_bz ex ey ez bx by_ bz]; unfold no_field.
    + exists 0, 0, 0, 0, 0. intros. ring.
    + exists 0, 0, 0, 0, 0. intros. ring.
    + exists 0, 0, 0, 0, 0. intros. ring.
    + exists 0, (- k), 0, 0, 0. intros. ring.
    + exists (- k), 0, 0, 0, 0. intros. ring.
    + exists 0, 0, 0, 0, 0. intros. ring.
  - intros k. eexists. split; [apply gathers_analytical|]. apply affine_differentiable; cbn [c_ex c_ey c_ez c_bx c_by c_bz ex ey ez bx by_ bz]; unfold no_field.
    + exists 0, 0, 0, 0, 0. intros. ring.
    + exists 0, 0, 0, 0, 0. intros. ring.
    + exists 0, 0, 0, 0, 0. intros. ring.
    + exists 0, k, 0, 0, 0. intros. ring.
    + exists (- k), 0, 0, 0, 0. intros. ring.
    + exists 0, 0, 0, 0, 0. intros. ring.
  - intros e m_e eps0 n. eexists. split; [apply gathers_analytical|].
    apply affine_differentiable; cbn [c_ex c_ey c_ez c_bx c_by c_bz ex ey ez bx by_ bz]; unfold no_field.
    + exists (c_SI * (m_e / (2 * e * c_SI) * sqrt (n * e ^ 2 / (m_e * eps0)) ^ 2)), 0, 0, 0, 0. intros. ring.
    + exists 0, (c_SI * (m_e / (2 * e * c_SI) * sqrt (n * e ^ 2 / (m_e * eps0)) ^ 2)), 0, 0, 0. intros. ring.
    + exists 0, 0, 0, 0, 0. intros. ring.
    + exists 0, 0, 0, 0, 0. intros. ring.
    + exists 0, 0, 0, 0, 0. intros. ring.
    + exists 0, 0, 0, 0, 0. intros. ring.
  - intros n vg e0 slope foc xi0. eexists. split; [apply gathers_analytical|].
    apply affine_differentiable; cbn [c_ex c_ey c_ez c_bx c_by c_bz ex ey ez bx by_ bz]; unfold no_field.
    + exists (c_SI * foc), 0, 0, 0, 0. intros. ring.
    + exists 0, (c_SI * foc), 0, 0, 0. intros. ring.
    + exists 0, 0, slope, (slope * ((1 - vg n) * c_SI)), (e0 - slope * xi0). intros. ring.
    + exists 0, 0, 0, 0, 0. intros. ring.
    + exists 0, 0, 0, 0, 0. intros. ring.
    + exists 0, 0, 0, 0, 0. intros. ring.
  - intros e m_e n w_p vg l_c off. eexists. split; [apply gathers_analytical|].
    set (g := w_p n ^ 2 / 2 * m_e / (e * c_SI)). set (s := w_p n ^ 2 / 2 * m_e / e). set (lp := 2 * PI * c_SI / w_p n).
    apply affine_differentiable; cbn [c_ex c_ey c_ez c_bx c_by c_bz ex ey ez bx by_ bz]; unfold no_field; fold g s lp.
    + exists (c_SI * g), 0, 0, 0, 0. intros. ring.
    + exists 0, (c_SI * g), 0, 0, 0. intros. ring.
    + exists 0, 0, s, (s * ((1 - vg n) * c_SI)), (s * (lp / 2 - l_c - off)). intros. ring.
    + exists 0, 0, 0, 0, 0. intros. ring.
    + exists 0, 0, 0, 0, 0. intros. ring.
    + exists 0, 0, 0, 0, 0. intros. ring.
Qed.
Print Assumptions C117_element_fields_are_differentiable.

(** The Runge-Kutta pusher does not have the property: a single step in a uniform magnetic field changes
    the volume around a particle at rest. *)
Theorem C117_rk4_changes_volume :
  exists G, gathers [uniform_bz] G /\ (forall s, differentiable G s) /\
  exists F, (forall l a, length l = length (r_fld a) -> fst (apply_rk4_pusher 1 1 [uniform_bz] 0 1 l a) = map F l) /\
  exists p, (exists J, jacobian F p J) /\ forall J, jacobian F p J -> det J = 569 / 576.
Proof.
  assert (Hg : gathers [uniform_bz] along_z).
  { intros ps t b Hl. unfold uniform_bz. rewrite (gathers_analytical _ ps t b Hl). apply map_ext. intros r. unfold along_z, no_field.
    cbn [c_ex c_ey c_ez c_bx c_by c_bz]. f_equal. ring. }
  exists along_z. split; [exact Hg|]. split; [apply along_z_differentiable|].
  exists turned. split; [intros l a Hl; apply (rk4_map 1 1 _ _ 0 1 l a Hg Hl)|].
  exists Proofs_Volume.Z. destruct turned_volume as (J & HJ & E). split; [exists J; exact HJ|]. intros J' HJ'.
  rewrite (jacobian_unique _ _ _ _ HJ' HJ). exact E.
Qed.
Print Assumptions C117_rk4_changes_volume.

(** ** Non-vacuity *)
Example ex_quadrupole_then_plasma : forall n vg e0 slope foc xi0,
  exists F, conserves_volume F /\ forall l b, List.length l = List.length b ->
    fst (push_all 1 1 [mkpush [quadrupole_field 3] 0 1; mkpush [quadrupole_field 3] 1 2;
                       mkpush [custom_blowout (fun _ => n) vg e0 slope foc xi0] 0 1] (l, b)) = map F l.
Proof.
  intros. apply C117_boris_preserves_volume.
  destruct C117_element_fields_are_differentiable as (Q & _ & _ & B & _).
  destruct (Q 3) as (G & Hg & HG). destruct (B n vg e0 slope foc xi0) as (G' & Hg' & HG').
  repeat constructor; cbn [p_fields p_time p_dt]; [exists G|exists G|exists G']; auto.
Qed.
(** A run to which the theorem on tracking applies: a quadrupole, steps of a third of its length, four
    outputs. *)
Definition two_moving : heap * bunch :=
  ([[1; 0]; [2; -1]; [0; 0]; [0; 0]; [0; 1]; [5; 6]; [1; 1]]%R,
   mkb 0%nat 1%nat 2%nat 3%nat 4%nat 5%nat 6%nat None 0%R 0%R None 0%R 0%R "b" c_SI 1%R None None).
Lemma two_ready : ready two_moving.
Proof.
  split; [split; [|split]|split; [|left; reflexivity]].
  - unfold footprint. cbn. repeat constructor; cbn; intuition discriminate.
  - unfold footprint. cbn. intros a Ha. intuition lia.
  - unfold footprint, rd. cbn. intros a Ha.
    destruct Ha as [<-|[<-|[<-|[<-|[<-|[<-|[<-|[]]]]]]]]; reflexivity.
  - split; intros; discriminate.
Qed.
Example ex_tracked_volume : exists F Fs fuel s r o, conserves_volume F /\ List.Forall conserves_volume Fs /\
  track "boris" (fun _ => 1%Q) exact [quadrupole_field 3] fuel (Properties_Conv.in_steps 3) [two_moving] = Model_Tracker.Done s /\
  nth_error (bs s) 0 = Some r /\ particles (fst r) (snd r) = [F (mkp 1 2 0 0 0 5); F (mkp 0 (-1) 0 0 1 6)] /\
  nth_error (out s) 0 = Some o /\ List.length o = 4%nat /\
  Forall2 (fun r Fk => particles (fst r) (snd r) = [Fk (mkp 1 2 0 0 0 5); Fk (mkp 0 (-1) 0 0 1 6)]) o Fs.
Proof.
  destruct C117_element_fields_are_differentiable as (Q & _). destruct (Q 3) as (G & Hg & HG).
  destruct (C117_tracking_preserves_volume [quadrupole_field 3] G c_SI 1 exact (Properties_Conv.in_steps 3) (1 # 3)%Q Hg HG) as (F & Fs & HF & HFs & H).
  assert (Gd : good_config (B := tracked) (Properties_Conv.in_steps 3) [two_moving]).
  { split; [reflexivity|]. split; [reflexivity|]. split; [intros d [E|[]]; injection E as <-; reflexivity|intros d b []]. }
  destruct (C01_tracking_terminates tracked (list field) (evolve_tracked "boris") no_update (fun _ => 1%Q) copy_tracked
    (Properties_Conv.in_steps 3) [two_moving] [quadrupole_field 3] 1 Gd Properties_Split.some_auto) as (fuel & s & R0); [cbn; lia|].
  specialize (R0 fuel (Nat.le_refl _)).
  destruct (H (fun _ => 1%Q) fuel [two_moving] s 0%nat two_moving eq_refl eq_refl eq_refl two_ready eq_refl eq_refl eq_refl R0)
    as ((r & Er & Pr) & (o & Eo & Po)).
  exists F, Fs, fuel, s, r, o. split; [exact HF|]. split; [exact HFs|]. split; [exact R0|]. split; [exact Er|]. split; [exact Pr|]. split; [exact Eo|].
  split; [|exact Po].
  destruct (C05_outputs_are_synchronous tracked (list field) (evolve_tracked "boris") no_update (fun _ => 1%Q) copy_tracked
    (Properties_Conv.in_steps 3) [two_moving] [quadrupole_field 3] 1 fuel s 0%nat o Gd Properties_Split.some_auto R0 eq_refl Eo) as [Ln _].
  exact Ln.
Qed.
(** The determinant is the usual one: doubling all coordinates multiplies volumes by 64. *)
Example ex_scaling : jacobian (fun p => pscal 2 p) (mkp 0 0 0 0 0 0)
    [mkp 2 0 0 0 0 0; mkp 0 2 0 0 0 0; mkp 0 0 2 0 0 0; mkp 0 0 0 2 0 0; mkp 0 0 0 0 2 0; mkp 0 0 0 0 0 2] /\
  det [mkp 2 0 0 0 0 0; mkp 0 2 0 0 0 0; mkp 0 0 2 0 0 0; mkp 0 0 0 2 0 0; mkp 0 0 0 0 2 0; mkp 0 0 0 0 0 2] = 64.
Proof.
  split.
  - apply jac_make; intros eps He; (exists 1; split; [lra|]; intros p' _); unfold scalar; cbn [pscal x y xi px py pz];
      (match goal with |- Rabs ?z <= _ => replace z with 0 by ring end; rewrite Rabs_R0; apply Rmult_le_pos; [lra|apply pdist_pos]).
  - unfold det. cbn [map row determinant expand without x y xi px py pz]. ring.
Qed.
