(** C99 in whole simulations with wakefields; C114: runs that raise nothing. *)
From Coq Require Import Reals QArith Qreals String List Bool Arith ZArith Lia Lqa Lra.
From Coquelicot Require Import Coquelicot.
From Verif Require Model_Laser.
From Verif Require Import Model_Push Model_Bunch Spec_Bunch Model_Interp Model_QS
  Model_Tracker Spec_Tracker Proofs_Tracker Properties_Tracker Model_Float32 Proofs_Bunch Model_Run Spec_Run Model_RZ Model_Sim Spec_Sim
  Proofs_Sim4 Spec_Group Proofs_Total Proofs_Keep Properties_Sim.
Import ListNotations.
Open Scope Q_scope.

(** ** C99 *)
(** Tracking through any element, also with wakefields on a grid and laser pulses: as long as nothing
    raises, a bunch keeps its particles, weights, species and name, and its propagation
    distance grows by c times the time, at the end and in every output. *)
Theorem C99_whole_simulations :
  forall to_main to_sub e_ch m_e eps_0 light argsort skin_depth wave_breaking pusher auto_dt m
    fuel c bunches fields s i b0,
  good_config c (map Some bunches) -> bounded_below auto_dt m -> c_push_before c = true ->
  simulate to_main to_sub e_ch m_e eps_0 light argsort skin_depth wave_breaking pusher auto_dt exact
    fuel c bunches fields = Model_Tracker.Done s ->
  nth_error bunches i = Some b0 -> sound b0 ->
  let after (t : Q) (b : tracked) :=
    length (parts b) = length (parts b0) /\ weights b = weights b0 /\
    q_species (snd b) = q_species (snd b0) /\ m_species (snd b) = m_species (snd b0) /\
    b_name (snd b) = b_name (snd b0) /\
    prop_distance (snd b) = (prop_distance (snd b0) + c_SI * Q2R t)%R in
  (exists u, nth_error (bs s) i = Some u /\ forall b, u = Some b -> after (c_tfinal c) b) /\
  (exists o, nth_error (out s) i = Some o /\ length o = S (c_ndiags c) /\
     forall k, (k <= c_ndiags c)%nat -> exists u, nth_error o k = Some u /\ forall b, u = Some b ->
       after (inject_Z (Z.of_nat k) * (c_tfinal c / inject_Z (Z.of_nat (c_ndiags c)))) b).
Proof.
  intros to_main to_sub e_ch m_e eps_0 light argsort skin_depth wave_breaking pusher auto_dt m
    fuel c bunches fields s i b0 Hg Ha Hpb H Hi S after.
  assert (Hi' : nth_error (map Some bunches) i = Some (Some b0)) by (rewrite nth_error_map, Hi; reflexivity).
  destruct (along_any (option tracked) (option (list efield)) (sim_evolve pusher)
              (sim_update to_main to_sub e_ch m_e eps_0 light argsort skin_depth wave_breaking) auto_dt sim_copy
              (Some (adjust_wakes (Q2R (c_tfinal c)) fields)) (keeps b0) (keeps_ext b0)
              (keeps_step pusher b0) c (map Some bunches) Hg m Ha Hpb fuel s i (Some b0) H Hi' (keeps_start b0 S))
    as ((r & Er & Kr) & (o & Eo & Lo & Ho)).
  split.
  - exists r. split; [exact Er|]. intros b Eb. destruct (Kr b Eb) as (_ & L & W & M).
    destruct M as (_ & M2 & _ & _ & _ & _ & M7 & M8 & M9). repeat split; try assumption. rewrite M2. ring.
  - exists o. split; [exact Eo|]. split; [exact Lo|]. intros k Hk. destruct (Ho k Hk) as (u & Eu & Ku).
    exists (sim_copy u). split; [exact Eu|]. intros b Eb. destruct u as [b1|]; [|discriminate]. injection Eb as <-.
    destruct (Ku b1 eq_refl) as (S1 & L & W & M).
    destruct M as (_ & M2 & _ & _ & _ & _ & M7 & M8 & M9).
    destruct (copy_sound b1 S1) as (_ & P & W' & C). unfold copy_attributes in C.
    assert (C' : q_species (snd (copy_tracked b1)) = q_species (snd b1) /\
                 m_species (snd (copy_tracked b1)) = m_species (snd b1) /\
                 b_name (snd (copy_tracked b1)) = b_name (snd b1) /\
                 prop_distance (snd (copy_tracked b1)) = prop_distance (snd b1)).
    { destruct b1 as [h b]. unfold copy_tracked, Model_Bunch.copy. cbn. auto. }
    destruct C' as (Cq & Cm & Cn & Cp). unfold after. rewrite P, W', Cq, Cm, Cn, Cp.
    repeat split; try assumption. rewrite M2. ring.
Qed.

(** ** C114 *)
(** Tracking through an element without wakefields on a grid (any analytical fields, any outputs) ends
    and raises nothing, for both pushers and all bunches with consistent arrays (and at least one
    particle, if they have an injection position). *)
Theorem C114_analytical_elements :
  forall to_main to_sub e_ch m_e eps_0 light argsort skin_depth wave_breaking pusher auto_dt m c bunches fields,
  good_config c (map Some bunches) -> bounded_below auto_dt m -> (0 < c_ndiags c)%nat ->
  only_analytic fields -> known pusher -> (forall b, In b bunches -> trackable b) ->
  exists N s, nothing_raised s /\ fs s = Some fields /\ forall fuel, (N <= fuel)%nat ->
    simulate to_main to_sub e_ch m_e eps_0 light argsort skin_depth wave_breaking pusher auto_dt exact
      fuel c bunches fields = Model_Tracker.Done s.
Proof.
  intros to_main to_sub e_ch m_e eps_0 light argsort skin_depth wave_breaking pusher auto_dt m c bunches fields
    Hg Ha Hn A K T.
  destruct (C01_tracking_terminates (option tracked) (option (list efield)) (sim_evolve pusher)
              (sim_update to_main to_sub e_ch m_e eps_0 light argsort skin_depth wave_breaking) auto_dt sim_copy
              c (map Some bunches) (Some (adjust_wakes (Q2R (c_tfinal c)) fields)) m Hg Ha Hn) as (N & s & H).
  exists N, s.
  destruct (run_nothing_raised to_main to_sub e_ch m_e eps_0 light argsort skin_depth wave_breaking pusher auto_dt
              exact N c bunches fields s A K T (H N (le_n N))) as [H1 H2].
  split; [exact H1|]. split; [exact H2|]. exact H.
Qed.
(** The same with the float32 comparisons of the code. *)
Theorem C114_analytical_elements_float32 :
  forall to_main to_sub e_ch m_e eps_0 light argsort skin_depth wave_breaking pusher auto_dt m c bunches fields,
  good_config c (map Some bunches) -> bounded_below auto_dt m -> (0 < c_ndiags c)%nat ->
  only_analytic fields -> known pusher -> (forall b, In b bunches -> trackable b) ->
  exists N s, nothing_raised s /\ fs s = Some fields /\ forall fuel, (N <= fuel)%nat ->
    simulate to_main to_sub e_ch m_e eps_0 light argsort skin_depth wave_breaking pusher auto_dt f32
      fuel c bunches fields = Model_Tracker.Done s.
Proof.
  intros to_main to_sub e_ch m_e eps_0 light argsort skin_depth wave_breaking pusher auto_dt m c bunches fields
    Hg Ha Hn A K T.
  destruct (C01_tracking_terminates_float32 (option tracked) (option (list efield)) (sim_evolve pusher)
              (sim_update to_main to_sub e_ch m_e eps_0 light argsort skin_depth wave_breaking) auto_dt sim_copy
              c (map Some bunches) (Some (adjust_wakes (Q2R (c_tfinal c)) fields)) m Hg Ha Hn) as (N & s & H).
  exists N, s.
  destruct (run_nothing_raised to_main to_sub e_ch m_e eps_0 light argsort skin_depth wave_breaking pusher auto_dt
              f32 N c bunches fields s A K T (H N (le_n N))) as [H1 H2].
  split; [exact H1|]. split; [exact H2|]. exact H.
Qed.
(** The conditions are needed: other names of pushers raise in the first push, and so does a bunch
    without particles that has an injection position. *)
Theorem C114_conditions :
  (forall pusher fields b t dt, ~ known pusher -> push_bunch pusher fields b t dt = None) /\
  (forall pusher fields b t dt, sound b -> z_injection (snd b) <> None -> parts b = [] ->
     push_bunch pusher fields b t dt = None).
Proof.
  split.
  - intros pusher fields [h b] t dt K. unfold push_bunch.
    assert (X : String.eqb pusher "rk4" = false /\ String.eqb pusher "boris" = false).
    { unfold known in K. split; apply String.eqb_neq; tauto. }
    destruct X as [-> ->]. destruct (z_injection b); [destruct (amax _); [destruct (Rlt_dec _ _)|]|]; reflexivity.
  - intros pusher fields [h b] t dt S Z P. unfold push_bunch. cbn [fst snd] in Z.
    destruct (z_injection b) as [z|]; [|contradiction].
    assert (X : rd h (b_xi b) = []).
    { destruct S as [(_ & _ & V) _]. cbn [fst snd] in V.
      assert (L : length (rd h (b_xi b)) = 0%nat); [|destruct (rd h (b_xi b)); [reflexivity|discriminate]].
      rewrite (V (b_xi b)); [|unfold footprint; cbn; tauto].
      unfold parts in P. cbn [fst snd] in P. pose proof (particles_length h b) as E. rewrite P in E. symmetry. exact E. }
    rewrite X. reflexivity.
Qed.

(** The bunch of C106_example with one fixed and one automatic step in a focusing field. *)
Example C114_example :
  let c := {| c_tfinal := 2; c_dtb := [Some 1; None]; c_fields := []; c_ndiags := 2; c_push_before := true |} in
  let bunches := [(one_h, one_b); (mirrored_h, one_b)] in
  good_config c (map Some bunches) /\ bounded_below (fun _ : option tracked => 1 # 2) (1 # 3) /\
  only_analytic [Analytic (mkcomp no_field no_field no_field (fun p _ b => b - 5 * snd (fst p))%R
                                  (fun p _ b => b + 5 * fst (fst p))%R no_field)] /\ known "boris" /\
  (forall b, In b bunches -> trackable b) /\ c_push_before c = true /\
  List.Forall (fun b => (2 <= length (parts b))%nat) bunches.
Proof.
  split; [|split; [|split; [|split; [|split; [|split]]]]].
  - repeat split; cbn; try reflexivity.
    + intros d [E|[E|[]]]; [injection E as <-; reflexivity|discriminate].
    + intros d b [].
  - split; [reflexivity|]. intros b. cbn. unfold Qle. cbn. lia.
  - intros f [<-|[]]; eexists; reflexivity.
  - right. reflexivity.
  - destruct C106_example as ((S1 & S2 & _) & _).
    intros b [<-|[<-|[]]]; (split; [assumption|]); right; discriminate.
  - reflexivity.
  - repeat constructor.
Qed.
Print Assumptions C99_whole_simulations.
Print Assumptions C114_analytical_elements.
Print Assumptions C114_analytical_elements_float32.
Print Assumptions C114_conditions.
