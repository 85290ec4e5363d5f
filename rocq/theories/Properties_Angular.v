(** C120: angular momentum about the axis. *)
From Coq Require Import QArith Reals Qreals String List Arith Lia Lra.
From Coquelicot Require Import Coquelicot.
From Verif Require Model_Laser.
From Verif Require Import Model_Push Spec_Push Proofs_Push Model_Interp Model_QS Model_Tracker Spec_Tracker Model_Run Model_RZ
  Model_Bunch Spec_Bunch Model_Sim Spec_Sim Proofs_Sim4 Proofs_Sim5 Spec_Angular Proofs_Angular Proofs_Angular2.
From Verif Require Spec_Group Properties_Sim Properties_Total Properties_Neutral.
Import ListNotations.
Open Scope R_scope.

(** In every simulation with the Boris pusher - wakefields of plasma, bunches and laser pulses, updated while
    the bunches are tracked, and any axisymmetric analytical fields - every particle keeps its angular momentum
    about the axis, exactly and with steps of any size.  [rnd]: any rounding of the clocks. *)
Theorem C120_angular_momentum :
  forall to_main to_sub e_ch m_e eps_0 light argsort skin_depth wave_breaking auto_dt rnd fuel c bunches fields,
  symmetric_fields fields -> List.Forall sound bunches ->
  throughout (List.length bunches)
    (simulate to_main to_sub e_ch m_e eps_0 light argsort skin_depth wave_breaking "boris" auto_dt rnd fuel c bunches fields)
    (fun i r => exists hb, nth_error bunches i = Some hb /\ map angular (parts r) = map angular (parts hb)).
Proof.
  intros to_main to_sub e_ch m_e eps_0 light argsort skin_depth wave_breaking auto_dt rnd fuel c bunches fields A S.
  apply (run_each to_main to_sub e_ch m_e eps_0 light argsort skin_depth wave_breaking "boris" auto_dt rnd
    (fun i ps => exists hb, nth_error bunches i = Some hb /\ map angular ps = map angular (parts hb))); [exact A| |].
  - intros i fs q m t dt ps ps' Hf H (hb & E & K). exists hb. split; [exact E|]. rewrite <- K.
    clear K. induction H as [|p p' l l' Hp H IH]; [reflexivity|]. cbn [map]. f_equal; [|exact IH].
    exact (boris1_angular fs (q / (m * c_SI)) t dt p p' Hf Hp).
  - intros i hb E. split; [|exists hb; auto]. rewrite List.Forall_forall in S. apply S. eapply nth_error_In, E.
Qed.
Print Assumptions C120_angular_momentum.

(** With either pusher a particle that starts in a plane through the axis, with its momentum in that plane,
    stays in the plane. *)
Theorem C120_plane :
  forall to_main to_sub e_ch m_e eps_0 light argsort skin_depth wave_breaking pusher auto_dt rnd fuel c bunches fields a b,
  symmetric_fields fields -> List.Forall sound bunches -> a <> 0 \/ b <> 0 ->
  throughout (List.length bunches)
    (simulate to_main to_sub e_ch m_e eps_0 light argsort skin_depth wave_breaking pusher auto_dt rnd fuel c bunches fields)
    (fun i r => exists hb, nth_error bunches i = Some hb /\
       Forall2 (fun p p' => in_plane a b p -> in_plane a b p') (parts hb) (parts r)).
Proof.
  intros to_main to_sub e_ch m_e eps_0 light argsort skin_depth wave_breaking pusher auto_dt rnd fuel c bunches fields a b A S H.
  apply (run_each to_main to_sub e_ch m_e eps_0 light argsort skin_depth wave_breaking pusher auto_dt rnd
    (fun i ps => exists hb, nth_error bunches i = Some hb /\ Forall2 (fun p p' => in_plane a b p -> in_plane a b p') (parts hb) ps)); [exact A| |].
  - intros i fs q m t dt ps ps' Hf HF (hb & E & K). exists hb. split; [exact E|]. revert K. generalize (parts hb).
    induction HF as [|p p' l l' Hp HF IH]; intros l0 K; inversion K as [|p0 ? l1 ? K1 K2]; subst; constructor; [|apply IH, K2].
    intros H0. exact (push1_plane pusher fs q m t dt a b p p' H Hf Hp (K1 H0)).
  - intros i hb E. split; [rewrite List.Forall_forall in S; apply S; eapply nth_error_In, E|]. exists hb. split; [exact E|].
    induction (parts hb); constructor; auto.
Qed.
Print Assumptions C120_plane.

(** A particle that flies along the axis stays on it. *)
Theorem C120_axis :
  forall to_main to_sub e_ch m_e eps_0 light argsort skin_depth wave_breaking pusher auto_dt rnd fuel c bunches fields,
  symmetric_fields fields -> List.Forall sound bunches ->
  let on_axis p := x p = 0 /\ y p = 0 /\ px p = 0 /\ py p = 0 in
  throughout (List.length bunches)
    (simulate to_main to_sub e_ch m_e eps_0 light argsort skin_depth wave_breaking pusher auto_dt rnd fuel c bunches fields)
    (fun i r => exists hb, nth_error bunches i = Some hb /\ Forall2 (fun p p' => on_axis p -> on_axis p') (parts hb) (parts r)).
Proof.
  intros to_main to_sub e_ch m_e eps_0 light argsort skin_depth wave_breaking pusher auto_dt rnd fuel c bunches fields A S on_axis.
  apply (run_each to_main to_sub e_ch m_e eps_0 light argsort skin_depth wave_breaking pusher auto_dt rnd
    (fun i ps => exists hb, nth_error bunches i = Some hb /\ Forall2 (fun p p' => on_axis p -> on_axis p') (parts hb) ps)); [exact A| |].
  - intros i fs q m t dt ps ps' Hf HF (hb & E & K). exists hb. split; [exact E|]. revert K. generalize (parts hb).
    induction HF as [|p p' l l' Hp HF IH]; intros l0 K; inversion K as [|p0 ? l1 ? K1 K2]; subst; constructor; [|apply IH, K2].
    intros H0. destruct (K1 H0) as (E1 & E2 & E3 & E4).
    assert (H10 : (1 <> 0 \/ 0 <> 0)%R) by lra. assert (H01 : (0 <> 0 \/ 1 <> 0)%R) by lra.
    destruct (push1_plane pusher fs q m t dt 1 0 p p' H10 Hf Hp) as [F1 F2]; [split; rewrite ?E1, ?E2, ?E3, ?E4; ring|].
    destruct (push1_plane pusher fs q m t dt 0 1 p p' H01 Hf Hp) as [F3 F4]; [split; rewrite ?E1, ?E2, ?E3, ?E4; ring|].
    unfold on_axis. lra.
  - intros i hb E. split; [rewrite List.Forall_forall in S; apply S; eapply nth_error_In, E|]. exists hb. split; [exact E|].
    induction (parts hb); constructor; auto.
Qed.
Print Assumptions C120_axis.

(** The Runge-Kutta pusher does not keep the angular momentum: a particle that leaves a plasma with a sharp end
    (field of the focusing blowout model) loses some of it. *)
Theorem C120_rk4_changes_it : exists density p p',
  axisymmetric (focusing_blowout 1 1 1 density) /\
  (forall a, List.length (Model_Push.r_fld a) = 1%nat -> fst (apply_rk4_pusher c_SI 1 [focusing_blowout 1 1 1 density] 0 1 [p] a) = [p']) /\
  angular p' < angular p.
Proof.
  exists ends, leaving. eexists. split; [apply Properties_Sim.C106_axisymmetric_fields|]. split.
  - intros a Ha. rewrite (rk4_map c_SI 1 _ pull 0 1 [leaving] a pull_gathers); [|cbn; congruence]. cbn [map]. rewrite rk4_leaving. reflexivity.
  - unfold angular, leaving. cbn [x y px py]. pose proof w_less. lra.
Qed.
Print Assumptions C120_rk4_changes_it.

(** ** Non-vacuity *)
(** Two particles with angular momenta 4 and -12 through a lens, in a run that ends without exception; the fields of
    [some_fields] (two wakefields and a lens) are axisymmetric as well. *)
Example ex_angular : forall to_main to_sub e_ch m_e eps_0 light argsort skin_depth wave_breaking,
  symmetric_fields Properties_Sim.some_fields /\
  exists fuel s r, simulate to_main to_sub e_ch m_e eps_0 light argsort skin_depth wave_breaking "boris" (fun _ => 1%Q) exact
    fuel (Build_config 1 [Some (1 # 3)%Q] [] 2 true) [(Properties_Sim.one_h, Properties_Sim.one_b)] (map Analytic Properties_Neutral.lens) = Model_Tracker.Done s /\
  nth_error (bs s) 0 = Some (Some r) /\ map angular (parts r) = [4; -12].
Proof.
  intros. split; [apply Properties_Sim.C106_example|].
  set (bb := [(Properties_Sim.one_h, Properties_Sim.one_b)]). set (c := Build_config 1 [Some (1 # 3)%Q] [] 2 true).
  assert (So : sound (Properties_Sim.one_h, Properties_Sim.one_b)) by apply Properties_Sim.C106_example.
  destruct (Properties_Total.C114_analytical_elements to_main to_sub e_ch m_e eps_0 light argsort skin_depth wave_breaking "boris" (fun _ => 1%Q) 1%Q
    c bb (map Analytic Properties_Neutral.lens)) as (N & s & [Hn _] & _ & H).
  - split; [reflexivity|]. split; [reflexivity|]. split; [|intros d b []]. intros d [E|[]]; injection E as <-; reflexivity.
  - split; [reflexivity|]. intros b. apply Qle_refl.
  - cbn. lia.
  - intros f [<-|[]]. eexists. reflexivity.
  - right. reflexivity.
  - intros b [<-|[]]. split; [exact So|right; discriminate].
  - specialize (H N (le_n N)).
    assert (A : symmetric_fields (map Analytic Properties_Neutral.lens)).
    { intros u [E|[]]. injection E as <-. apply (proj1 Properties_Sim.C106_axisymmetric_fields 5). }
    pose proof (C120_angular_momentum to_main to_sub e_ch m_e eps_0 light argsort skin_depth wave_breaking (fun _ => 1%Q) exact N c bb _ A
      (List.Forall_cons _ So (List.Forall_nil _))) as K. rewrite H in K. destruct K as (K1 & K2 & _).
    destruct (bs s) as [|[r|] [|]] eqn:Eb; try discriminate.
    + destruct (K2 0%nat r eq_refl) as (hb & E & K). injection E as <-. exists N, s, r. split; [exact H|]. rewrite Eb. split; [reflexivity|].
      rewrite K. unfold parts, particles, angular. cbn. f_equal; [ring|f_equal; ring].
    + exfalso. exact (Hn None (or_introl eq_refl) eq_refl).
Qed.
