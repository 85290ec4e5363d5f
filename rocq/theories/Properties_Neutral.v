(** C109: bunches without charge are test particles. *)
From Coq Require Import QArith Reals Qreals String List Arith Lia Lra.
From Coquelicot Require Import Coquelicot.
From Verif Require Import Model_Push Model_Interp Model_Tracker Spec_Tracker Proofs_Tracker Model_Run Spec_Run Model_RZ
  Model_Bunch Spec_Bunch Model_Sim Spec_Sim Spec_Neutral Proofs_Solo Proofs_Skip Proofs_Neutral Properties_Tracker Properties_Sim.
Import ListNotations.
Open Scope R_scope.

(** ** C109 *)
(** Leaving out a bunch without charge changes nothing else: the same fields, the same pushes and
    final states of the other bunches, the same outputs of them, the same times of updates and
    outputs.  [fs s <> None]: no update raised. *)
Theorem C109_test_bunch :
  forall to_main to_sub e_ch m_e eps_0 light argsort skin_depth wave_breaking pusher auto_dt rnd
    fuel c bunches fields i hb s,
  (0 < c_ndiags c)%nat -> length bunches = length (c_dtb c) ->
  nth_error bunches i = Some hb -> sound hb -> neutral hb ->
  simulate to_main to_sub e_ch m_e eps_0 light argsort skin_depth wave_breaking pusher auto_dt rnd
    fuel c bunches fields = Model_Tracker.Done s -> fs s <> None ->
  exists fuel1 s1,
    simulate to_main to_sub e_ch m_e eps_0 light argsort skin_depth wave_breaking pusher auto_dt rnd
      fuel1 (with_steps (without i (c_dtb c)) c) (without i bunches) fields = Model_Tracker.Done s1 /\
    fs s1 = fs s /\ bs s1 = without i (bs s) /\ out s1 = without i (out s) /\
    (forall k, Spec_Tracker.pushes k (log s1) = Spec_Tracker.pushes (if Nat.ltb k i then k else S k) (log s)) /\
    (forall j, field_times j (log s1) = field_times j (log s)) /\ diag_times (log s1) = diag_times (log s).
Proof. exact neutral_run. Qed.

(** So the other bunches and the fields do not depend on which test bunch is tracked with them, with
    which step. *)
Lemma simulate_det to_main to_sub e_ch m_e eps_0 light argsort skin_depth wave_breaking pusher auto_dt rnd
    f1 f2 c bunches fields s1 s2 :
  simulate to_main to_sub e_ch m_e eps_0 light argsort skin_depth wave_breaking pusher auto_dt rnd f1 c bunches fields
    = Model_Tracker.Done s1 ->
  simulate to_main to_sub e_ch m_e eps_0 light argsort skin_depth wave_breaking pusher auto_dt rnd f2 c bunches fields
    = Model_Tracker.Done s2 -> s1 = s2.
Proof.
  unfold simulate, do_tracking. cbv zeta. destruct (c_ndiags c).
  - destruct (map Some bunches); [|discriminate]. destruct (Model_Tracker.loop _ _ _ _ _ _ _ f1 _ _); discriminate.
  - apply loop_det.
Qed.
Theorem C109_any_test_bunch :
  forall to_main to_sub e_ch m_e eps_0 light argsort skin_depth wave_breaking pusher auto_dt rnd
    fuel fuel' c steps bunches bunches' fields i hb hb' s s',
  (0 < c_ndiags c)%nat -> length bunches = length (c_dtb c) -> length bunches' = length steps ->
  without i bunches' = without i bunches -> without i steps = without i (c_dtb c) ->
  nth_error bunches i = Some hb -> sound hb -> neutral hb ->
  nth_error bunches' i = Some hb' -> sound hb' -> neutral hb' ->
  simulate to_main to_sub e_ch m_e eps_0 light argsort skin_depth wave_breaking pusher auto_dt rnd
    fuel c bunches fields = Model_Tracker.Done s -> fs s <> None ->
  simulate to_main to_sub e_ch m_e eps_0 light argsort skin_depth wave_breaking pusher auto_dt rnd
    fuel' (with_steps steps c) bunches' fields = Model_Tracker.Done s' -> fs s' <> None ->
  fs s' = fs s /\ without i (bs s') = without i (bs s) /\ without i (out s') = without i (out s).
Proof.
  intros to_main to_sub e_ch m_e eps_0 light argsort skin_depth wave_breaking pusher auto_dt rnd
    fuel fuel' c steps bunches bunches' fields i hb hb' s s' Hd Hl Hl' Eb Es Hb Hs Hn Hb' Hs' Hn' H Hf H' Hf'.
  destruct (neutral_run _ _ _ _ _ _ _ _ _ _ _ _ _ _ _ _ _ _ _ Hd Hl Hb Hs Hn H Hf) as (g & r & E & F1 & B1 & O1 & _).
  destruct (neutral_run _ _ _ _ _ _ _ _ _ _ _ _ _ (with_steps steps c) _ _ _ _ _ Hd Hl' Hb' Hs' Hn' H' Hf')
    as (g' & r' & E' & F1' & B1' & O1' & _).
  cbn [with_steps c_dtb] in E'. rewrite Eb, Es in E'.
  assert (X : r = r') by (apply (simulate_det _ _ _ _ _ _ _ _ _ _ _ _ _ _ _ _ _ _ _ E E')).
  subst r'. split; [congruence|]. split; congruence.
Qed.

(** Two bunches, the second with weights zero, through a lens. *)
Definition test_h : heap := [[1; 2]; [3; 4]; [5; 6]; [0; 3]; [4; 0]; [0; 4]; [0; 0]].
Definition two_steps : config :=
  {| c_tfinal := 1; c_dtb := [Some (1 # 2); Some (1 # 3)]; c_fields := []; c_ndiags := 2; c_push_before := true |}%Q.
Definition lens : list components :=
  [mkcomp no_field no_field no_field (fun p _ b => b - 5 * snd (fst p)) (fun p _ b => b + 5 * fst (fst p)) no_field].
Example C109_example :
  forall to_main to_sub e_ch m_e eps_0 light argsort skin_depth wave_breaking,
  nth_error [(one_h, one_b); (test_h, one_b)] 1 = Some (test_h, one_b) /\
  sound (test_h, one_b) /\ neutral (test_h, one_b) /\ ~ neutral (one_h, one_b) /\
  exists fuel s, simulate to_main to_sub e_ch m_e eps_0 light argsort skin_depth wave_breaking "boris" (fun _ => 1%Q) exact
    fuel two_steps [(one_h, one_b); (test_h, one_b)] (map Analytic lens) = Model_Tracker.Done s /\ fs s <> None.
Proof.
  intros. split; [reflexivity|].
  assert (So : sound (test_h, one_b)).
  { apply sound_two; try reflexivity; cbn; intros v Hv; repeat (destruct Hv as [<-|Hv]; [reflexivity|]); destruct Hv. }
  split; [exact So|]. split; [|split].
  - intros w [<-|[<-|[]]]; cbn; ring.
  - intros N. specialize (N 1 (or_introl eq_refl)). cbn in N. lra.
  - set (bb := [(one_h, one_b); (test_h, one_b)]).
    destruct (C01_tracking_terminates _ _ (sim_evolve "boris")
      (sim_update to_main to_sub e_ch m_e eps_0 light argsort skin_depth wave_breaking) (fun _ => 1%Q) sim_copy
      two_steps (map Some bb) (Some (adjust_wakes (Q2R (c_tfinal two_steps)) (map Analytic lens))) 1%Q) as (N & s & H).
    + split; [reflexivity|]. split; [reflexivity|]. split; [|intros d b []].
      intros d [E|[E|[]]]; injection E as <-; reflexivity.
    + split; [reflexivity|]. intros b. apply Qle_refl.
    + cbn. lia.
    + exists N, s. specialize (H N (le_n _)). split; [exact H|].
      pose proof (C108_analytical_only to_main to_sub e_ch m_e eps_0 light argsort skin_depth wave_breaking "boris"
        (fun _ => 1%Q) exact lens N two_steps bb (or_intror eq_refl)) as A.
      assert (T : List.Forall trackable bb).
      { constructor; [|constructor; [|constructor]]; (split; [first [apply C106_example|exact So]|right; discriminate]). }
      specialize (A T).
      change (simulate to_main to_sub e_ch m_e eps_0 light argsort skin_depth wave_breaking "boris" (fun _ => 1%Q) exact
        N two_steps bb (map Analytic lens) = Model_Tracker.Done s) in H. rewrite H in A.
      destruct (track _ _ _ _ _ _ _); cbn in A; try contradiction. destruct A as (_ & (E & _) & _). rewrite E. discriminate.
Qed.

Print Assumptions C109_test_bunch.
Print Assumptions C109_any_test_bunch.
