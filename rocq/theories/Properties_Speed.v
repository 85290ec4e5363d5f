(** C121: no particle is faster than light. *)
From Coq Require Import QArith Reals Qreals String List Arith Lia Lra.
From Coquelicot Require Import Coquelicot.
From Verif Require Model_Laser.
From Verif Require Import Model_Push Spec_Push Proofs_Push Model_Interp Model_Tracker Spec_Tracker Model_Run Model_RZ
  Model_Bunch Spec_Bunch Model_Sim Spec_Sim Proofs_Sim4 Spec_Circle Spec_Speed Proofs_Speed.
From Verif Require Properties_Sim Properties_Total Properties_Neutral.
Import ListNotations.
Open Scope R_scope.

(** In every simulation - any fields, updated while the bunches are tracked, either pusher, any steps - a particle
    is found, at the end and at every output, within the distance that light covers in the time passed, and nearer
    if that time is not zero: since the start, and since any earlier output. *)
Theorem C121_speed_limit :
  forall to_main to_sub e_ch m_e eps_0 light argsort skin_depth wave_breaking pusher auto_dt m
    fuel c bunches fields s i hb,
  good_config c (map Some bunches) -> bounded_below auto_dt m -> c_push_before c = true ->
  simulate to_main to_sub e_ch m_e eps_0 light argsort skin_depth wave_breaking pusher auto_dt exact
    fuel c bunches fields = Model_Tracker.Done s ->
  nth_error bunches i = Some hb -> sound hb ->
  let t (k : nat) := Q2R (inject_Z (Z.of_nat k) * (c_tfinal c / inject_Z (Z.of_nat (c_ndiags c)))) in
  (exists u, nth_error (bs s) i = Some u /\ forall r, u = Some r -> within_reach (c_SI * Q2R (c_tfinal c)) hb r) /\
  (exists o, nth_error (out s) i = Some o /\ List.length o = S (c_ndiags c) /\
     forall j k, (j <= k <= c_ndiags c)%nat -> exists uj uk, nth_error o j = Some uj /\ nth_error o k = Some uk /\
       forall rk, uk = Some rk -> within_reach (c_SI * t k) hb rk /\
         exists rj, uj = Some rj /\ within_reach (c_SI * (t k - t j)) rj rk).
Proof.
  intros to_main to_sub e_ch m_e eps_0 light argsort skin_depth wave_breaking pusher auto_dt m fuel c bunches fields s i hb Hg Ha Hpb H Hi S t.
  assert (Hi' : nth_error (map Some bunches) i = Some (Some hb)) by (rewrite nth_error_map, Hi; reflexivity).
  destruct (along_pos (option tracked) (option (list efield)) (sim_evolve pusher)
              (sim_update to_main to_sub e_ch m_e eps_0 light argsort skin_depth wave_breaking) auto_dt sim_copy
              (Some (adjust_wakes (Q2R (c_tfinal c)) fields)) (fun a t => went_opt (t - a)) (c_tfinal c) (fun _ => True) Logic.I (fun _ _ _ _ => Logic.I) went_same'
              (fun f t dt a u u' _ Hd _ => went_step' pusher f u u' t dt a Hd) c (map Some bunches) Hg (Qle_refl _) m Ha Hpb fuel s i (Some hb) H Hi')
    as ((r & Er & Kr) & (o & Eo & Lo & Ho)).
  split.
  - exists r. split; [exact Er|]. intros b Eb. rewrite Rminus_0_r in Kr. destruct (Kr b Eb) as (b0 & E & W). injection E as <-. apply went_reach; [exact S|apply W, S].
  - exists o. split; [exact Eo|]. split; [exact Lo|]. intros j k Hjk. destruct (Ho j k Hjk) as (uj & uk & Ej & Ek & Pj & Pk & Pjk). rewrite Rminus_0_r in Pj, Pk.
    exists (sim_copy uj), (sim_copy uk). split; [exact Ej|]. split; [exact Ek|]. intros rk E.
    destruct uk as [bk|]; [|discriminate]. injection E as <-.
    assert (X : forall d a b b', sound b' -> within_reach d a b' -> parts b = parts a -> prop_distance (snd b) = prop_distance (snd a) -> within_reach d b (copy_tracked b')).
    { intros d a b b' Sb K E1 E2. destruct (copy_sound b' Sb) as (_ & P & _ & _). unfold within_reach. rewrite P, E1.
      revert K. unfold within_reach, lab. rewrite E2. destruct b' as [h' b']. cbn. auto. }
    assert (Y : forall b', sound b' -> parts (copy_tracked b') = parts b' /\ prop_distance (snd (copy_tracked b')) = prop_distance (snd b')).
    { intros b' Sb. destruct (copy_sound b' Sb) as (_ & P & _ & _). split; [exact P|]. destruct b' as [h' b']. reflexivity. }
    destruct (Pk bk eq_refl) as (b0 & E & W). injection E as <-. specialize (W S). pose proof (proj1 W) as Sk.
    split; [apply (X _ hb); try reflexivity; [exact Sk|apply went_reach; assumption]|].
    destruct (Pjk bk eq_refl) as (bj & -> & Wj). destruct (Pj bj eq_refl) as (b0 & E & W0). injection E as <-.
    pose proof (proj1 (W0 S)) as Sj. exists (copy_tracked bj). split; [reflexivity|].
    apply (X _ bj); [exact Sk|apply went_reach; [exact Sj|apply Wj, Sj]|apply (Y bj Sj)|apply (Y bj Sj)].
Qed.

(** In the coordinates of the code: in the time t a particle slips back by less than 2ct in the frame that moves
    with c, does not keep up with it, and moves sideways by less than ct. *)
Theorem C121_slippage :
  forall to_main to_sub e_ch m_e eps_0 light argsort skin_depth wave_breaking pusher auto_dt m
    fuel c bunches fields s i hb r n p,
  good_config c (map Some bunches) -> bounded_below auto_dt m -> c_push_before c = true ->
  simulate to_main to_sub e_ch m_e eps_0 light argsort skin_depth wave_breaking pusher auto_dt exact
    fuel c bunches fields = Model_Tracker.Done s ->
  nth_error bunches i = Some hb -> sound hb -> nth_error (bs s) i = Some (Some r) -> nth_error (parts hb) n = Some p ->
  let ct := c_SI * Q2R (c_tfinal c) in
  exists p', nth_error (parts r) n = Some p' /\
    xi p - 2 * ct < xi p' < xi p /\ Rabs (x p' - x p) < ct /\ Rabs (y p' - y p) < ct.
Proof.
  intros to_main to_sub e_ch m_e eps_0 light argsort skin_depth wave_breaking pusher auto_dt m fuel c bunches fields s i hb r n p Hg Ha Hpb H Hi S Er Hp ct.
  destruct (Properties_Total.C99_whole_simulations to_main to_sub e_ch m_e eps_0 light argsort skin_depth wave_breaking pusher auto_dt m fuel c bunches fields s i hb Hg Ha Hpb H Hi S)
    as ((u' & E' & K') & _). rewrite Er in E'. injection E' as <-. destruct (K' r eq_refl) as (_ & _ & _ & _ & _ & D). clear K'.
  destruct (C121_speed_limit to_main to_sub e_ch m_e eps_0 light argsort skin_depth wave_breaking pusher auto_dt m fuel c bunches fields s i hb Hg Ha Hpb H Hi S)
    as ((u & E & K) & _). rewrite Er in E. injection E as <-. specialize (K r eq_refl). fold ct in K, D.
  assert (CT : 0 < ct).
  { apply Rmult_lt_0_compat; [exact c_positive|]. replace 0 with (Q2R 0) by (unfold Q2R; cbn; lra). apply Qlt_Rlt. destruct Hg as (T & _). exact T. }
  unfold within_reach in K. revert n Hp. induction K as [|q q' l l' (_ & _ & AB) K IH]; intros [|n] Hp; try discriminate.
  - injection Hp as ->. exists q'. split; [reflexivity|].
    destruct (AB CT) as [A B]. unfold norm, vsub, lab, vadd3, scal, sq in A. rewrite D in A.
    assert (Z : forall v w, v * v <= w -> sqrt w < ct -> Rabs v < ct).
    { intros v w Hv Hw. rewrite <- sqrt_Rsqr_abs. eapply Rle_lt_trans; [|exact Hw]. apply sqrt_le_1_alt. exact Hv. }
    assert (Q : forall a, 0 <= a * a) by (intros a; apply Rle_0_sqr).
    split; [split; [|exact B]|split].
    + match type of A with sqrt (?a * ?a + ?b * ?b + ?d * ?d) < _ => pose proof (Z d (a * a + b * b + d * d) ltac:(pose proof (Q a); pose proof (Q b); lra) A) as M end.
      apply Rabs_lt_between in M. lra.
    + match type of A with sqrt (?a * ?a + ?b * ?b + ?d * ?d) < _ => pose proof (Z a (a * a + b * b + d * d) ltac:(pose proof (Q b); pose proof (Q d); lra) A) as M end.
      replace (x q' - x p) with (x q' + -1 * x p) by ring. exact M.
    + match type of A with sqrt (?a * ?a + ?b * ?b + ?d * ?d) < _ => pose proof (Z b (a * a + b * b + d * d) ltac:(pose proof (Q a); pose proof (Q d); lra) A) as M end.
      replace (y q' - y p) with (y q' + -1 * y p) by ring. exact M.
  - exact (IH n Hp).
Qed.

(** ** Non-vacuity *)
(** Two particles through a lens, in a run that ends without exception (either pusher). *)
Example ex_speed : forall to_main to_sub e_ch m_e eps_0 light argsort skin_depth wave_breaking pusher,
  pusher = "boris"%string \/ pusher = "rk4"%string ->
  exists fuel s r, simulate to_main to_sub e_ch m_e eps_0 light argsort skin_depth wave_breaking pusher (fun _ => 1%Q) exact
    fuel (Build_config 1 [Some (1 # 3)%Q] [] 2 true) [(Properties_Sim.one_h, Properties_Sim.one_b)] (map Analytic Properties_Neutral.lens) = Model_Tracker.Done s /\
  nth_error (bs s) 0 = Some (Some r) /\ List.length (parts r) = 2%nat /\
  within_reach (c_SI * 1) (Properties_Sim.one_h, Properties_Sim.one_b) r.
Proof.
  intros to_main to_sub e_ch m_e eps_0 light argsort skin_depth wave_breaking pusher Hp.
  set (bb := [(Properties_Sim.one_h, Properties_Sim.one_b)]). set (c := Build_config 1 [Some (1 # 3)%Q] [] 2 true).
  assert (So : sound (Properties_Sim.one_h, Properties_Sim.one_b)) by apply Properties_Sim.C106_example.
  assert (G : good_config c (map Some bb)).
  { split; [reflexivity|]. split; [reflexivity|]. split; [|intros d b []]. intros d [E|[]]; injection E as <-; reflexivity. }
  assert (A : bounded_below (fun _ : option tracked => 1%Q) 1%Q) by (split; [reflexivity|intros b; apply Qle_refl]).
  destruct (Properties_Total.C114_analytical_elements to_main to_sub e_ch m_e eps_0 light argsort skin_depth wave_breaking pusher (fun _ => 1%Q) 1%Q
    c bb (map Analytic Properties_Neutral.lens) G A) as (N & s & [Hn _] & _ & H).
  - cbn. lia.
  - intros f [<-|[]]. eexists. reflexivity.
  - destruct Hp as [-> | ->]; [right | left]; reflexivity.
  - intros b [<-|[]]. split; [exact So|right; discriminate].
  - specialize (H N (le_n N)).
    destruct (C121_speed_limit to_main to_sub e_ch m_e eps_0 light argsort skin_depth wave_breaking pusher (fun _ => 1%Q) 1%Q N c bb _ s 0 _ G A eq_refl H eq_refl So) as ((u & E & K) & _).
    destruct u as [r|]; [|exfalso; apply (Hn None); [eapply nth_error_In; exact E|reflexivity]].
    specialize (K r eq_refl). exists N, s, r. split; [exact H|]. split; [exact E|].
    replace (Q2R (c_tfinal c)) with 1 in K by (unfold c, Q2R; cbn; lra). split; [|exact K].
    unfold within_reach in K. change 2%nat with (List.length (parts (Properties_Sim.one_h, Properties_Sim.one_b))). clear - K. induction K; [reflexivity|cbn [List.length]; congruence].
Qed.

Print Assumptions C121_speed_limit.
Print Assumptions C121_slippage.
