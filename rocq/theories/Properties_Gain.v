(** C122: particles gain no more than the electric field can give. *)
From Coq Require Import QArith Reals Qreals String List Arith Lia Lra.
From Coquelicot Require Import Coquelicot.
From Verif Require Import Model_Push Spec_Push Proofs_Push Properties_Push Model_Tracker Spec_Tracker Properties_Tracker Model_Bunch Spec_Bunch
  Model_Run Spec_Run Proofs_Run Spec_Circle Proofs_Speed Spec_Gain Proofs_Gain.
From Verif Require Properties_Run.
Import ListNotations.
Open Scope R_scope.

(** Tracking with the Boris pusher through analytical fields, with steps of any size: if the electric field is at
    most E wherever the particles can be, then in the time t the momentum of a particle (in units of mc) and its
    Lorentz factor change by at most |q| E t / (mc).  Magnetic fields of any strength do not enter. *)
Theorem C122_gain_limit :
  forall auto_dt m fields G fuel c bunches s i hb E,
  gathers fields G -> field_limit G hb (Q2R (c_tfinal c)) E ->
  good_config c bunches -> bounded_below auto_dt m -> c_push_before c = true ->
  track "boris" auto_dt exact fields fuel c bunches = Model_Tracker.Done s ->
  nth_error bunches i = Some hb -> ready hb ->
  let limit (t : Q) := Rabs (q_species (snd hb) / (m_species (snd hb) * c_SI)) * E * Q2R t in
  (exists r, nth_error (bs s) i = Some r /\ changed_at_most (limit (c_tfinal c)) hb r) /\
  (exists o, nth_error (out s) i = Some o /\ List.length o = S (c_ndiags c) /\
     forall k, (k <= c_ndiags c)%nat -> exists r, nth_error o k = Some r /\
       changed_at_most (limit (inject_Z (Z.of_nat k) * (c_tfinal c / inject_Z (Z.of_nat (c_ndiags c))))%Q) hb r).
Proof.
  intros auto_dt m fields G fuel c bunches s i hb E HG HE Hg Ha Hpb H Hi Hr limit.
  assert (T0 : (0 <= c_tfinal c)%Q) by (destruct Hg as (T1 & _); apply Qlt_le_weak, T1).
  assert (St : forall f t dt a b b', f = fields -> (0 <= dt)%Q -> (t + dt <= c_tfinal c)%Q -> sofar hb E a (Q2R t) b b' ->
    sofar hb E a (Q2R t + Q2R dt) b (evolve_tracked "boris" f b' t dt)).
  { intros f t dt a b b' ->. apply (sofar_step fields G hb (c_tfinal c) E HG HE T0). }
  destruct (along_pos tracked (list field) (evolve_tracked "boris") no_update auto_dt copy_tracked fields (sofar hb E) (c_tfinal c)
              (fun f => f = fields) eq_refl (fun _ _ _ e => e) (sofar_same hb E Hr) St
              c bunches Hg (Qle_refl _) m Ha Hpb fuel s i hb H Hi) as ((r & Er & Kr) & (o & Eo & Lo & Ho)).
  split.
  - exists r. split; [exact Er|]. apply sofar_changed, Kr.
  - exists o. split; [exact Eo|]. split; [exact Lo|]. intros k Hk. destruct (Ho k k) as (b1 & b & _ & Eb & _ & K & _); [lia|].
    exists (copy_tracked b). split; [exact Eb|]. apply sofar_changed in K as K2. destruct (K eq_refl eq_refl) as (K1 & _).
    pose proof (copy_seen b K1) as Es. apply triple in Es as (E1 & _ & _). unfold changed_at_most. rewrite E1. exact K2.
Qed.

(** The same with the Runge-Kutta pusher, if there is no magnetic field. *)
Theorem C122_gain_limit_rk4 :
  forall auto_dt m fields G fuel c bunches s i hb E,
  gathers fields G -> (forall r t, b_field (G r t) = (0, 0, 0)) -> field_limit G hb (Q2R (c_tfinal c)) E ->
  good_config c bunches -> bounded_below auto_dt m -> c_push_before c = true ->
  track "rk4" auto_dt exact fields fuel c bunches = Model_Tracker.Done s ->
  nth_error bunches i = Some hb -> ready hb ->
  let limit (t : Q) := Rabs (q_species (snd hb) / (m_species (snd hb) * c_SI)) * E * Q2R t in
  (exists r, nth_error (bs s) i = Some r /\ changed_at_most (limit (c_tfinal c)) hb r) /\
  (exists o, nth_error (out s) i = Some o /\ List.length o = S (c_ndiags c) /\
     forall k, (k <= c_ndiags c)%nat -> exists r, nth_error o k = Some r /\
       changed_at_most (limit (inject_Z (Z.of_nat k) * (c_tfinal c / inject_Z (Z.of_nat (c_ndiags c))))%Q) hb r).
Proof.
  intros auto_dt m fields G fuel c bunches s i hb E HG HB HE Hg Ha Hpb H Hi Hr limit.
  assert (T0 : (0 <= c_tfinal c)%Q) by (destruct Hg as (T1 & _); apply Qlt_le_weak, T1).
  assert (St : forall f t dt a b b', f = fields -> (0 <= dt)%Q -> (t + dt <= c_tfinal c)%Q -> sofar hb E a (Q2R t) b b' ->
    sofar hb E a (Q2R t + Q2R dt) b (evolve_tracked "rk4" f b' t dt)).
  { intros f t dt a b b' -> Hd Ht. apply (sofar_step_rk4 fields G hb (c_tfinal c) E HG HE T0); assumption. }
  destruct (along_pos tracked (list field) (evolve_tracked "rk4") no_update auto_dt copy_tracked fields (sofar hb E) (c_tfinal c)
              (fun f => f = fields) eq_refl (fun _ _ _ e => e) (sofar_same hb E Hr) St
              c bunches Hg (Qle_refl _) m Ha Hpb fuel s i hb H Hi) as ((r & Er & Kr) & (o & Eo & Lo & Ho)).
  split.
  - exists r. split; [exact Er|]. apply sofar_changed, Kr.
  - exists o. split; [exact Eo|]. split; [exact Lo|]. intros k Hk. destruct (Ho k k) as (b1 & b & _ & Eb & _ & K & _); [lia|].
    exists (copy_tracked b). split; [exact Eb|]. apply sofar_changed in K as K2. destruct (K eq_refl eq_refl) as (K1 & _).
    pose proof (copy_seen b K1) as Es. apply triple in Es as (E1 & _ & _). unfold changed_at_most. rewrite E1. exact K2.
Qed.

(** The bound is attained: a push along a uniform electric field. *)
Theorem C122_limit_is_attained :
  forall q m fields E t dt l b, gathers fields (fun _ _ => mke 0 0 E 0 0 0) ->
  0 < m -> 0 <= q * E -> 0 <= dt -> List.length l = List.length b ->
  List.Forall (fun p => px p = 0 /\ py p = 0 /\ 0 <= pz p) l ->
  Forall2 (fun p p' => pmod p' - pmod p = Rabs (q / (m * c_SI)) * Rabs E * dt) l (fst (apply_boris_pusher q m fields t dt l b)).
Proof.
  intros q m fields E t dt l b HG Hm HqE Hd Hl HF. pose proof c_positive as C.
  pose proof (C22_boris_electric_kick q m fields _ t dt l b HG (fun _ _ => eq_refl) Hl) as K. revert K HF.
  generalize (fst (apply_boris_pusher q m fields t dt l b)). clear b Hl HG.
  induction l as [|p l IH]; intros [|p' l'] K HF; try discriminate; constructor.
  - inversion HF as [|? ? (Px & Py & Pz) _]; subst. cbn [map] in K. injection K as K1 K2 K3 _.
    assert (A : 0 <= q / (m * c_SI) * dt * E).
    { replace (q / (m * c_SI) * dt * E) with (q * E * (dt * / (m * c_SI))) by (field; lra). apply Rmult_le_pos; [exact HqE|].
      apply Rmult_le_pos; [exact Hd|]. left. apply Rinv_0_lt_compat, Rmult_lt_0_compat; assumption. }
    unfold pmod. rewrite K1, K2, K3, Px, Py.
    replace (0 * 0 + 0 * 0 + pz p * pz p) with (pz p * pz p) by ring. rewrite sqrt_square by exact Pz.
    match goal with |- sqrt ?v - _ = _ => replace v with ((pz p + q / (m * c_SI) * dt * E) * (pz p + q / (m * c_SI) * dt * E)) by ring end.
    rewrite sqrt_square by lra. rewrite <- Rabs_mult.
    replace (Rabs (q / (m * c_SI) * E) * dt) with (Rabs (q / (m * c_SI) * E * dt)) by (rewrite (Rabs_mult _ dt), (Rabs_right dt) by lra; reflexivity).
    rewrite Rabs_right by lra. ring.
  - apply IH; [cbn [map] in K; congruence|]. inversion HF; assumption.
Qed.

(** In an ion column (focusing blowout field) of density up to n, with all particles within the radius R at the
    start: the electric field grows without bound with the radius, but particles cannot get there in time. *)
Theorem C122_ion_column :
  forall e m_e eps0 density n R0 T hb, 0 < e -> 0 < m_e -> 0 < eps0 -> (forall z, 0 <= density z <= n) ->
  (forall p, In p (particles (fst hb) (snd hb)) -> norm (x p, y p, 0) <= R0) ->
  exists G, gathers [focusing_blowout e m_e eps0 density] G /\ (forall r t, b_field (G r t) = (0, 0, 0)) /\
    field_limit G hb T (n * e / (2 * eps0) * (R0 + c_SI * T)).
Proof.
  intros e m_e eps0 density n R0 T hb He Hm Hz Hn HR. pose proof c_positive as C. eexists. split.
  { apply (C56_ion_column e m_e eps0 density He Hm Hz). intros z. apply Hn. }
  split; [intros [[x1 y1] xi1] t; reflexivity|].
  intros p [[x1 y1] xi1] s Hp Hs Hc. unfold can_reach in Hc. cbv zeta.
  set (k := density (s * c_SI + xi1) * e / (2 * eps0)).
  assert (I0 : 0 < e / (2 * eps0)) by (apply Rdiv_lt_0_compat; lra).
  assert (K0 : 0 <= k).
  { unfold k. replace (density (s * c_SI + xi1) * e / (2 * eps0)) with (density (s * c_SI + xi1) * (e / (2 * eps0))) by (field; lra).
    apply Rmult_le_pos; [apply Hn|lra]. }
  assert (K1 : k <= n * e / (2 * eps0)).
  { unfold k. replace (density (s * c_SI + xi1) * e / (2 * eps0)) with (density (s * c_SI + xi1) * (e / (2 * eps0))) by (field; lra).
    replace (n * e / (2 * eps0)) with (n * (e / (2 * eps0))) by (field; lra). apply Rmult_le_compat_r; [lra|apply Hn]. }
  assert (L : norm (x1, y1, 0) <= R0 + c_SI * T).
  { replace (x1, y1, 0) with (vadd3 (x p, y p, 0) (x1 - x p, y1 - y p, 0)) by (unfold vadd3; apply vec_eq; ring).
    eapply Rle_trans; [apply norm_add|]. apply Rplus_le_compat; [apply HR, Hp|].
    apply Rle_trans with (c_SI * s); [|apply Rmult_le_compat_l; lra].
    eapply Rle_trans; [|exact Hc]. unfold norm, sq. apply sqrt_le_1_alt.
    pose proof (Rle_0_sqr (xi1 - xi p + c_SI * s)). unfold Rsqr in *. lra. }
  change (e_field _) with (k * x1, k * y1, 0). replace (k * x1, k * y1, 0) with (scal k (x1, y1, 0)) by (unfold scal; apply vec_eq; ring).
  rewrite norm_scal, Rabs_right by lra. apply Rmult_le_compat; [exact K0|apply sqrt_pos|exact K1|exact L].
Qed.

(** ** Non-vacuity *)
(** Two particles of an ion column, adaptive steps, three outputs: the run ends, and the bound is a number. *)
Example ex_gain : exists fuel s r,
  track "boris" (fun _ => (2 # 5)%Q) exact [focusing_blowout 1 1 1 (fun _ => 1)] fuel Properties_Run.ex_cfg [Properties_Run.ex_bunch] = Model_Tracker.Done s /\
  nth_error (bs s) 0 = Some r /\
  changed_at_most (Rabs (-1 / (1 * c_SI)) * (1 * 1 / (2 * 1) * (2 + c_SI * 1)) * 1) Properties_Run.ex_bunch r.
Proof.
  destruct (C01_tracking_terminates tracked (list field) (evolve_tracked "boris") no_update
    (fun _ => (2 # 5)%Q) copy_tracked Properties_Run.ex_cfg [Properties_Run.ex_bunch] [focusing_blowout 1 1 1 (fun _ => 1)] (2 # 5)%Q Properties_Run.ex_cfg_good)
    as (N & s & H).
  - split; [reflexivity|]. intros b. apply Qle_refl.
  - cbn. lia.
  - specialize (H N (le_n N)).
    assert (One : Q2R (c_tfinal Properties_Run.ex_cfg) = 1) by (unfold Q2R; cbn; lra).
    destruct (C122_ion_column 1 1 1 (fun _ => 1) 1 2 1 Properties_Run.ex_bunch) as (G & HG & _ & HL); try lra.
    + intros z. lra.
    + intros p Hp. unfold norm, sq. rewrite <- (sqrt_square 2) by lra. apply sqrt_le_1_alt.
      cbn in Hp. destruct Hp as [<-|[<-|[]]]; cbn; lra.
    + destruct (C122_gain_limit (fun _ => (2 # 5)%Q) (2 # 5)%Q [focusing_blowout 1 1 1 (fun _ => 1)] G N Properties_Run.ex_cfg [Properties_Run.ex_bunch] s 0
        Properties_Run.ex_bunch (1 * 1 / (2 * 1) * (2 + c_SI * 1)) HG) as ((r & Er & Kr) & _).
      * rewrite One. exact HL.
      * exact Properties_Run.ex_cfg_good.
      * split; [reflexivity|]. intros b. apply Qle_refl.
      * reflexivity.
      * exact H.
      * reflexivity.
      * exact Properties_Run.ex_ready.
      * exists N, s, r. split; [exact H|]. split; [exact Er|]. rewrite One in Kr. exact Kr.
Qed.

Example ex_gain_rk4 : exists fuel s r,
  track "rk4" (fun _ => (2 # 5)%Q) exact [focusing_blowout 1 1 1 (fun _ => 1)] fuel Properties_Run.ex_cfg [Properties_Run.ex_bunch] = Model_Tracker.Done s /\
  nth_error (bs s) 0 = Some r /\
  changed_at_most (Rabs (-1 / (1 * c_SI)) * (1 * 1 / (2 * 1) * (2 + c_SI * 1)) * 1) Properties_Run.ex_bunch r.
Proof.
  destruct (C01_tracking_terminates tracked (list field) (evolve_tracked "rk4") no_update
    (fun _ => (2 # 5)%Q) copy_tracked Properties_Run.ex_cfg [Properties_Run.ex_bunch] [focusing_blowout 1 1 1 (fun _ => 1)] (2 # 5)%Q Properties_Run.ex_cfg_good)
    as (N & s & H).
  - split; [reflexivity|]. intros b. apply Qle_refl.
  - cbn. lia.
  - specialize (H N (le_n N)).
    assert (One : Q2R (c_tfinal Properties_Run.ex_cfg) = 1) by (unfold Q2R; cbn; lra).
    destruct (C122_ion_column 1 1 1 (fun _ => 1) 1 2 1 Properties_Run.ex_bunch) as (G & HG & HB & HL); try lra.
    + intros z. lra.
    + intros p Hp. unfold norm, sq. rewrite <- (sqrt_square 2) by lra. apply sqrt_le_1_alt.
      cbn in Hp. destruct Hp as [<-|[<-|[]]]; cbn; lra.
    + destruct (C122_gain_limit_rk4 (fun _ => (2 # 5)%Q) (2 # 5)%Q [focusing_blowout 1 1 1 (fun _ => 1)] G N Properties_Run.ex_cfg [Properties_Run.ex_bunch] s 0
        Properties_Run.ex_bunch (1 * 1 / (2 * 1) * (2 + c_SI * 1)) HG HB) as ((r & Er & Kr) & _).
      * rewrite One. exact HL.
      * exact Properties_Run.ex_cfg_good.
      * split; [reflexivity|]. intros b. apply Qle_refl.
      * reflexivity.
      * exact H.
      * reflexivity.
      * exact Properties_Run.ex_ready.
      * exists N, s, r. split; [exact H|]. split; [exact Er|]. rewrite One in Kr. exact Kr.
Qed.

Print Assumptions C122_gain_limit.
Print Assumptions C122_gain_limit_rk4.
Print Assumptions C122_limit_is_attained.
Print Assumptions C122_ion_column.
