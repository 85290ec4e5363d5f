(** C106-C108: whole simulations with wakefields. *)
From Coq Require Import QArith Reals Qreals String List Arith Lia Lra Permutation.
From Coquelicot Require Import Coquelicot.
From Verif Require Model_Laser Model_Stage.
From Verif Require Import Model_Push Spec_Push Proofs_Push Model_Interp Model_QS Model_Tracker Model_Run Model_RZ
  Model_Bunch Spec_Bunch Model_Sim Spec_Sim Proofs_Sim5 Proofs_Sim6 Proofs_Sim7.
Import ListNotations.
Open Scope R_scope.

(** ** C106 *)
(** Turning or mirroring all bunches about the axis turns all bunches and outputs of the run and
    leaves the fields, the clocks and the sequence of events as they are.  [auto_dt]: any rule
    for the step that does not tell turned bunches apart. *)
Theorem C106_turned_run :
  forall to_main to_sub e_ch m_e eps_0 light argsort skin_depth wave_breaking pusher auto_dt rnd
    M fuel c bunches bunches' fields,
  orthogonal M -> symmetric_fields fields ->
  (forall u u', turned M u u' -> auto_dt (Some u) = auto_dt (Some u')) ->
  Forall2 (turned M) bunches bunches' ->
  same_run eq (both (turned M))
    (simulate to_main to_sub e_ch m_e eps_0 light argsort skin_depth wave_breaking pusher auto_dt rnd
       fuel c bunches fields)
    (simulate to_main to_sub e_ch m_e eps_0 light argsort skin_depth wave_breaking pusher auto_dt rnd
       fuel c bunches' fields).
Proof.
  intros to_main to_sub e_ch m_e eps_0 light argsort skin_depth wave_breaking pusher auto_dt rnd M fuel c l l' fields H A Ha Hl.
  exact (run_turned to_main to_sub e_ch m_e eps_0 light argsort skin_depth wave_breaking pusher auto_dt rnd M fuel c l l' fields H A Ha Hl).
Qed.
(** Rotations by any angle and the mirror are such maps. *)
Theorem C106_rotations : (forall angle, orthogonal (rotation angle)) /\ orthogonal reflection.
Proof.
  split; [|unfold orthogonal, reflection; cbn; lra]. intros a. unfold orthogonal, rotation. cbn [m11 m12 m21 m22].
  pose proof (sin2_cos2 a) as H. unfold Rsqr in H. repeat split; lra.
Qed.
(** The analytical fields of the library other than the quadrupole are axisymmetric. *)
Lemma axisymmetric_from f c : f = analytical c ->
  (forall M p t v, orthogonal M ->
     mke (c_ex c (turn_pos M p) t (ex (turn_em M v))) (c_ey c (turn_pos M p) t (ey (turn_em M v)))
         (c_ez c (turn_pos M p) t (ez (turn_em M v))) (c_bx c (turn_pos M p) t (bx (turn_em M v)))
         (c_by c (turn_pos M p) t (by_ (turn_em M v))) (c_bz c (turn_pos M p) t (bz (turn_em M v))) =
     turn_em M (mke (c_ex c p t (ex v)) (c_ey c p t (ey v)) (c_ez c p t (ez v))
                    (c_bx c p t (bx v)) (c_by c p t (by_ v)) (c_bz c p t (bz v)))) -> axisymmetric f.
Proof.
  intros -> H M ps t b HM _. unfold analytical. revert b. induction ps as [|p ps IH]; intros [|v b]; try reflexivity.
  cbn [map map2]. rewrite IH, H by exact HM. reflexivity.
Qed.
Theorem C106_axisymmetric_fields :
  (forall k, axisymmetric (linear_b_theta k)) /\ (forall k, axisymmetric (apl_field k)) /\
  (forall e m_e eps0 density, axisymmetric (focusing_blowout e m_e eps0 density)) /\
  (forall density vg a b c d, axisymmetric (custom_blowout density vg a b c d)) /\
  (forall e m_e density w_p vg l_c off, axisymmetric (simple_blowout e m_e density w_p vg l_c off)).
Proof.
  assert (L : forall k, axisymmetric (linear_b_theta k)).
  { intros k. eapply axisymmetric_from; [reflexivity|]. intros M [[x0 y0] z0] t v HM.
    turning HM; apply em_eq; unfold turn_em, turn_pos, no_field; rewrite ?HD; cbn; ring. }
  split; [exact L|]. split; [intros k; apply L|].
  split; [|split].
  all: intros; eapply axisymmetric_from; [reflexivity|]; intros M [[x0 y0] z0] t v HM.
  all: apply em_eq; unfold turn_em, turn_pos, no_field; cbn [c_ex c_ey c_ez c_bx c_by c_bz ex ey ez bx by_ bz fst snd]; ring.
Qed.
(** A quadrupole is not. *)
Theorem C106_quadrupole_refuted : forall g, g <> 0 -> ~ axisymmetric (quadrupole_field g).
Proof.
  intros g Hg H. specialize (H (rotation (PI / 2)) [(1, 0, 0)] 0 [em0] (proj1 C106_rotations (PI / 2)) eq_refl).
  unfold rotation in H. rewrite cos_PI2, sin_PI2 in H. cbn in H. injection H as H1 H2. clear H2. unfold det in H1. cbn in H1.
  apply Hg. lra.
Qed.
(** The automatic steps of plasma stages, lenses and quadrupoles do not tell turned bunches apart. *)
Theorem C106_automatic_steps : forall M u u', turned M u u' ->
  forall m_e e eps0 c length density g,
  Model_Stage.stage_dt e m_e c eps0 length density (q_species (snd u)) (m_species (snd u)) (map pz (parts u)) =
  Model_Stage.stage_dt e m_e c eps0 length density (q_species (snd u')) (m_species (snd u')) (map pz (parts u')) /\
  Model_Stage.linear_dt c g (q_species (snd u)) (m_species (snd u)) (map pz (parts u)) =
  Model_Stage.linear_dt c g (q_species (snd u')) (m_species (snd u')) (map pz (parts u')).
Proof.
  intros M u u' (_ & _ & At & P & _) m_e e eps0 c len density g.
  destruct At as (_ & _ & _ & _ & _ & _ & _ & Eq & Em). rewrite <- Eq, <- Em, P, map_map. split; reflexivity.
Qed.
(** Two particles, weights 1 and 3, and the same mirrored. *)
Definition one_h : heap := [[1; 2]; [3; 4]; [5; 6]; [0; 3]; [4; 0]; [0; 4]; [1; 3]].
Definition mirrored_h : heap := [[1; 2]; [-3; -4]; [5; 6]; [0; 3]; [-4; 0]; [0; 4]; [1; 3]].
Definition one_b : bunch :=
  mkb 0%nat 1%nat 2%nat 3%nat 4%nat 5%nat 6%nat None 7 0 (Some 20) 0 0 "b" (-1) 1 None None.
Definition grid_box : box := mkbox (fun _ => Some 1) 1 0 1 3 3 None true 1 None None false "cold_fluid_1d".
Definition some_fields : list efield :=
  [Wake (fun _ _ => RtoC 0) (ColdFluid "linear" true) (new_wake grid_box None);
   Analytic (mkcomp no_field no_field no_field (fun p _ b => b - 5 * snd (fst p)) (fun p _ b => b + 5 * fst (fst p)) no_field);
   Wake (fun _ _ => RtoC 0) (Baxevanis (mkqs 2 None (fun _ => 0) "linear" 10 "ab5")) (new_wake grid_box None)].
Lemma sound_two (h : heap) (b : bunch) : footprint b = [0; 1; 2; 3; 4; 5; 6]%nat -> length h = 7%nat ->
  (forall v, In v h -> length v = 2%nat) -> b_fld b = None -> b_rk b = None -> sound (h, b).
Proof.
  intros F L A N1 N2.
  assert (G : forall a, In a (footprint b) -> (a < length h)%nat /\ length (rd h a) = 2%nat).
  { intros a Ha. assert (X : (a < length h)%nat) by (rewrite L; rewrite F in Ha; cbn in Ha; lia).
    split; [exact X|]. apply A, nth_In, X. }
  split; cbn [fst snd].
  - split; [rewrite F; repeat constructor; cbn; lia|]. split; [intros a Ha; apply G, Ha|].
    intros a Ha. rewrite (proj2 (G a Ha)). symmetry. apply G. left. reflexivity.
  - split; [intros f E; congruence|intros p q r E; congruence].
Qed.
Example C106_example :
  turned reflection (one_h, one_b) (mirrored_h, one_b) /\ symmetric_fields some_fields /\
  parts (mirrored_h, one_b) <> parts (one_h, one_b).
Proof.
  split; [|split].
  - split; [|split].
    1, 2: apply sound_two; try reflexivity; cbn; intros v Hv; repeat (destruct Hv as [<-|Hv]; [reflexivity|]); destruct Hv.
    split; [repeat split|]. split; [|reflexivity].
    unfold parts, particles, turn, reflection. cbn. repeat f_equal; lra.
  - intros c [E|[E|[E|[]]]]; try discriminate. injection E as <-. apply (proj1 C106_axisymmetric_fields 5).
  - unfold parts, particles. cbn. intros E. injection E. intros. lra.
Qed.

(** ** C107 *)
(** A run depends on the distributions that the macroparticles represent, not on the macroparticles:
    if every bunch is replaced by one with the same distribution, all bunches and outputs of the run
    have the same distributions, with the same fields, clocks and events. *)
Theorem C107_same_distribution_same_run :
  forall to_main to_sub e_ch m_e eps_0 light argsort skin_depth wave_breaking pusher auto_dt rnd
    fuel c bunches bunches' fields,
  (forall u u', same_distribution u u' -> auto_dt (Some u) = auto_dt (Some u')) ->
  Forall2 same_distribution bunches bunches' ->
  same_run eq (both same_distribution)
    (simulate to_main to_sub e_ch m_e eps_0 light argsort skin_depth wave_breaking pusher auto_dt rnd
       fuel c bunches fields)
    (simulate to_main to_sub e_ch m_e eps_0 light argsort skin_depth wave_breaking pusher auto_dt rnd
       fuel c bunches' fields).
Proof.
  intros to_main to_sub e_ch m_e eps_0 light argsort skin_depth wave_breaking pusher auto_dt rnd fuel c l l' fields Ha Hl.
  exact (run_distribution to_main to_sub e_ch m_e eps_0 light argsort skin_depth wave_breaking pusher auto_dt rnd fuel c l l' fields Ha Hl).
Qed.
(** Reordering the macroparticles, with their weights, does not change the distribution. *)
Theorem C107_reordering : forall u u', sound u -> sound u' -> same_attributes (snd u) (snd u') ->
  Permutation (combine (parts u) (weights u)) (combine (parts u') (weights u')) -> same_distribution u u'.
Proof. exact reordered. Qed.
(** Nor does replacing a macroparticle by several at the same place with the same total weight. *)
Theorem C107_splitting : forall u u' l1 p l2 w1 v w2 vs, sound u -> sound u' ->
  same_attributes (snd u) (snd u') -> length l1 = length w1 -> vs <> [] -> fold_right Rplus 0 vs = v ->
  parts u = l1 ++ p :: l2 -> weights u = w1 ++ v :: w2 ->
  parts u' = l1 ++ repeat p (length vs) ++ l2 -> weights u' = w1 ++ vs ++ w2 ->
  same_distribution u u'.
Proof. exact split_particle. Qed.
(** The automatic steps depend on the distribution only. *)
Lemma list_min_spec l : l <> [] -> In (Model_Stage.list_min l) l /\ forall v, In v l -> Model_Stage.list_min l <= v.
Proof.
  destruct l as [|a l]; [congruence|intros _]. cbn [Model_Stage.list_min].
  assert (G : forall l a, (fold_left Rmin l a = a \/ In (fold_left Rmin l a) l) /\ fold_left Rmin l a <= a /\
            forall v, In v l -> fold_left Rmin l a <= v).
  { clear. induction l as [|b l IH]; intros a; cbn; [repeat split; [left; reflexivity|lra|intros v []]|].
    destruct (IH (Rmin a b)) as (I1 & I2 & I3). pose proof (Rmin_l a b). pose proof (Rmin_r a b).
    split; [|split; [lra|intros v [<-|Hv]; [lra|apply I3, Hv]]].
    destruct I1 as [I1|I1]; [|right; right; exact I1]. rewrite I1. unfold Rmin. destruct (Rle_dec a b); auto. }
  destruct (G l a) as (G1 & G2 & G3). split; [destruct G1 as [->|G1]; [left; reflexivity|right; exact G1]|].
  intros v [<-|Hv]; [exact G2|apply G3, Hv].
Qed.
Theorem C107_automatic_steps : forall u u', same_distribution u u' ->
  forall m_e e eps0 c length density g,
  Model_Stage.stage_dt e m_e c eps0 length density (q_species (snd u)) (m_species (snd u)) (map pz (parts u)) =
  Model_Stage.stage_dt e m_e c eps0 length density (q_species (snd u')) (m_species (snd u')) (map pz (parts u')) /\
  Model_Stage.linear_dt c g (q_species (snd u)) (m_species (snd u)) (map pz (parts u)) =
  Model_Stage.linear_dt c g (q_species (snd u')) (m_species (snd u')) (map pz (parts u')).
Proof.
  intros u u' (_ & _ & At & P & _) m_e e eps0 c len density g.
  destruct At as (_ & _ & _ & _ & _ & _ & _ & Eq & Em). rewrite <- Eq, <- Em.
  assert (X : Model_Stage.min_gamma (map pz (parts u)) = Model_Stage.min_gamma (map pz (parts u'))).
  { unfold Model_Stage.min_gamma. f_equal. f_equal. f_equal.
    pose proof (map_support pz _ _ P) as S.
    destruct (map pz (parts u)) as [|a l] eqn:E1, (map pz (parts u')) as [|a' l'] eqn:E2; [reflexivity| | |].
    - exfalso. apply (S a'). left. reflexivity.
    - exfalso. apply (S a). left. reflexivity.
    - destruct (list_min_spec (a :: l) ltac:(discriminate)) as [I1 L1].
      destruct (list_min_spec (a' :: l') ltac:(discriminate)) as [I2 L2].
      apply Rle_antisym; [apply L1, S, I2|apply L2, S, I1]. }
  unfold Model_Stage.stage_dt, Model_Stage.linear_dt. rewrite X. split; reflexivity.
Qed.
(** The second particle split into two of weights 1 and 2, and the order reversed. *)
Definition split_h : heap := [[2; 2; 1]; [4; 4; 3]; [6; 6; 5]; [3; 3; 0]; [0; 0; 4]; [4; 4; 0]; [2; 1; 1]].
Example C107_example : same_distribution (one_h, one_b) (split_h, one_b).
Proof.
  assert (S3 : sound (split_h, one_b)).
  { assert (G : forall a, In a (footprint one_b) -> (a < 7)%nat /\ length (rd split_h a) = 3%nat).
    { intros a Ha. cbn in Ha. repeat (destruct Ha as [<-|Ha]; [split; [lia|reflexivity]|]). destruct Ha. }
    split; cbn [fst snd].
    - split; [cbn; repeat constructor; cbn; lia|]. split; [intros a Ha; apply G, Ha|].
      intros a Ha. rewrite (proj2 (G a Ha)). reflexivity.
    - split; [intros f E; discriminate|intros p q r E; discriminate]. }
  split; [apply C106_example|]. split; [exact S3|]. split; [repeat split|]. unfold parts, weights, particles. cbn. split.
  - intros p. tauto.
  - intros g. unfold weighted. cbn. ring.
Qed.

(** ** C108 *)
(** A particle feels the sum of the fields that it would feel from each field alone; gathering fails
    exactly when it would fail for one of them alone. *)
Theorem C108_superposition : forall fields ps t b,
  (forall c, In (Analytic c) fields -> additive c) -> length ps = length b ->
  match gather_all fields ps t b with
  | Ok v => length v = length ps /\ exists each : efield -> list em,
      (forall e, In e fields -> alone e ps t = Ok (each e)) /\
      forall i, (i < length ps)%nat -> nth i v em0 = fold_right em_add em0 (map (fun e => nth i (each e) em0) fields)
  | Fault _ => exists e k, In e fields /\ alone e ps t = Fault k
  end.
Proof.
  intros fields ps t b A L. pose proof (superposition fields ps t b A L) as H.
  destruct (gather_all fields ps t b); cbn in H.
  - destruct H as (H & each & H1 & H2). split; [exact H|]. exists each. split; [|exact H2].
    intros e He. rewrite <- (alone_gather e ps t b L). apply H1, He.
  - destruct H as (e & k & H1 & H2). exists e, k. split; [exact H1|]. rewrite <- (alone_gather e ps t b L). exact H2.
Qed.
(** A push in a simulation is the push of the bunch (C14-C24) in the field gathered from the fields of
    the element. *)
Theorem C108_push : forall pusher fields h b t dt r,
  push_bunch pusher fields (h, b) t dt = Some r ->
  Model_Bunch.evolve h b [frozen fields] t dt pusher = Model_Bunch.Done r.
Proof. intros pusher fields h b t dt r. apply push_agrees, agrees_frozen. Qed.
(** It raises only for an unknown pusher, for a bunch without particles that waits for its injection,
    or where gathering the fields raises. *)
Theorem C108_push_raises : forall pusher fields h b t dt,
  push_bunch pusher fields (h, b) t dt = None ->
  ~ known pusher \/ (z_injection b <> None /\ rd h (b_xi b) = []) \/
  exists ps t' f k, gather_all fields ps t' f = Fault k.
Proof. exact push_raises. Qed.
(** An update of the j-th field on a grid changes this field only; it is the update of C90 with the
    positions and charges of all bunches, solved by the model of this field. *)
Theorem C108_update : forall to_main to_sub e_ch m_e eps_0 light argsort skin_depth wave_breaking j fields bunches,
  let upd env pl o := Model_RZ.update env to_main to_sub e_ch m_e eps_0
      (match pl with
       | ColdFluid p_shape beam => fluid_solve skin_depth wave_breaking e_ch light p_shape beam
       | Baxevanis q => qs_solve argsort skin_depth wave_breaking e_ch light q
       end) o (map carried bunches) in
  match sim_update to_main to_sub e_ch m_e eps_0 light argsort skin_depth wave_breaking j (Some fields) (map Some bunches) with
  | Some fields' => length fields' = length fields /\ forall i,
      nth_error fields' i =
      match nth_error fields i with
      | Some (Wake env pl o) => if Nat.eqb (wakes_before i fields) j then option_map (Wake env pl) (upd env pl o)
                                else Some (Wake env pl o)
      | e => e
      end
  | None => exists i env pl o, nth_error fields i = Some (Wake env pl o) /\ wakes_before i fields = j /\ upd env pl o = None
  end.
Proof.
  intros to_main to_sub e_ch m_e eps_0 light argsort skin_depth wave_breaking j fields bunches upd.
  change upd with (fun env pl o => Model_RZ.update env to_main to_sub e_ch m_e eps_0
      (solve_of e_ch light argsort skin_depth wave_breaking pl) o (map charges_of bunches)). clear upd. cbv beta.
  unfold sim_update. rewrite all_some_map.
  destruct (update_wake _ _ _ _ _ _ _ _ _ j fields _) as [fields'|] eqn:E.
  - apply (update_one _ _ _ _ _ _ _ _ _ _ _ _ _ E).
  - apply (update_none _ _ _ _ _ _ _ _ _ _ _ _ E).
Qed.
(** Before the run the step of each of them is adjusted to the duration of the run. *)
Theorem C108_adjusted : forall T fields, length (adjust_wakes T fields) = length fields /\ forall i,
  nth_error (adjust_wakes T fields) i =
  match nth_error fields i with
  | Some (Wake env pl o) => Some (Wake env pl (Model_RZ.adjust_dt T o))
  | e => e
  end.
Proof. exact adjust_nth. Qed.
(** The run with the adjusted steps is the same run. *)
Theorem C108_adjusted_run :
  forall to_main to_sub e_ch m_e eps_0 light argsort skin_depth wave_breaking pusher auto_dt rnd fuel c bunches fields,
  0 < Q2R (c_tfinal c) -> (forall env pl o, In (Wake env pl o) fields -> 0 < o_dt o) ->
  let run := simulate to_main to_sub e_ch m_e eps_0 light argsort skin_depth wave_breaking pusher auto_dt rnd fuel c bunches in
  run fields = run (adjust_wakes (Q2R (c_tfinal c)) fields).
Proof. intros. unfold run, simulate. rewrite adjust_wakes_twice by assumption. reflexivity. Qed.
(** With analytical fields only, the simulation is the tracking of C97-C101; no exception is raised. *)
Theorem C108_analytical_only :
  forall to_main to_sub e_ch m_e eps_0 light argsort skin_depth wave_breaking pusher auto_dt rnd cs fuel c bunches,
  known pusher -> List.Forall trackable bunches ->
  same_run (fun f g => f = Some (map Analytic cs) /\ g = map analytical cs) (fun a b => a = Some b)
    (simulate to_main to_sub e_ch m_e eps_0 light argsort skin_depth wave_breaking pusher auto_dt rnd
       fuel c bunches (map Analytic cs))
    (track pusher (fun b => auto_dt (Some b)) rnd (map analytical cs) fuel c bunches).
Proof.
  intros to_main to_sub e_ch m_e eps_0 light argsort skin_depth wave_breaking pusher auto_dt rnd cs fuel c bunches K Hb.
  exact (run_analytic to_main to_sub e_ch m_e eps_0 light argsort skin_depth wave_breaking pusher auto_dt rnd cs fuel c bunches K Hb).
Qed.
Example C108_example : trackable (one_h, one_b) /\ (forall c, In (Analytic c) some_fields -> additive c) /\
  wakes_before 2 some_fields = 1%nat.
Proof.
  split; [|split].
  - split; [apply C106_example|]. right. discriminate.
  - intros c [E|[E|[E|[]]]]; try discriminate. injection E as <-. intros p t v. cbn. unfold no_field. repeat split; ring.
  - reflexivity.
Qed.

Print Assumptions C106_turned_run.
Print Assumptions C106_rotations.
Print Assumptions C106_axisymmetric_fields.
Print Assumptions C106_quadrupole_refuted.
Print Assumptions C106_automatic_steps.
Print Assumptions C107_same_distribution_same_run.
Print Assumptions C107_reordering.
Print Assumptions C107_splitting.
Print Assumptions C107_automatic_steps.
Print Assumptions C108_superposition.
Print Assumptions C108_push.
Print Assumptions C108_push_raises.
Print Assumptions C108_update.
Print Assumptions C108_adjusted.
Print Assumptions C108_adjusted_run.
Print Assumptions C108_analytical_only.
