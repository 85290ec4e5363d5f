(** A bunch without charge does not change the wakefields. *)
From Coq Require Import QArith Reals Qreals ZArith String List Bool Lia Lra FunctionalExtensionality.
From Coquelicot Require Import Coquelicot.
From Verif Require Import Model_Push Model_Interp Model_Deposit Model_QS Model_Fluid Model_Tracker Model_Run Model_RZ
  Model_Bunch Spec_Bunch Model_Sim Spec_Sim Spec_Run Spec_Tracker Proofs_Sim2 Proofs_Sim4 Proofs_Sim5 Spec_Neutral Proofs_Skip.
Import ListNotations.
Open Scope R_scope.

(** ** Deposition *)
Definition no_charge (l : charges) : Prop := forall pw, In pw l -> snd pw = 0.
Lemma qsum_no_charge l g : no_charge l -> qsum l g = 0.
Proof.
  unfold qsum. induction l as [|pw l IH]; intros H; [reflexivity|]. cbn [map fold_right].
  rewrite IH by (intros u Hu; apply H; right; exact Hu). rewrite (H pw) by (left; reflexivity). ring.
Qed.
Lemma deposit_none g s ry l a b : no_charge l ->
  deposit_3d_distribution g s ry l a = Returned (Ok b) -> b = a.
Proof.
  intros Hl.
  assert (G : forall body, (forall rc zc, lin (body rc zc)) -> forall b, deposit_loop body g l a = Ok b -> b = a).
  { intros body Hb b0.
    assert (H0 : forall r2 z w a, at_point body g r2 z w a =
       if fine (at_point body g r2 z) (rows a) (cols a)
       then Ok (mka (rows a) (cols a) (fun k l => cell a k l + w * pattern (at_point body g r2 z) (rows a) (cols a) k l))
       else Fault OutOfBounds) by (intros r2 z w a0; apply lin_canonical, lin_point, Hb).
    pose (o := fun r2 z => fine (at_point body g r2 z)). pose (S0 := fun r2 z => pattern (at_point body g r2 z)).
    rewrite (foldM_points body g l a Hb o S0 H0). destruct (forallb _ _); [|discriminate].
    intros E. injection E as <-. transitivity (mka (rows a) (cols a) (cell a)); [|apply arr2_eta]. f_equal.
    extensionality k. extensionality j. rewrite qsum_no_charge by exact Hl. ring. }
  unfold deposit_3d_distribution.
  destruct (String.eqb s "linear"); [intros E; injection E as E; revert E; apply G; intros; apply lin_linear|].
  destruct (String.eqb s "cubic"); [intros E; injection E as E; revert E; apply G; intros; apply lin_cubic|discriminate].
Qed.
Lemma no_charge_map (f : pos * R -> pos * R) c l : (forall pw, snd (f pw) = c * snd pw) -> no_charge l -> no_charge (map f l).
Proof. intros Hf H pw Hp. apply in_map_iff in Hp as (u & <- & Hu). rewrite Hf, (H u Hu). ring. Qed.
Lemma cumsum_zero n : cumsum (fun _ => 0) n = 0.
Proof. induction n as [|n IH]; cbn; [ring|]. rewrite IH. ring. Qed.

Section Solvers.
  Variables (argsort : list R -> list nat) (skin_depth wave_breaking : R -> R) (charge_e light : R).
  Lemma beam_source_none n_p g s l b b' : no_charge l ->
    calculate_beam_source skin_depth charge_e n_p g s l b = Returned (Ok b') -> b' = b.
  Proof.
    intros Hl. unfold calculate_beam_source. cbv zeta.
    destruct (deposit_3d_distribution _ _ _ _ _) as [[v|f]|] eqn:E; cbn [cbind]; try discriminate.
    apply deposit_none in E.
    - subst v. intros E. injection E as <-. unfold plus2d. transitivity (mka (rows b) (cols b) (cell b)); [|apply arr2_eta]. f_equal.
      extensionality i. extensionality j. unfold inner_part. cbn [cell].
      destruct (andb _ _); [|ring]. unfold beam_integral, zeros2. cbn [cell]. rewrite cumsum_zero.
      destruct (Z.eqb _ _); unfold Rdiv; ring.
    - apply (no_charge_map _ (/ charge_e * / (2 * PI * dg_dr g * dg_dz g * skin_depth (n_p / 1e6) ^ 3 * n_p))); [|exact Hl].
      intros [[[x0 y0] z0] q]. cbn [snd]. unfold Rdiv. ring.
  Qed.
  Lemma beam_sources_none n_p g s i ch : no_charge ch -> forall l b b', nth_error l i = Some ch ->
    beam_sources skin_depth charge_e n_p g s l b = Returned (Ok b') ->
    beam_sources skin_depth charge_e n_p g s (without i l) b = Returned (Ok b').
  Proof.
    intros Hc. induction i as [|i IH]; intros [|u l] b b' Hn; try discriminate; cbn in Hn.
    - injection Hn as ->. rewrite without_0. cbn [beam_sources].
      destruct (calculate_beam_source _ _ _ _ _ _ _) as [[v|f]|] eqn:E; cbn [cbind]; try discriminate.
      apply beam_source_none in E; [|exact Hc]. subst v. auto.
    - rewrite without_cons. cbn [beam_sources].
      destruct (calculate_beam_source _ _ _ _ _ _ _) as [[v|f]|]; cbn [cbind]; try discriminate. apply IH, Hn.
  Qed.
  Lemma deposit_bunches_none W i ch : no_charge ch -> forall l a a', nth_error l i = Some ch ->
    deposit_bunches skin_depth charge_e W l a = Returned (Ok a') ->
    deposit_bunches skin_depth charge_e W (without i l) a = Returned (Ok a').
  Proof.
    intros Hc. induction i as [|i IH]; intros [|u l] b b' Hn; try discriminate; cbn in Hn.
    - injection Hn as ->. rewrite without_0. cbn [deposit_bunches].
      destruct (deposit_3d_distribution _ _ _ _ _) as [[v|f]|] eqn:E; cbn [cbind]; try discriminate.
      apply deposit_none in E; [subst v; auto|].
      apply (no_charge_map _ (/ charge_e)); [|exact Hc]. intros [[[x0 y0] z0] q]. cbn. unfold Rdiv. ring.
    - rewrite without_cons. cbn [deposit_bunches].
      destruct (deposit_3d_distribution _ _ _ _ _) as [[v|f]|]; cbn [cbind]; try discriminate. apply IH, Hn.
  Qed.
  Lemma solve_none pl x n z li i ch l f : no_charge ch -> nth_error l i = Some ch ->
    solve_of charge_e light argsort skin_depth wave_breaking pl x n z li l = Returned (Ok f) ->
    solve_of charge_e light argsort skin_depth wave_breaking pl x n z li (without i l) = Returned (Ok f).
  Proof.
    intros Hc Hn. destruct pl as [s beam|q]; cbn [solve_of].
    - unfold fluid_solve. destruct (match li with Some (a, _) => Model_RZ.fits x a | None => true end); [|discriminate].
      unfold fluid_wakefield.
      destruct (deposit_bunches _ _ _ l _) as [[v|k]|] eqn:E; cbn [cbind]; try discriminate.
      rewrite (deposit_bunches_none _ i ch Hc l _ v Hn E). cbn [cbind]. auto.
    - unfold qs_solve. destruct (match li with Some (a, _) => Model_RZ.fits x a | None => true end); [|discriminate].
      unfold calculate_wakefields. cbv zeta.
      destruct (beam_sources _ _ _ _ _ l _) as [[v|k]|] eqn:E; cbn [cbind]; try discriminate.
      rewrite (beam_sources_none _ _ _ i ch Hc l _ v Hn E). cbn [cbind]. auto.
  Qed.
End Solvers.

(** ** Updates *)
Lemma neutral_charges hb : neutral hb -> no_charge (charges_of hb).
Proof.
  intros H pw Hp. unfold charges_of in Hp. destruct pw as [p q]. apply in_combine_r in Hp.
  unfold get_q in Hp. apply in_map_iff in Hp as (w & <- & Hw). cbn [snd]. apply H, Hw.
Qed.
Lemma all_some_eq {A} (l : list (option A)) v : all_some l = Some v -> l = map Some v.
Proof.
  revert v. induction l as [|[a|] l IH]; intros v E; cbn in E; try discriminate.
  - injection E as <-. reflexivity.
  - destruct (all_some l) as [r|] eqn:Er; [|discriminate]. injection E as <-. cbn. rewrite (IH r eq_refl). reflexivity.
Qed.
Lemma all_some_of_map {A} (v : list A) : all_some (map Some v) = Some v.
Proof. induction v as [|a v IH]; [reflexivity|]. cbn. rewrite IH. reflexivity. Qed.

Section Updating.
  Variable to_main : Model_Laser.sparams -> nat * nat -> Model_Laser.carr2 -> Model_Laser.carr2.
  Variable to_sub : Model_Laser.sparams -> nat * nat -> (nat -> nat -> R) -> (nat -> nat -> R).
  Variables e_ch m_e eps_0 light : R.
  Variables (argsort : list R -> list nat) (skin_depth wave_breaking : R -> R).
  Notation uw := (update_wake to_main to_sub e_ch m_e eps_0 light argsort skin_depth wave_breaking).
  Notation su := (sim_update to_main to_sub e_ch m_e eps_0 light argsort skin_depth wave_breaking).
  Lemma update_unseen i ch l : no_charge ch -> nth_error l i = Some ch -> forall fields j fields',
    uw j fields l = Some fields' -> uw j fields (without i l) = Some fields'.
  Proof.
    intros Hc Hn. induction fields as [|[env pl o|c] r IH]; intros j fields' E; cbn [update_wake] in *; [exact E| |].
    - destruct j as [|j].
      + unfold update, calculate_field in *. cbv zeta in *. destruct (if o_init o then _ else _) as [o'|]; [|discriminate].
        destruct (x_density _ _); [|discriminate]. destruct (Model_RZ.seen (o_laser o')) as [li|]; [|discriminate].
        destruct (solve_of _ _ _ _ _ pl _ _ _ li l) as [[f|k]|] eqn:Es; try discriminate.
        rewrite (solve_none _ _ _ _ _ _ _ _ _ _ i ch l f Hc Hn Es). exact E.
      + destruct (uw j r l) as [r'|] eqn:Er; [|discriminate]. rewrite (IH j r' Er). exact E.
    - destruct (uw j r l) as [r'|] eqn:Er; [|discriminate]. rewrite (IH j r' Er). exact E.
  Qed.
  Definition no_source (b : option tracked) : Prop := forall hb, b = Some hb -> sound hb /\ neutral hb.
  Lemma sim_update_unseen i j f l b : nth_error l i = Some b -> no_source b -> su j f l <> None ->
    su j f l = su j f (without i l).
  Proof.
    intros Hn Hb. unfold sim_update. destruct f as [f|]; [|contradiction].
    destruct (all_some l) as [v|] eqn:Ev; [|contradiction]. apply all_some_eq in Ev. subst l.
    rewrite without_map, all_some_of_map. rewrite nth_error_map in Hn.
    destruct (nth_error v i) as [hb|] eqn:Hv; [|discriminate]. injection Hn as <-.
    destruct (Hb hb eq_refl) as [_ N]. intros Hne.
    destruct (uw j f (map charges_of v)) as [f'|] eqn:E; [|contradiction]. symmetry.
    rewrite <- without_map. apply (update_unseen i (charges_of hb)); [apply neutral_charges, N| |exact E].
    rewrite nth_error_map, Hv. reflexivity.
  Qed.
  Lemma sim_evolve_unseen pusher f b t d : no_source b -> no_source (sim_evolve pusher f b t d).
  Proof.
    intros H hb'. unfold sim_evolve. destruct f as [f|]; [|discriminate]. destruct b as [hb|]; [|discriminate].
    intros E. destruct (H hb eq_refl) as [Hs N].
    pose proof (push_cases pusher f hb (Q2R t) (Q2R d) Hs) as P. rewrite E in P.
    destruct P as (_ & Hs' & Hw & M). split; [exact Hs'|].
    intros w. rewrite Hw. destruct M as (_ & _ & _ & _ & _ & _ & _ & -> & _). apply N.
  Qed.

  Lemma neutral_run pusher auto_dt rnd fuel c bunches fields i hb s :
    (0 < c_ndiags c)%nat -> length bunches = length (c_dtb c) ->
    nth_error bunches i = Some hb -> sound hb -> neutral hb ->
    simulate to_main to_sub e_ch m_e eps_0 light argsort skin_depth wave_breaking pusher auto_dt rnd fuel c bunches fields
      = Model_Tracker.Done s -> fs s <> None ->
    exists fuel1 s1,
      simulate to_main to_sub e_ch m_e eps_0 light argsort skin_depth wave_breaking pusher auto_dt rnd fuel1
        (with_steps (without i (c_dtb c)) c) (without i bunches) fields = Model_Tracker.Done s1 /\
      fs s1 = fs s /\ bs s1 = without i (bs s) /\ out s1 = without i (out s) /\
      (forall k, Spec_Tracker.pushes k (log s1) = Spec_Tracker.pushes (if Nat.ltb k i then k else S k) (log s)) /\
      (forall j, field_times j (log s1) = field_times j (log s)) /\ diag_times (log s1) = diag_times (log s).
  Proof.
    intros Hd Hl Hb Hs Hn Hrun Hf.
    assert (Hi : (i < length (c_dtb c))%nat) by (rewrite <- Hl; apply nth_error_Some; congruence).
    unfold simulate in *.
    destruct (skip_lemma _ _ (sim_evolve pusher) su auto_dt sim_copy rnd c i Hi Hd no_source (fun f => f <> None)
      (fun f b t d => sim_evolve_unseen pusher f b t d)
      ltac:(intros j f l H E; apply H; subst f; reflexivity)
      (fun j f l b Hx Hy Hz => sim_update_unseen i j f l b Hx Hy Hz)
      fuel (map Some bunches) (Some (adjust_wakes (Q2R (c_tfinal c)) fields)) (Some hb) s) as (f1 & s1 & E & R).
    - rewrite map_length. exact Hl.
    - rewrite nth_error_map, Hb. reflexivity.
    - intros hb' E. injection E as <-. auto.
    - exact Hrun.
    - exact Hf.
    - exists f1, s1. rewrite without_map in E. split; [exact E|]. destruct R. repeat split; auto.
  Qed.
End Updating.
