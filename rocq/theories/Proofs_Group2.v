(** The solvers see of all bunches together only how the charge is distributed over r and xi. *)
From Coq Require Import Reals ZArith String List Bool Arith Lia Lra FunctionalExtensionality Permutation.
From Coquelicot Require Import Coquelicot.
From Verif Require Model_Laser.
From Verif Require Import Model_Push Model_Interp Model_Deposit Model_QS Model_Fluid Model_RZ Model_Run Model_Sim Proofs_Sim2.
Import ListNotations.
Open Scope R_scope.

Lemma qsum_app u v g : qsum (u ++ v) g = qsum u g + qsum v g.
Proof.
  unfold qsum. rewrite map_app. induction u as [|a u IH]; cbn [map app fold_right]; [ring|]. rewrite IH. ring.
Qed.
Lemma deposit_form g s ry :
  (forall l a, deposit_3d_distribution g s ry l a = ValueError) \/
  exists (ok : Z -> Z -> R * R -> bool) (S : Z -> Z -> Z -> Z -> R -> R -> R), forall l a,
    deposit_3d_distribution g s ry l a = Returned
      (if forallb (ok (rows a) (cols a)) (map key l)
       then Ok (mka (rows a) (cols a) (fun k j => cell a k j + qsum l (S (rows a) (cols a) k j)))
       else Fault OutOfBounds).
Proof.
  assert (G : forall body, (forall rc zc, lin (body rc zc)) -> exists (ok : Z -> Z -> R * R -> bool)
      (S : Z -> Z -> Z -> Z -> R -> R -> R), forall l a, deposit_loop body g l a =
      if forallb (ok (rows a) (cols a)) (map key l)
      then Ok (mka (rows a) (cols a) (fun k j => cell a k j + qsum l (S (rows a) (cols a) k j)))
      else Fault OutOfBounds).
  { intros body Hb.
    exists (fun r c k => fine (at_point body g (fst k) (snd k)) r c),
      (fun r c k j r2 z => pattern (at_point body g r2 z) r c k j). intros l a.
    apply (foldM_points body g l a Hb (fun r2 z => fine (at_point body g r2 z)) (fun r2 z => pattern (at_point body g r2 z))).
    intros r2 z w a0. apply lin_canonical, lin_point, Hb. }
  unfold deposit_3d_distribution.
  destruct (String.eqb s "linear").
  { right. destruct (G (deposit_linear1 g ry)) as (ok & S & H); [intros; apply lin_linear|].
    exists ok, S. intros l a. rewrite H. reflexivity. }
  destruct (String.eqb s "cubic"); [|left; reflexivity].
  right. destruct (G (deposit_cubic1 g ry)) as (ok & S & H); [intros; apply lin_cubic|].
  exists ok, S. intros l a. rewrite H. reflexivity.
Qed.
Lemma deposit_app g s ry u v a : deposit_3d_distribution g s ry (u ++ v) a =
  cbind (deposit_3d_distribution g s ry u a) (deposit_3d_distribution g s ry v).
Proof.
  destruct (deposit_form g s ry) as [H|(ok & S & H)].
  - rewrite !H. reflexivity.
  - rewrite !H. rewrite map_app, forallb_app. destruct (forallb _ (map key u)); [|reflexivity]. cbn [andb cbind].
    rewrite H. cbn [rows cols cell]. destruct (forallb _ (map key v)); [|reflexivity]. f_equal. f_equal. f_equal.
    extensionality k. extensionality j. rewrite qsum_app. ring.
Qed.
Lemma cumsum_plus (f g : nat -> R) n : cumsum (fun k => f k + g k) n = cumsum f n + cumsum g n.
Proof. induction n as [|n IH]; cbn [cumsum]; [reflexivity|]. rewrite IH. ring. Qed.
Lemma integral_plus a b dr i j r c r' c' r'' c'' :
  beam_integral (mka r c (fun k l => a k l + b k l)) dr i j =
  beam_integral (mka r' c' a) dr i j + beam_integral (mka r'' c'' b) dr i j.
Proof.
  unfold beam_integral. cbv zeta. cbn [cell].
  rewrite (cumsum_plus (fun k => a (i + 2)%Z (Z.of_nat k + 2)%Z) (fun k => b (i + 2)%Z (Z.of_nat k + 2)%Z)).
  unfold Rdiv. destruct (Z.eqb j 0); ring.
Qed.
Lemma inner_plus n m u v k l :
  cell (inner_part n m (fun i j => u i j + v i j)) k l = cell (inner_part n m u) k l + cell (inner_part n m v) k l.
Proof. unfold inner_part. cbn [cell]. destruct (andb _ _); ring. Qed.

Section Solvers.
  Variables (argsort : list R -> list nat) (skin_depth wave_breaking : R -> R) (charge_e light : R).
  Lemma source_app g s b (U V : list (pos * R)) :
    let src l b := cbind (deposit_3d_distribution g s true l (zeros2 (dg_nz g) (dg_nr g))) (fun q_dist =>
      Returned (Ok (plus2d b (inner_part (dg_nz g) (dg_nr g) (beam_integral q_dist (dg_dr g)))))) in
    src (U ++ V) b = cbind (src U b) (src V).
  Proof.
    intros src. unfold src. destruct (deposit_form g s true) as [H|(ok & S & H)].
    - rewrite !H. reflexivity.
    - rewrite !H. rewrite map_app, forallb_app. destruct (forallb _ (map key U)); [|reflexivity]. cbn [andb cbind].
      destruct (forallb _ (map key V)); [|reflexivity]. cbn [cbind]. f_equal. f_equal.
      unfold plus2d. cbn [rows cols cell]. f_equal. extensionality k. extensionality j. rewrite Rplus_assoc. f_equal.
      rewrite <- inner_plus. f_equal. f_equal. extensionality i0. extensionality j0. cbn [zeros2 rows cols cell].
      erewrite <- integral_plus. f_equal. f_equal. extensionality k1. extensionality j1. rewrite qsum_app. ring.
  Qed.
  Lemma beam_source_app n_p g s u v b :
    calculate_beam_source skin_depth charge_e n_p g s (u ++ v) b =
    cbind (calculate_beam_source skin_depth charge_e n_p g s u b) (calculate_beam_source skin_depth charge_e n_p g s v).
  Proof.
    unfold calculate_beam_source. cbv zeta. rewrite map_app. apply source_app.
  Qed.
  Lemma beam_sources_concat n_p g s u l b :
    beam_sources skin_depth charge_e n_p g s (u :: l) b =
    calculate_beam_source skin_depth charge_e n_p g s (u ++ concat l) b.
  Proof.
    revert u b. induction l as [|v l IH]; intros u b.
    - cbn [beam_sources concat]. rewrite app_nil_r.
      destruct (calculate_beam_source _ _ _ _ _ _ _) as [[w|f]|]; reflexivity.
    - change (beam_sources skin_depth charge_e n_p g s (u :: v :: l) b) with
        (cbind (calculate_beam_source skin_depth charge_e n_p g s u b) (beam_sources skin_depth charge_e n_p g s (v :: l))).
      rewrite beam_source_app. destruct (calculate_beam_source _ _ _ _ _ u _) as [[w|f]|]; cbn [cbind]; [|reflexivity|reflexivity].
      apply IH.
  Qed.
  Lemma deposit_bunches_concat W u l a :
    deposit_bunches skin_depth charge_e W (u :: l) a =
    deposit_3d_distribution (p_grid skin_depth W) (c_shape W) true
      (map (in_plasma_units skin_depth charge_e W) (u ++ concat l)) a.
  Proof.
    revert u a. induction l as [|v l IH]; intros u a.
    - cbn [deposit_bunches concat]. rewrite app_nil_r.
      destruct (deposit_3d_distribution _ _ _ _ _) as [[w|f]|]; reflexivity.
    - change (deposit_bunches skin_depth charge_e W (u :: v :: l) a) with
        (cbind (deposit_3d_distribution (p_grid skin_depth W) (c_shape W) true (map (in_plasma_units skin_depth charge_e W) u) a)
           (deposit_bunches skin_depth charge_e W (v :: l))).
      rewrite map_app, deposit_app.
      destruct (deposit_3d_distribution _ _ _ (map _ u) _) as [[w|f]|]; cbn [cbind]; [|reflexivity|reflexivity].
      apply IH.
  Qed.
  (** Two lists of bunches with the same charge distribution. *)
  Definition alike_all (l l' : list charges) : Prop := (l = [] <-> l' = []) /\ alike (concat l) (concat l').
  Lemma beam_sources_regroup n_p g s l l' b : alike_all l l' ->
    beam_sources skin_depth charge_e n_p g s l b = beam_sources skin_depth charge_e n_p g s l' b.
  Proof.
    intros [E A]. destruct l as [|u l], l' as [|u' l']; [reflexivity| | |].
    - discriminate (proj1 E eq_refl).
    - discriminate (proj2 E eq_refl).
    - rewrite !beam_sources_concat. apply beam_source_alike, A.
  Qed.
  Lemma deposit_bunches_regroup W l l' a : alike_all l l' ->
    deposit_bunches skin_depth charge_e W l a = deposit_bunches skin_depth charge_e W l' a.
  Proof.
    intros [E A]. destruct l as [|u l], l' as [|u' l']; [reflexivity| | |].
    - discriminate (proj1 E eq_refl).
    - discriminate (proj2 E eq_refl).
    - pose proof (deposit_bunches_alike skin_depth charge_e W [u ++ concat l] [u' ++ concat l']) as H.
      rewrite (deposit_bunches_concat W u l), (deposit_bunches_concat W u' l').
      pose proof (deposit_bunches_concat W (u ++ concat l) [] a) as E1. cbn [concat] in E1. rewrite app_nil_r in E1.
      pose proof (deposit_bunches_concat W (u' ++ concat l') [] a) as E2. cbn [concat] in E2. rewrite app_nil_r in E2.
      rewrite <- E1, <- E2.
      apply H. constructor; [exact A|constructor].
  Qed.
  Lemma solve_regroup pl x n z li l l' : alike_all l l' ->
    solve_of charge_e light argsort skin_depth wave_breaking pl x n z li l =
    solve_of charge_e light argsort skin_depth wave_breaking pl x n z li l'.
  Proof.
    intros H. destruct pl as [s beam|q]; cbn [solve_of].
    - unfold fluid_solve. destruct (match li with Some (a, _) => fits x a | None => true end); [|reflexivity].
      unfold fluid_wakefield. rewrite (deposit_bunches_regroup _ l l' _ H). reflexivity.
    - unfold qs_solve. destruct (match li with Some (a, _) => fits x a | None => true end); [|reflexivity].
      unfold calculate_wakefields. cbv zeta. rewrite (beam_sources_regroup _ _ _ l l' _ H). reflexivity.
  Qed.
  Variable to_main : Model_Laser.sparams -> nat * nat -> Model_Laser.carr2 -> Model_Laser.carr2.
  Variable to_sub : Model_Laser.sparams -> nat * nat -> (nat -> nat -> R) -> (nat -> nat -> R).
  Variables m_e eps_0 : R.
  Notation uw := (update_wake to_main to_sub charge_e m_e eps_0 light argsort skin_depth wave_breaking).
  Lemma update_regroup l l' : alike_all l l' -> forall fields j, uw j fields l = uw j fields l'.
  Proof.
    intros H. induction fields as [|[env pl o|c] r IH]; intros j; cbn [update_wake]; [reflexivity| |rewrite IH; reflexivity].
    destruct j as [|j]; [|rewrite IH; reflexivity].
    unfold update, calculate_field. cbv zeta. destruct (if o_init o then _ else _) as [o'|]; [|reflexivity].
    destruct (x_density _ _); [|reflexivity]. destruct (seen (o_laser o')); [|reflexivity].
    rewrite (solve_regroup pl _ _ _ _ l l' H). reflexivity.
  Qed.
End Solvers.

Lemma alike_perm (l l' : charges) : Permutation l l' -> alike l l'.
Proof.
  intros H. split.
  - intros k. split; apply Permutation_in; [|apply Permutation_sym]; apply Permutation_map, H.
  - intros g. unfold qsum. apply (Permutation_map (fun pw => snd pw * g (fst (key pw)) (snd (key pw)))) in H.
    induction H; cbn [fold_right]; lra.
Qed.
Lemma permutation_concat {A} (l l' : list (list A)) : Permutation l l' -> Permutation (concat l) (concat l').
Proof.
  induction 1 as [|u l l' H IH|u v l|l l' l'' H1 IH1 H2 IH2]; cbn [concat].
  - constructor.
  - apply Permutation_app_head, IH.
  - rewrite !app_assoc. apply Permutation_app_tail, Permutation_app_comm.
  - eapply Permutation_trans; eassumption.
Qed.
Lemma alike_all_perm l l' : Permutation l l' -> alike_all l l'.
Proof.
  intros H. split.
  - split; intros ->; [apply Permutation_nil, H|apply Permutation_nil, Permutation_sym, H].
  - apply alike_perm, permutation_concat, H.
Qed.
Lemma all_some_spec {A} (l : list (option A)) v : all_some l = Some v <-> l = map Some v.
Proof.
  revert v. induction l as [|[a|] l IH]; intros v; cbn [all_some].
  - destruct v; cbn; split; congruence.
  - destruct (all_some l) as [w|].
    + destruct v as [|b v]; cbn [map]; [split; discriminate|]. specialize (IH v). split; intros E; injection E as E1 E2; subst.
      * f_equal. apply IH. reflexivity.
      * pose proof (proj2 IH eq_refl). congruence.
    + split; [discriminate|]. destruct v as [|b v]; cbn [map]; [discriminate|]. intros E. injection E as <- E.
      apply IH in E. discriminate.
  - split; [discriminate|]. destruct v; discriminate.
Qed.
Lemma all_some_perm {A} (l l' : list (option A)) : Permutation l l' ->
  match all_some l, all_some l' with Some v, Some v' => Permutation v v' | None, None => True | _, _ => False end.
Proof.
  induction 1 as [|[u|] l l' H IH|[u|] [v|] l|l l' l'' H1 IH1 H2 IH2]; cbn [all_some]; auto.
  all: try (destruct (all_some l), (all_some l'), (all_some l''); try contradiction; auto;
            eapply Permutation_trans; eassumption).
  all: try (destruct (all_some l), (all_some l'); auto; fail).
  all: destruct (all_some l); try exact I; apply perm_swap.
Qed.
