(** Properties of the cold fluid wakefield (C85-C89). *)
From Coq Require Import Reals ZArith String List Bool Arith Lia Lra Permutation.
From Coquelicot Require Import Coquelicot.
From Verif Require Import Model_Push Model_Interp Spec_Interp Proofs_Interp Model_Deposit Spec_Deposit Proofs_Deposit
  Model_QS Spec_QS Proofs_QS4 Proofs_QS6 Proofs_QS7 Model_Fluid Spec_Fluid Proofs_Fluid Proofs_Fluid2 Proofs_Fluid3.
Import ListNotations.
Open Scope R_scope.

(** C85: the potential behind laser and bunches, and densities and fields from it. *)
Theorem C85_solution : forall skin_depth wave_breaking e light W bunches,
  let s := skin_depth (c_np W / 1000000) in let E0 := wave_breaking (c_np W / 1000000) in
  domain 3 W -> 0 < s -> light <> 0 ->
  exists F a n psi, fluid_wakefield skin_depth wave_breaking e light W bunches = Returned (Ok F) /\
    solution s E0 e light W bunches F a n psi.
Proof.
  intros sd wb e c W bunches s E0 D S L. destruct (solution_lemma sd wb e c W D S L bunches) as (F & n & psi & E & H).
  exists F, (a_env W), n, psi. split; assumption.
Qed.
Print Assumptions C85_solution.
(** There is only one. *)
Theorem C85_unique : forall s E0 e light W bunches F a n psi F' a' n' psi', domain 3 W -> 0 < s ->
  solution s E0 e light W bunches F a n psi -> solution s E0 e light W bunches F' a' n' psi' ->
  forall i j, point W i j -> a i j = a' i j /\ n i j = n' i j /\ psi i j = psi' i j.
Proof.
  intros s E0 e c W bunches F a n psi F' a' n' psi' D S H H' i j P.
  assert (Ea : forall i j, a i j = a' i j) by (apply (strength_unique W); [exact (sol_laser _ _ _ _ _ _ _ _ _ _ H)|exact (sol_laser _ _ _ _ _ _ _ _ _ _ H')]).
  assert (En : forall i j, point W i j -> n i j = n' i j).
  { intros k l K. apply (density_same s e W (domain_2 W D) S bunches bunches n n' k l (sol_bunches _ _ _ _ _ _ _ _ _ _ H) (sol_bunches _ _ _ _ _ _ _ _ _ _ H')); [apply Permutation_refl|exact K]. }
  split; [apply Ea|]. split; [apply En; exact P|]. destruct P as [P1 P2].
  assert (Hp' : potential s (with_laser W (c_laser W)) a' n' psi') by (destruct W; exact (sol_psi _ _ _ _ _ _ _ _ _ _ H')).
  apply (column_lemma s W (c_laser W) a n psi a' n' psi' 0 j P2 ltac:(lia) (sol_psi _ _ _ _ _ _ _ _ _ _ H) Hp'); [intros; apply Ea| |exact P1].
  intros _ k K. apply En. split; lia.
Qed.
(** The Runge-Kutta step is exact for a force quadratic in time, and for an oscillator of unit frequency
    the Taylor polynomial of degree four. *)
Theorem C85_method : forall h x v,
  (forall c0 c1 c2, rk4 (fun t y => (snd y, c0 + c1 * (h * t) + c2 * (h * t) ^ 2)) h (x, v) =
     (x + v * h + c0 * h ^ 2 / 2 + c1 * h ^ 3 / 6 + c2 * h ^ 4 / 12, v + c0 * h + c1 * h ^ 2 / 2 + c2 * h ^ 3 / 3)) /\
  rk4 (fun _ y => (snd y, - fst y)) h (x, v) =
    (x * (1 - h ^ 2 / 2 + h ^ 4 / 24) + v * (h - h ^ 3 / 6), v * (1 - h ^ 2 / 2 + h ^ 4 / 24) - x * (h - h ^ 3 / 6)).
Proof. intros h x v. split; [intros c0 c1 c2|]; unfold rk4, along; cbn [fst snd]; f_equal; field. Qed.
(** Small perturbations oscillate with the plasma frequency: the restoring force is - psi. *)
Theorem C85_plasma_frequency : forall v, is_derive (fun psi => snd (poisson 0 0 (psi, v))) 0 (- 1) /\ poisson 0 0 (0, 0) = (0, 0).
Proof.
  intros v. unfold poisson; cbn [fst snd]. split; [|f_equal; field].
  auto_derive; [lra|field].
Qed.
Print Assumptions C85_plasma_frequency.
(** The density of the bunches counts every particle within the domain. *)
Theorem C85_particles : forall s e W bunches n, domain 3 W -> 0 < s -> bunch_density s e W bunches n ->
  guarded_grid (fluid_grid s W) (c_shape W) ->
  sum_range (c_nxi W) (fun i => sum_range (c_nr W) (fun j => n i j * (c_np W * ring_volume W j))) = particles_inside s e W bunches.
Proof. intros s e W bunches n D S. apply total_lemma; [apply domain_2; exact D|exact S]. Qed.
Print Assumptions C85_particles.
(** Each radius is on its own: densities, susceptibility and E_z only depend on the laser there. *)
Theorem C85_local : forall s E0 e light W l' bunches F a n psi F' a' n' psi' j, domain 3 W -> 0 < s -> (0 <= j < c_nr W)%Z ->
  solution s E0 e light W bunches F a n psi -> solution s E0 e light (with_laser W l') bunches F' a' n' psi' ->
  (forall i, (0 <= i < c_nxi W)%Z -> a i j = a' i j) ->
  forall i, (0 <= i < c_nxi W)%Z -> inner (h_ez F) i j = inner (h_ez F') i j /\
    (1 + psi i j <> 0 -> inner (h_chi F) i j = inner (h_chi F') i j /\ inner (h_rho F) i j = inner (h_rho F') i j).
Proof.
  intros s E0 e c W l' bunches F a n psi F' a' n' psi' j D S J H H' Ea i I.
  assert (En : forall i j, point W i j -> n i j = n' i j).
  { intros k l K. apply (density_same s e W (domain_2 W D) S bunches bunches n n' k l (sol_bunches _ _ _ _ _ _ _ _ _ _ H) (sol_bunches _ _ _ _ _ _ _ _ _ _ H')); [apply Permutation_refl|exact K]. }
  assert (Ep : forall i, (0 <= i < c_nxi W)%Z -> psi i j = psi' i j).
  { apply (column_lemma s W l' a n psi a' n' psi' 0 j J ltac:(lia) (sol_psi _ _ _ _ _ _ _ _ _ _ H) (sol_psi _ _ _ _ _ _ _ _ _ _ H')); [exact Ea|].
    intros _ k K. apply En. split; lia. }
  assert (P : point W i j) by (split; assumption). split.
  - rewrite (sol_ez _ _ _ _ _ _ _ _ _ _ H i j P), (sol_ez _ _ _ _ _ _ _ _ _ _ H' i j P). f_equal.
    unfold d_xi. cbn [with_laser c_nxi]. change (step_xi (with_laser W l')) with (step_xi W). destruct D as (_ & _ & Nx & _).
    apply gradient2_ext; try assumption.
  - intros Hp. pose proof Hp as Hp'. rewrite (Ep i I) in Hp'.
    pose proof (sol_chi _ _ _ _ _ _ _ _ _ _ H i j P Hp) as Q. pose proof (sol_chi _ _ _ _ _ _ _ _ _ _ H' i j P Hp') as Q'.
    assert (Ec : inner (h_chi F) i j = inner (h_chi F') i j).
    { apply Rmult_eq_reg_r with (1 + psi' i j); [|exact Hp']. rewrite Q', <- (Ep i I). exact Q. }
    split; [exact Ec|]. pose proof (electron_exists (a i j) (psi i j) Hp) as El.
    destruct (sol_rho _ _ _ _ _ _ _ _ _ _ H i j _ _ P Hp El) as [_ Qr]. rewrite (Ep i I), (Ea i I) in El, Qr.
    destruct (sol_rho _ _ _ _ _ _ _ _ _ _ H' i j _ _ P Hp' El) as [_ Qr']. rewrite Qr, Qr', Ec. reflexivity.
Qed.
Print Assumptions C85_local.

(** Only |a|^2 averaged over a period and the set of particles matter. *)
Theorem C85_drivers : forall s E0 e light W l' bunches bunches' F a n psi F' a' n' psi', domain 3 W -> 0 < s -> light <> 0 ->
  solution s E0 e light W bunches F a n psi -> solution s E0 e light (with_laser W l') bunches' F' a' n' psi' ->
  same_laser_from 0 W l' -> Permutation (concat bunches) (concat bunches') -> regular W psi ->
  forall i j, point W i j -> same_fields_at F F' i j.
Proof.
  intros s E0 e c W l' bunches bunches' F a n psi F' a' n' psi' D S L H H' El P Rg.
  apply (fields_same s E0 e c W l' bunches bunches' F a n psi F' a' n' psi'); try assumption.
  intros i j I. apply (density_same s e W (domain_2 W D) S bunches bunches' n n' i j (sol_bunches _ _ _ _ _ _ _ _ _ _ H) (sol_bunches _ _ _ _ _ _ _ _ _ _ H') P I).
Qed.
Print Assumptions C85_drivers.
(** Hence the phase of the envelope does not matter, and a linearly polarized pulse acts as one of
    circular polarization whose amplitude is smaller by the square root of two. *)
Theorem C85_phase : forall W env env' p, (forall i j, Cmod (env' i j) = Cmod (env i j)) ->
  same_laser_from 0 (with_laser W (Some (env, p))) (Some (env', p)).
Proof.
  intros W env env' p H a a' Ha Ha' i j _ _. destruct (Ha i j) as [P E], (Ha' i j) as [P' E']. cbn in E, E'.
  rewrite H in E'. assert (a i j ^ 2 = a' i j ^ 2) by (cbn [pow]; lra). nra.
Qed.
Theorem C85_polarization : forall W env env' p, p <> "linear"%string -> (forall i j, Cmod (env' i j) = sqrt 2 * Cmod (env i j)) ->
  same_laser_from 0 (with_laser W (Some (env, p))) (Some (env', "linear"%string)).
Proof.
  intros W env env' p Np H a a' Ha Ha' i j _ _. destruct (Ha i j) as [P E], (Ha' i j) as [P' E']. cbn [with_laser c_laser] in E, E'.
  destruct (string_dec p "linear"); [contradiction|]. destruct (string_dec "linear" "linear"); [|congruence].
  rewrite H, Rpow_mult_distr in E'. replace (sqrt 2 ^ 2) with 2 in E' by (cbn [pow]; rewrite Rmult_1_r, sqrt_sqrt; lra).
  assert (Q : a i j ^ 2 = a' i j ^ 2) by (rewrite E, E'; field). nra.
Qed.
Print Assumptions C85_polarization.
(** A pulse of constant strength one, one skin depth per slice: potential in the second slice. *)
Definition strong : fluid := mkfl 3 0 2 3 3 1 "linear" false (Some (fun _ _ => RtoC 1, "circular"%string)).
Lemma strong_psi s n psi : s = 1 -> potential s strong (fun _ _ => 1) n psi -> forall j, (0 <= j < 3)%Z -> psi 2%Z j = 0 /\ psi 1%Z j = 209 / 972 /\ 0 < psi 0%Z j.
Proof.
  intros -> (v & H0 & Hs) j J. destruct (H0 j J) as [Z1 Z2]. change (c_nxi strong - 1)%Z with 2%Z in Z1, Z2.
  assert (Es : step_xi strong / 1 = 1) by (unfold step_xi; cbn [strong c_ximax c_ximin c_nxi]; lra).
  pose proof (Hs 2%Z j ltac:(unfold point; cbn; lia) ltac:(lia)) as Q. change (2 - 1)%Z with 1%Z in Q. rewrite Z1, Z2, Es in Q.
  pose proof (Hs 1%Z j ltac:(unfold point; cbn; lia) ltac:(lia)) as Q'. change (1 - 1)%Z with 0%Z in Q'. rewrite Es in Q'.
  unfold rk4, along, poisson in Q; cbn [c_beam strong fst snd] in Q. injection Q as Q1 Q2.
  assert (V1 : psi 1%Z j = 209 / 972) by (rewrite Q1; field). split; [exact Z1|]. split; [exact V1|].
  assert (V2 : / 3 <= v 1%Z j).
  { rewrite Q2. match goal with |- _ <= ?x => replace x with (2248 / 6075) by field end. lra. }
  rewrite V1 in Q'. unfold rk4, along, poisson in Q'; cbn [c_beam strong fst snd] in Q'. injection Q' as Q3 _. rewrite Q3.
  assert (K : forall x y, 0 <= (1 + x * (x * 1)) / (2 * (y * (y * 1)))).
  { intros x y. unfold Rdiv. apply Rmult_le_pos; [nra|]. destruct (Req_dec y 0) as [->|N].
    - replace (2 * (0 * (0 * 1))) with 0 by ring. rewrite Rinv_0. lra.
    - left. apply Rinv_0_lt_compat. apply Rmult_lt_0_compat; [lra|]. apply pow2_gt_0. exact N. }
  clear - V2 K. generalize (v 1%Z j) V2. intros w Hw.
  repeat match goal with |- context [(1 + ?x * (?x * 1)) / (2 * (?y * (?y * 1)))] => generalize ((1 + x * (x * 1)) / (2 * (y * (y * 1)))) (K x y); intros ? ? end.
  lra.
Qed.
Lemma strong_domain : domain 3 strong.
Proof. unfold domain, strong; cbn. repeat split; try lra; try lia. left. reflexivity. Qed.
Lemma strong_run : exists F n psi, fluid_wakefield (fun _ => 1) (fun _ => 1) 1 1 strong [] = Returned (Ok F) /\
  solution 1 1 1 1 strong [] F (fun _ _ => 1) n psi /\ regular strong psi /\ psi 1%Z 0%Z = 209 / 972.
Proof.
  destruct (C85_solution (fun _ => 1) (fun _ => 1) 1 1 strong [] strong_domain ltac:(lra) ltac:(lra)) as (F & a & n & psi & E & H).
  assert (H1 : strength strong (fun _ _ => 1)).
  { intros i j. cbn [strong c_laser]. destruct (string_dec "circular" "linear"); [discriminate|]. split; [lra|]. rewrite Cmod_1. field. }
  assert (Ea : forall i j, a i j = 1) by (intros; apply (strength_unique strong a (fun _ _ => 1) (sol_laser _ _ _ _ _ _ _ _ _ _ H) H1)).
  assert (Hp : potential 1 strong (fun _ _ => 1) n psi).
  { destruct (sol_psi _ _ _ _ _ _ _ _ _ _ H) as (v & H0 & Hs). exists v. split; [exact H0|]. intros i j P I. rewrite (Hs i j P I), !Ea. reflexivity. }
  assert (Vp := strong_psi 1 n psi eq_refl Hp).
  exists F, n, psi. split; [exact E|]. split; [|split].
  - destruct H. constructor; try assumption.
    + intros i j u gamma P Q El. apply (sol_rho i j u gamma P Q). rewrite Ea. exact El.
    + intros i j u gamma P El. apply (sol_bt i j u gamma P). intros k K. rewrite Ea. apply El. exact K.
  - intros i j [I J]. cbn in I, J. destruct (Vp j J) as (V2 & V1 & V0).
    assert (Q : i = 0%Z \/ i = 1%Z \/ i = 2%Z) by lia. destruct Q as [ -> | [ -> | -> ]]; lra.
  - apply Vp. lia.
Qed.
Example C85_example : exists F n psi, fluid_wakefield (fun _ => 1) (fun _ => 1) 1 1 strong [] = Returned (Ok F) /\
  solution 1 1 1 1 strong [] F (fun _ _ => 1) n psi /\ regular strong psi /\ inner (h_chi F) 1 0 = 972 / 1181.
Proof.
  destruct strong_run as (F & n & psi & E & H & Rg & V). exists F, n, psi. repeat (split; [assumption|]).
  assert (P : point strong 1 0) by (unfold point; cbn; lia).
  pose proof (sol_chi _ _ _ _ _ _ _ _ _ _ H 1%Z 0%Z P (Rg _ _ P)) as Q. rewrite V in Q. lra.
Qed.

(** C86: without a driver nothing happens: the plasma keeps its density and there are no fields. *)
Theorem C86_quiet : forall s E0 e light W bunches F a n psi, domain 3 W -> 0 < s -> light <> 0 ->
  solution s E0 e light W bunches F a n psi ->
  (forall i j, point W i j -> a i j = 0) ->
  List.Forall (fun pq => ~ inside (fluid_grid s W) (fst (counted s e pq))) (concat bunches) ->
  forall i j, point W i j ->
    inner (h_rho F) i j = 1 /\ inner (h_chi F) i j = 1 /\ inner (h_er F) i j = 0 /\ inner (h_ez F) i j = 0 /\ inner (h_bt F) i j = 0.
Proof.
  intros s E0 e c W bunches F a n psi D S L H Ha Hb i j P.
  assert (En : forall i j, point W i j -> n i j = 0) by (intros; apply (density_outside s e W (domain_2 W D) S bunches n _ _ (sol_bunches _ _ _ _ _ _ _ _ _ _ H) Hb); assumption).
  assert (Ep : forall i j, point W i j -> psi i j = 0).
  { apply (quiet_lemma s W a n psi (sol_psi _ _ _ _ _ _ _ _ _ _ H)). intros k l K. split; [apply Ha; exact K|]. intros _. apply En. exact K. }
  assert (Np : forall i j, point W i j -> 1 + psi i j <> 0) by (intros; rewrite Ep by assumption; lra).
  pose proof (sol_chi _ _ _ _ _ _ _ _ _ _ H i j P (Np i j P)) as C. rewrite Ep in C by exact P.
  assert (El : forall i j, point W i j -> electron (a i j) (psi i j) 0 1) by (intros k l K; rewrite Ha, Ep by exact K; split; ring).
  destruct (sol_rho _ _ _ _ _ _ _ _ _ _ H i j 0 1 P (Np i j P) (El i j P)) as [_ Rh].
  assert (G : forall N d q f, (3 <= N)%Z -> (0 <= q < N)%Z -> (forall k, (0 <= k < N)%Z -> f k = 0) -> gradient2 f N d q = 0).
  { intros N d q f HN Q Hf. rewrite (gradient2_ext f (fun _ => 0 * 0)) by (try assumption; intros; rewrite Hf by assumption; ring). rewrite (gradient_scale (fun _ => 0)). ring. }
  assert (N3 : (3 <= c_nxi W /\ 3 <= c_nr W)%Z) by (destruct D as (_ & _ & X & Y & _); lia).
  assert (Ez : forall i j, point W i j -> inner (h_ez F) i j = 0).
  { intros k l [K1 K2]. rewrite (sol_ez _ _ _ _ _ _ _ _ _ _ H k l (conj K1 K2)). unfold d_xi. rewrite G; [ring|lia|exact K1|]. intros q Q. apply Ep. split; assumption. }
  assert (Bt : inner (h_bt F) i j = 0).
  { assert (Hk : forall k, (0 <= k < c_nr W)%Z -> 1 + psi i k <> 0 /\ electron (a i k) (psi i k) 0 1).
    { intros k K. destruct P as [P1 P2]. split; [apply Np|apply El]; split; assumption. }
    pose proof (sol_bt _ _ _ _ _ _ _ _ _ _ H i j (fun _ => 0) (fun _ => 1) P Hk) as B.
    assert (Z0 : forall k, (0 <= k < c_nr W)%Z -> d_xi W (inner (h_ez F)) i k + E0 / s * (n i k - inner (h_rho F) i k * (0 / 1)) = 0).
    { intros k K. destruct P as [P1 P2]. rewrite En by (split; assumption). unfold d_xi. rewrite G; [unfold Rdiv; ring|lia|exact P1|]. intros q Q. apply Ez. split; assumption. }
    unfold disk in B. destruct P as [P1 P2]. rewrite Z0 in B by exact P2. rewrite sum_range_zero in B by (intros k K; rewrite Z0 by lia; ring).
    replace (0 + 0 * ((IZR j + / 2) * step_r W) * step_r W / 2) with 0 in B by (unfold Rdiv; ring).
    assert (0 <= IZR j) by (apply IZR_le; lia). destruct (steps_pos W (domain_2 W D)) as [_ Sr].
    apply Rmult_integral in B as [B|B]; [|nra]. apply Rmult_integral in B as [B|B]; [contradiction|exact B]. }
  assert (Fr : inner (h_er F) i j - c * inner (h_bt F) i j = 0).
  { rewrite (sol_force _ _ _ _ _ _ _ _ _ _ H i j P). unfold d_r. destruct P as [P1 P2]. rewrite G; [ring|lia|exact P2|]. intros q Q. apply Ep. split; assumption. }
  rewrite Bt in *. repeat split; try assumption; try lra. apply Ez. exact P.
Qed.
Print Assumptions C86_quiet.
Definition empty : fluid := mkfl 3 0 2 3 3 1 "cubic" true None.
Example C86_example : exists F n psi, fluid_wakefield (fun _ => 1) (fun _ => 1) 1 1 empty [[((0, 5, 1), 1)]] = Returned (Ok F) /\
  solution 1 1 1 1 empty [[((0, 5, 1), 1)]] F (fun _ _ => 0) n psi /\
  List.Forall (fun pq => ~ inside (fluid_grid 1 empty) (fst (counted 1 1 pq))) (concat [[((0, 5, 1), 1)]]).
Proof.
  assert (D : domain 3 empty) by (unfold domain, empty; cbn; repeat split; try lra; try lia; right; reflexivity).
  destruct (solution_lemma (fun _ => 1) (fun _ => 1) 1 1 empty D ltac:(lra) ltac:(lra) [[((0, 5, 1), 1)]]) as (F & n & psi & E & H).
  exists F, n, psi. split; [exact E|]. split; [exact H|]. cbn [concat app]. constructor; [|constructor].
  intros [_ Q]. unfold counted, radius, r_edge, fluid_grid, step_r in Q; cbn in Q.
  replace (0 / 1 * (0 / 1) + 5 / 1 * (5 / 1)) with (5 * 5) in Q by field. rewrite sqrt_square in Q by lra. lra.
Qed.

(** C87: nothing acts forward. *)
Theorem C87_causal : forall s E0 e light W l' bunches bunches' F a n psi F' a' n' psi' m, domain 3 W -> 0 < s -> light <> 0 ->
  (0 <= m <= c_nxi W - 3)%Z ->
  solution s E0 e light W bunches F a n psi -> solution s E0 e light (with_laser W l') bunches' F' a' n' psi' ->
  same_laser_from m W l' ->
  let xi := c_ximin W + (IZR m - 1) * step_xi W in
  List.Forall2 (fun l l' => filter (ahead xi) l = filter (ahead xi) l') bunches bunches' ->
  forall i j, point W i j ->
    ((m <= i)%Z -> inner (h_er F) i j - light * inner (h_bt F) i j = inner (h_er F') i j - light * inner (h_bt F') i j /\
       (1 + psi i j <> 0 -> inner (h_chi F) i j = inner (h_chi F') i j /\ inner (h_rho F) i j = inner (h_rho F') i j)) /\
    ((m + 1 <= i)%Z -> inner (h_ez F) i j = inner (h_ez F') i j) /\
    ((m + 2 <= i)%Z -> (m <= c_nxi W - 4)%Z -> regular W psi -> same_fields_at F F' i j).
Proof.
  intros s E0 e c W l' bunches bunches' F a n psi F' a' n' psi' m D S L Mr H H' El xi Hf i j P.
  assert (Ea : forall i j, point W i j -> (m <= i)%Z -> a i j = a' i j).
  { intros k l K K0. apply (El a a' (sol_laser _ _ _ _ _ _ _ _ _ _ H) (sol_laser _ _ _ _ _ _ _ _ _ _ H')); assumption. }
  assert (En : forall i j, point W i j -> (m + 1 <= i)%Z -> n i j = n' i j).
  { intros k l K K0. apply (density_ahead s e W (domain_2 W D) S (m + 1) xi bunches bunches' n n' k l (sol_bunches _ _ _ _ _ _ _ _ _ _ H) (sol_bunches _ _ _ _ _ _ _ _ _ _ H')); try assumption.
    unfold xi. rewrite plus_IZR. lra. }
  assert (Ep : forall i j, point W i j -> (m <= i)%Z -> psi i j = psi' i j).
  { intros k l [K1 K2] K0. apply (column_lemma s W l' a n psi a' n' psi' m l K2 ltac:(lia) (sol_psi _ _ _ _ _ _ _ _ _ _ H) (sol_psi _ _ _ _ _ _ _ _ _ _ H')); [| |lia].
    - intros q Q. apply Ea; [split; lia|lia].
    - intros _ q Q. apply En; [split; lia|lia]. }
  assert (Fr : (m <= i)%Z -> inner (h_er F) i j - c * inner (h_bt F) i j = inner (h_er F') i j - c * inner (h_bt F') i j) by (intros; apply (force_same _ _ _ _ _ _ _ _ _ _ _ _ _ _ _ _ m D H H' Ep i j P); assumption).
  assert (Ch : (m <= i)%Z -> 1 + psi i j <> 0 -> inner (h_chi F) i j = inner (h_chi F') i j) by (apply (chi_same _ _ _ _ _ _ _ _ _ _ _ _ _ _ _ _ m H H' Ep i j P)).
  assert (Rh : (m <= i)%Z -> 1 + psi i j <> 0 -> inner (h_rho F) i j = inner (h_rho F') i j) by (apply (rho_same _ _ _ _ _ _ _ _ _ _ _ _ _ _ _ _ m H H' Ep Ea i j P)).
  assert (Ez : (m + 1 <= i)%Z -> inner (h_ez F) i j = inner (h_ez F') i j) by (intros; apply (ez_same _ _ _ _ _ _ _ _ _ _ _ _ _ _ _ _ m D ltac:(lia) H H' Ep i j P); lia).
  split; [intros I; split; [exact (Fr I)|intros Q; split; [exact (Ch I Q)|exact (Rh I Q)]]|]. split; [exact Ez|].
  intros I M4 Rg. assert (Bt : inner (h_bt F) i j = inner (h_bt F') i j).
  { apply (bt_same _ _ _ _ _ _ _ _ _ _ _ _ _ _ _ _ m D L ltac:(lia) H H' Ep Ea i j P); try lia; destruct P as [P1 P2]; intros k K.
    - apply Rg. split; assumption.
    - apply En; [split; assumption|lia]. }
  pose proof (Fr ltac:(lia)) as Q. rewrite Bt in Q.
  repeat split; [apply Rh|apply Ch| |apply Ez|exact Bt]; try lia; try (apply Rg; exact P). lra.
Qed.
Print Assumptions C87_causal.
Definition wide (beam : bool) : fluid := mkfl 3 0 7 3 8 1 "linear" beam None.
Lemma wide_domain b : domain 3 (wide b).
Proof. unfold domain, wide; cbn. repeat split; try lra; try lia. left. reflexivity. Qed.
Example C87_example : domain 3 (wide true) /\ (0 <= 4 <= c_nxi (wide true) - 4)%Z /\ same_laser_from 4 (wide true) None /\
  let xi := c_ximin (wide true) + (IZR 4 - 1) * step_xi (wide true) in
  List.Forall2 (fun l l' => filter (ahead xi) l = filter (ahead xi) l') [[((0, 0, 2), 1); ((1, 0, 5), 2)]] [[((1, 0, 5), 2)]] /\
  inside (fluid_grid 1 (wide true)) (fst (counted 1 1 ((0, 0, 2), 1))).
Proof.
  assert (Es : step_xi (wide true) = 1) by (unfold step_xi, wide; cbn [c_ximax c_ximin c_nxi]; field).
  split; [apply wide_domain|]. split; [cbn; lia|]. split.
  { intros a a' Ha Ha' i j _ _. apply (strength_unique (wide true)); assumption. }
  cbv zeta. rewrite Es. change (c_ximin (wide true)) with 0. split.
  - constructor; [|constructor]. cbn [filter]. unfold ahead, lon; cbn [fst snd].
    destruct (Rle_dec 2 (0 + (4 - 1) * 1)) as [_|N]; [|exfalso; lra]. reflexivity.
  - unfold inside, counted, lon, radius, z_last, r_edge, fluid_grid; cbn [fst snd dg_zmin dg_dz dg_nz dg_dr dg_nr]. rewrite Es. unfold step_r, wide; cbn [c_ximin c_nxi c_rmax c_nr].
    replace (0 / 1 * (0 / 1) + 0 / 1 * (0 / 1)) with 0 by field. rewrite sqrt_0. lra.
Qed.

(** C88: the fields fit together. The theorem of Panofsky and Wenzel: *)
Theorem C88_panofsky_wenzel : forall s E0 e light W bunches F a n psi i j, domain 3 W ->
  solution s E0 e light W bunches F a n psi -> point W i j ->
  d_xi W (fun i j => inner (h_er F) i j - light * inner (h_bt F) i j) i j = d_r W (inner (h_ez F)) i j.
Proof.
  intros s E0 e c W bunches F a n psi i j D H [P1 P2]. unfold d_xi, d_r. destruct D as (_ & _ & Nx & Nr & _).
  rewrite (gradient2_ext _ (fun i => - (E0 * s) * gradient2 (fun j => psi i j) (c_nr W) (step_r W) j) (c_nxi W) _ i Nx P1).
  2:{ intros k K. rewrite (sol_force _ _ _ _ _ _ _ _ _ _ H k j (conj K P2)). reflexivity. }
  rewrite (gradient2_ext (fun j => inner (h_ez F) i j) (fun j => - (E0 * s) * gradient2 (fun i => psi i j) (c_nxi W) (step_xi W) i) (c_nr W) _ j Nr P2).
  2:{ intros k K. rewrite (sol_ez _ _ _ _ _ _ _ _ _ _ H i k (conj P1 K)). reflexivity. }
  apply gradient2_commute.
Qed.
Print Assumptions C88_panofsky_wenzel.
(** Without [beam_wakefields] the bunches change neither the plasma nor the longitudinal and transverse
    forces on particles that travel with the wake... *)
Theorem C88_laser_only : forall s E0 e light W bunches bunches' F a n psi F' a' n' psi' i j, domain 3 W -> 0 < s -> c_beam W = false ->
  solution s E0 e light W bunches F a n psi -> solution s E0 e light W bunches' F' a' n' psi' -> point W i j ->
  inner (h_ez F) i j = inner (h_ez F') i j /\
  inner (h_er F) i j - light * inner (h_bt F) i j = inner (h_er F') i j - light * inner (h_bt F') i j /\
  (1 + psi i j <> 0 -> inner (h_chi F) i j = inner (h_chi F') i j /\ inner (h_rho F) i j = inner (h_rho F') i j).
Proof.
  intros s E0 e c W bunches bunches' F a n psi F' a' n' psi' i j D S B H H' P.
  assert (H1 : solution s E0 e c (with_laser W (c_laser W)) bunches' F' a' n' psi') by (destruct W; exact H').
  assert (Ea : forall i j, point W i j -> (0 <= i)%Z -> a i j = a' i j) by (intros; apply (strength_unique W a a' (sol_laser _ _ _ _ _ _ _ _ _ _ H) (sol_laser _ _ _ _ _ _ _ _ _ _ H'))).
  assert (Ep : forall i j, point W i j -> (0 <= i)%Z -> psi i j = psi' i j).
  { intros k l [K1 K2] _. apply (column_lemma s W (c_laser W) a n psi a' n' psi' 0 l K2 ltac:(lia) (sol_psi _ _ _ _ _ _ _ _ _ _ H) (sol_psi _ _ _ _ _ _ _ _ _ _ H1)); [| |exact K1].
    - intros q Q. apply Ea; [split; lia|lia].
    - rewrite B. discriminate. }
  assert (I0 : (0 <= i)%Z) by (destruct P; lia).
  split; [apply (ez_same _ _ _ _ _ _ _ _ _ _ _ _ _ _ _ _ 0%Z D ltac:(lia) H H1 Ep i j P); [unfold domain in D; lia|lia]|].
  split; [apply (force_same _ _ _ _ _ _ _ _ _ _ _ _ _ _ _ _ 0%Z D H H1 Ep i j P I0)|].
  intros Q. split; [apply (chi_same _ _ _ _ _ _ _ _ _ _ _ _ _ _ _ _ 0%Z H H1 Ep i j P I0 Q)|apply (rho_same _ _ _ _ _ _ _ _ _ _ _ _ _ _ _ _ 0%Z H H1 Ep Ea i j P I0 Q)].
Qed.
Print Assumptions C88_laser_only.
(** ... but their own azimuthal field is added to the field of the plasma all the same. *)
Theorem C88_own_field : forall s E0 e light W bunches bunches' F a n psi F' a' n' psi' i j, domain 3 W -> 0 < s -> c_beam W = false ->
  solution s E0 e light W bunches F a n psi -> solution s E0 e light W bunches' F' a' n' psi' -> regular W psi -> point W i j ->
  light * (inner (h_bt F) i j - inner (h_bt F') i j) * ((IZR j + / 2) * step_r W) = disk W (fun k => E0 / s * (n i k - n' i k)) j.
Proof.
  intros s E0 e c W bunches bunches' F a n psi F' a' n' psi' i j D S B H H' Rg P.
  assert (H1 : solution s E0 e c (with_laser W (c_laser W)) bunches' F' a' n' psi') by (destruct W; exact H').
  assert (Ea : forall i j, point W i j -> (0 <= i)%Z -> a i j = a' i j) by (intros; apply (strength_unique W a a' (sol_laser _ _ _ _ _ _ _ _ _ _ H) (sol_laser _ _ _ _ _ _ _ _ _ _ H'))).
  assert (Ep : forall i j, point W i j -> (0 <= i)%Z -> psi i j = psi' i j).
  { intros k l [K1 K2] _. apply (column_lemma s W (c_laser W) a n psi a' n' psi' 0 l K2 ltac:(lia) (sol_psi _ _ _ _ _ _ _ _ _ _ H) (sol_psi _ _ _ _ _ _ _ _ _ _ H1)); [| |exact K1].
    - intros q Q. apply Ea; [split; lia|lia].
    - rewrite B. discriminate. }
  apply (bt_diff _ _ _ _ _ _ _ _ _ _ _ _ _ _ _ _ 0%Z D ltac:(lia) H H1 Ep Ea i j P ltac:(lia) ltac:(lia)).
  intros k K. apply Rg. destruct P. split; assumption.
Qed.
(** So a bunch changes the fields although [beam_wakefields] is off. *)
Theorem C88_no_bunch_fields_refuted : exists bunches F F' i j, point (wide false) i j /\
  fluid_wakefield (fun _ => 1) (fun _ => 1) 1 1 (wide false) bunches = Returned (Ok F) /\
  fluid_wakefield (fun _ => 1) (fun _ => 1) 1 1 (wide false) [] = Returned (Ok F') /\
  inner (h_bt F) i j <> inner (h_bt F') i j.
Proof.
  set (W := wide false). set (bunches := [[((0, 0, 2), 1)] : list (pos * R)]). pose proof (wide_domain false) as D. fold W in D.
  destruct (C85_solution (fun _ => 1) (fun _ => 1) 1 1 W bunches D ltac:(lra) ltac:(lra)) as (F & a & n & psi & E & H).
  destruct (C85_solution (fun _ => 1) (fun _ => 1) 1 1 W [] D ltac:(lra) ltac:(lra)) as (F' & a' & n' & psi' & E' & H').
  cbv beta in H, H'.
  assert (Ea : forall i j, a i j = 0).
  { intros i j. destruct (sol_laser _ _ _ _ _ _ _ _ _ _ H i j) as [A1 A2]. cbn [W wide c_laser] in A2. nra. }
  assert (Rg : regular W psi).
  { intros i j P. rewrite (quiet_lemma 1 W a n psi (sol_psi _ _ _ _ _ _ _ _ _ _ H)); [lra| |exact P]. intros; split; [apply Ea|discriminate]. }
  assert (En' : forall i j, point W i j -> n' i j = 0).
  { intros. apply (density_outside 1 1 W (domain_2 W D) ltac:(lra) [] n' i j (sol_bunches _ _ _ _ _ _ _ _ _ _ H')); [constructor|assumption]. }
  assert (T := C85_particles 1 1 W bunches n D ltac:(lra) (sol_bunches _ _ _ _ _ _ _ _ _ _ H) ltac:(cbn; lia)).
  assert (V : particles_inside 1 1 W bunches = 1).
  { unfold particles_inside, charge_inside. cbn [bunches concat app map fold_right]. destruct (inside_dec _ _) as [_|N]; [unfold counted; cbn [snd]; field|].
    exfalso. apply N. destruct C87_example as (_ & _ & _ & _ & I). exact I. }
  rewrite V in T. clear V.
  match type of T with sum_range _ ?f = _ => destruct (sum_nonzero f (c_nxi W) ltac:(cbn; lia) ltac:(lra)) as (i & I & Ni) end.
  cbv beta in Ni. destruct (sum_nonzero _ (c_nr W) ltac:(cbn; lia) Ni) as (j & J & Nj).
  destruct (steps_pos W (domain_2 W D)) as [_ Sr].
  destruct (disk_nonzero W (fun k => 1 / 1 * (n i k - n' i k)) Sr j ltac:(lia)) as (k & K & Nk).
  { rewrite En' by (split; assumption). intros Z0. apply Nj. replace (n i j) with 0 by lra. ring. }
  exists bunches, F, F', i, k. assert (P : point W i k) by (split; lia).
  split; [exact P|]. split; [exact E|]. split; [exact E'|]. intros Eq. apply Nk.
  rewrite <- (C88_own_field 1 1 1 1 W bunches [] F a n psi F' a' n' psi' i k D ltac:(lra) eq_refl H H' Rg P), Eq. ring.
Qed.
Print Assumptions C88_no_bunch_fields_refuted.
(** The sum that stands for the integral of the current: for a uniform current it is too large by an
    eighth of the square of the step, so that the field in the first ring is twice the right value. *)
Theorem C88_uniform_current : forall W J j, (0 <= j)%Z ->
  let r := (IZR j + / 2) * step_r W in disk W (fun _ => J) j = J * (r ^ 2 / 2) + J * (step_r W ^ 2 / 8).
Proof. intros W J j H r. rewrite disk_uniform by exact H. unfold r. ring. Qed.
Theorem C88_axis_refuted : forall W J, let r := / 2 * step_r W in disk W (fun _ => J) 0 = 2 * (J * (r ^ 2 / 2)).
Proof. intros W J r. rewrite disk_uniform by lia. unfold r. field. Qed.
Example C88_example : exists F n psi, fluid_wakefield (fun _ => 1) (fun _ => 1) 1 1 strong [] = Returned (Ok F) /\ c_beam strong = false /\
  solution 1 1 1 1 strong [] F (fun _ _ => 1) n psi /\ regular strong psi /\ point strong 1 0.
Proof.
  destruct strong_run as (F & n & psi & E & H & Rg & _). exists F, n, psi. repeat (split; [assumption || reflexivity|]). unfold point; cbn; lia.
Qed.

(** C89: errors. *)
Theorem C89_points : forall skin_depth wave_breaking e light W bunches, domain 2 W -> 0 < skin_depth (c_np W / 1000000) ->
  (c_nxi W = 2 \/ c_nr W = 2)%Z -> fluid_wakefield skin_depth wave_breaking e light W bunches = ValueError.
Proof.
  intros sd wb e c W bunches D S N. unfold fluid_wakefield. destruct (bunches_lemma sd e W D S bunches) as (A & -> & _). cbn [cbind].
  destruct (potential_lemma sd W D S (beam_hist sd W A)) as (l & -> & _). cbn [cbind]. unfold fluid_fields.
  destruct N as [-> | ->]; [reflexivity|]. replace (Z.ltb 2 3) with true by reflexivity. rewrite orb_true_r. reflexivity.
Qed.
Theorem C89_shape : forall skin_depth wave_breaking e light W b bunches, ~ shape_name (c_shape W) ->
  fluid_wakefield skin_depth wave_breaking e light W (b :: bunches) = ValueError.
Proof.
  intros sd wb e c W b bunches N. unfold fluid_wakefield. cbn [deposit_bunches]. unfold deposit_3d_distribution.
  destruct (String.eqb_spec (c_shape W) "linear") as [E|_]; [exfalso; apply N; left; exact E|].
  destruct (String.eqb_spec (c_shape W) "cubic") as [E|_]; [exfalso; apply N; right; exact E|]. reflexivity.
Qed.
Theorem C89_returns : forall skin_depth wave_breaking e light W bunches, domain 3 W -> 0 < skin_depth (c_np W / 1000000) -> light <> 0 ->
  exists F, fluid_wakefield skin_depth wave_breaking e light W bunches = Returned (Ok F).
Proof.
  intros sd wb e c W bunches D S L. destruct (C85_solution sd wb e c W bunches D S L) as (F & _ & _ & _ & E & _). exists F. exact E.
Qed.
Print Assumptions C89_returns.
Example C89_example : domain 3 strong /\ domain 2 (mkfl 1 0 1 2 5 1 "cubic" true None) /\ ~ shape_name "quadratic".
Proof.
  split; [exact strong_domain|]. split; [unfold domain; cbn; repeat split; try lra; try lia; right; reflexivity|]. intros [X|X]; discriminate.
Qed.
