(** Proofs: densities and derivatives of the calculated wakefields; a plasma without driver. *)
From Coq Require Import Reals ZArith String List Bool Arith Lia Lra Permutation.
From Verif Require Import Model_Push Model_Interp Spec_Interp Proofs_Interp Model_Deposit Spec_Deposit Proofs_Deposit
  Model_Psi Proofs_Psi5 Model_BTheta Model_QS Spec_QS Proofs_QS Proofs_QS2 Proofs_QS3 Proofs_QS4 Proofs_QS5 Proofs_QS6 Proofs_QS7.
Import ListNotations.
Open Scope R_scope.

Lemma slice_unique argsort U p st0 G0 i st G : at_slice argsort U p st0 G0 i st G ->
  forall st' G', at_slice argsort U p st0 G0 i st' G' -> st = st' /\ G = G'.
Proof.
  assert (B : forall i st G, at_slice argsort U p st0 G0 i st G -> (Z.of_nat i <= u_nxi U - 1)%Z).
  { intros k s H A. induction A; lia. }
  intros A. induction A as [i st G Ei E | i st G st' st'' G'' A IH Ev E]; intros s H A'.
  - inversion A'; subst.
    + rewrite E in H1. injection H1 as <- <-. auto.
    + apply B in H0. lia.
  - inversion A'; subst.
    + apply B in A. lia.
    + destruct (IH _ _ H0) as [<- <-]. rewrite Ev in H1. injection H1 as <-. rewrite E in H2. injection H2 as <- <-. auto.
Qed.
Lemma slices_keep g argsort U p st0 G0 n i st G : set_on g U -> column_of n st0 -> outside_axis st0 -> grids_on g G0 ->
  at_slice argsort U p st0 G0 i st G ->
  forall j st' G', (i <= j)%nat -> at_slice argsort U p st0 G0 j st' G' -> same_grids_from (Z.of_nat j) (reach (u_shape U)) G' G.
Proof.
  intros H C0 O0 D0 A. assert (Nx : u_nxi U = gnz g) by (destruct H as (_ & _ & X & _); exact X).
  induction A as [i st G Ei E | i st G st' st'' G'' A IH Ev E]; intros j s1 G1 J A1.
  - assert (j = i) as ->.
    { assert (Q : (Z.of_nat j < gnz g)%Z) by (apply (slice_ok g argsort U p st0 G0 n j s1 G1 H C0 O0 D0 A1)). lia. }
    destruct (slice_unique _ _ _ _ _ _ _ _ A1 st G) as [_ ->]; [|apply same_grids_refl]. apply front; assumption.
  - destruct (Nat.eq_dec j i) as [->|N].
    + destruct (slice_unique _ _ _ _ _ _ _ _ A1 st'' G'') as [_ ->]; [|apply same_grids_refl]. eapply behind; eassumption.
    + destruct (slice_ok g argsort U p st0 G0 n (S i) st G H C0 O0 D0 A) as (I & C & O & D & _).
      destruct (evolve_ok g argsort U p (nth (S i) (u_xi U) 0) st n H C) as (st1 & E1 & C1 & O1 & F1).
      rewrite Ev in E1. injection E1 as <-.
      apply (same_grids_trans _ _ _ G); [apply (IH j s1 G1); [lia|exact A1]|].
      apply (same_grids_le (Z.of_nat i + 1)); [lia|].
      apply (column_rows g argsort U i (nth i (u_xi U) 0) st' G n st'' G''); auto. lia.
Qed.
Lemma slice_exists argsort U p st0 G0 i st G : at_slice argsort U p st0 G0 i st G ->
  forall j, (i <= j)%nat -> (Z.of_nat j < u_nxi U)%Z -> exists st' G', at_slice argsort U p st0 G0 j st' G'.
Proof.
  intros A. induction A as [i st G Ei E | i st G st' st'' G'' A IH Ev E]; intros j J N.
  - assert (j = i) as -> by lia. exists st, G. apply front; assumption.
  - destruct (Nat.eq_dec j i) as [->|NE]; [|apply IH; lia]. exists st'', G''. eapply behind; eassumption.
Qed.

Section Densities.
  Variables (argsort : list R -> list nat) (skin_depth wave_breaking : R -> R) (charge_e light : R) (A : args).
  Hypothesis VA : valid skin_depth A.
  Lemma slices_of laser bunches F :
    calculate_wakefields argsort skin_depth wave_breaking charge_e light A laser bunches = Returned (Ok F) ->
    exists b p st G, beam_sources skin_depth charge_e (a_np A) (beam_grid skin_depth A) (a_shape A) bunches (zeros2 (a_nxi A) (a_nr A)) = Returned (Ok b) /\
      (a_pusher A = "rk4"%string /\ p = RK4 \/ a_pusher A = "ab5"%string /\ p = AB5) /\ field_array A b /\ grids_on (the_grid skin_depth A) G /\
      (let z := zeros2 (a_nxi A) (a_nr A) in
       at_slice argsort (the_setup skin_depth A laser b) p (start (the_column skin_depth A)) (mkgr z z z z) 0 st G) /\
      derived_fields skin_depth wave_breaking light A b G = Returned (Ok F).
  Proof.
    intros E. destruct (wakefields_ok argsort skin_depth wave_breaking charge_e light A VA laser bunches)
      as (b & p & st & G & F1 & (Eb & Es) & Pp & Fb & D & Ed & E1 & _).
    rewrite E in E1. injection E1 as <-. exists b, p, st, G. split; [exact Eb|]. split; [exact Pp|]. split; [exact Fb|]. split; [exact D|]. split; [|exact Ed].
    cbv zeta in Es |- *. assert (N : (3 <= a_nxi A)%Z) by (destruct VA as (_ & _ & _ & _ & X & _); exact X).
    replace (Z.to_nat (a_nxi A)) with (S (Z.to_nat (a_nxi A) - 1)) in Es by lia.
    apply (run_slices argsort _ p _ _ (Z.to_nat (a_nxi A) - 1)); [cbn [u_nxi the_setup]; lia|exact Es].
  Qed.
  Lemma derived_are b G F : derived_fields skin_depth wave_breaking light A b G = Returned (Ok F) ->
    let E_0 := wave_breaking (a_np A / 1000000) in
    let psi i j := inner (g_psi G) i j in
    h_rho F = g_rho G /\ h_chi F = g_chi G /\
    (forall i j, (0 <= i < a_nxi A)%Z -> (0 <= j < a_nr A)%Z ->
       inner (h_bt F) i j = (inner (g_bt G) i j + inner b i j) * E_0 / light /\
       inner (h_ez F) i j = - gradient2 (fun i => psi i j) (a_nxi A) (n_dxi skin_depth A) i * E_0 /\
       inner (h_er F) i j - inner (h_bt F) i j * light = - gradient2 (fun j => psi i j) (a_nr A) (n_dr skin_depth A) j * E_0).
  Proof.
    unfold derived_fields. destruct (orb _ _); [discriminate|]. intros E. injection E as <-. cbv zeta. cbn [h_rho h_chi h_bt h_ez h_er].
    replace 1e-6 with (/ 1000000) by lra. change (a_np A * / 1000000) with (a_np A / 1000000).
    split; [reflexivity|]. split; [reflexivity|]. intros i j I J. split; [reflexivity|]. split.
    - rewrite inner_part_inner by assumption. reflexivity.
    - unfold inner at 1 2. cbn [cell].
      match goal with |- ?x + ?y - ?y = _ => replace (x + y - y) with x by ring end.
      match goal with |- (if ?c then _ else _) = _ => replace c with true end.
      + replace (i + 2 - 2)%Z with i by lia. replace (j + 2 - 2)%Z with j by lia. reflexivity.
      + symmetry. rewrite !andb_true_iff, !Z.leb_le, !Z.ltb_lt. lia.
  Qed.
  Lemma charges_nonneg laser b : 0 <= a_pc A -> forall q, In q (u_q (the_setup skin_depth A laser b)) -> 0 <= q.
  Proof.
    intros P q Q. destruct (start_ok skin_depth A VA) as (n & _ & O & _).
    change (u_q (the_setup skin_depth A laser b)) with
      (map (fun r_i => n_dr skin_depth A / a_ppc A * r_i + n_dr skin_depth A / a_ppc A * n_pc skin_depth A * r_i ^ 3) (p_r (the_column skin_depth A))) in Q.
    apply in_map_iff in Q. destruct Q as (x & <- & X). apply O in X.
    pose proof (widths skin_depth A VA) as [_ W]. pose proof (s_pos skin_depth A VA) as S.
    assert (D : 0 < n_dr skin_depth A / a_ppc A).
    { rewrite (n_dr_eq skin_depth A VA). apply Rdiv_lt_0_compat; [apply Rdiv_lt_0_compat; assumption|]. destruct VA as (_ & _ & _ & _ & _ & Y & _). exact Y. }
    assert (0 <= n_pc skin_depth A) by (unfold n_pc; apply Rmult_le_pos; [exact P|apply pow2_ge_0]).
    assert (0 <= x ^ 3) by (apply pow_le; exact X).
    set (w := n_dr skin_depth A / a_ppc A) in *. set (v := n_pc skin_depth A) in *. set (y := x ^ 3) in *. clearbody w v y.
    apply Rplus_le_le_0_compat; [apply Rmult_le_pos; lra|]. apply Rmult_le_pos; [apply Rmult_le_pos|]; lra.
  Qed.
  Lemma dense_lemma laser bunches F : (forall i j, (0 <= i < a_nxi A)%Z -> (0 <= j < a_nr A)%Z -> 0 <= cell laser i j) ->
    1 < a_maxg A -> 0 <= a_pc A ->
    calculate_wakefields argsort skin_depth wave_breaking charge_e light A laser bunches = Returned (Ok F) ->
    forall i j, 0 <= cell (h_chi F) i j <= cell (h_rho F) i j.
  Proof.
    intros L Mg P E. destruct (slices_of laser bunches F E) as (b & p & st & G & _ & _ & Fb & _ & As & Ed).
    destruct (derived_are b G F Ed) as (-> & -> & _). destruct (start_ok skin_depth A VA) as (n & C & O & Z0).
    apply (slice_dense (the_grid skin_depth A) argsort (the_setup skin_depth A laser b) p _ _ n 0 st G (setup_on skin_depth A VA laser b Fb) C O (zeros_on skin_depth A)); auto.
    - intros i j I J. cbn in I, J. unfold the_setup; cbn [u_a2]. rewrite inner_part_inner by assumption. apply L; assumption.
    - intros s S. rewrite (Z0 s S). cbn. lra.
    - apply charges_nonneg. exact P.
    - intros i j. cbn. lra.
  Qed.
End Densities.

(** ** One ring of electrons without driver *)
Definition still : args := mkargs 3 0 2 3 3 1 1 (Some 1) 0 "linear" 10 "rk4" [1/2; 3/2; 5/2] [0; 1; 2].
Lemma still_valid : valid (fun _ => 1) still.
Proof.
  unfold valid, ring_width, slice_at, slice_width; cbn. split; [lra|]. split; [lra|]. split; [lra|]. split; [lia|]. split; [lia|].
  split; [lra|]. split; [lra|]. split; [left; reflexivity|]. split; [left; reflexivity|]. split; change (Pos.to_nat 3) with 3%nat; cbn [seq map INR Z.of_nat Pos.of_succ_nat Pos.succ].
  - repeat (apply f_equal2; [lra|]). reflexivity.
  - repeat (apply f_equal2; [lra|]). reflexivity.
Qed.
Lemma still_number : n_part 1 1 1 = 1%nat.
Proof.
  unfold n_part, round_even. replace (1 / 1 * 1) with 1 by lra.
  assert (I : Int_part 1 = 1%Z). { unfold Int_part. replace (up 1) with 2%Z; [reflexivity|]. apply tech_up; lra. }
  unfold frac_part. rewrite I. destruct (Rlt_dec (1 - 1) (/ 2)); [reflexivity|lra].
Qed.
Lemma still_column : the_column (fun _ => 1) still = mkcol [/ 2] [0] [0] [1] [/ 2].
Proof.
  unfold the_column, n_rplasma, n_pc, n_dr, s_d; cbn [a_rplasma a_pc a_rmax a_nr a_ppc still].
  replace (1 / 1) with 1 by lra. replace (3 / 1 / 3) with 1 by lra. unfold initialize. rewrite still_number. cbn [seq map repeat].
  unfold linspace, adjusted_radius. rewrite still_number. cbn [Z.of_nat Nat.sub]. f_equal; f_equal.
  - cbn. lra.
  - cbn. unfold linspace. cbn. lra.
Qed.

Lemma rd2_zero a i j v : (forall i j, cell a i j = 0) -> rd2 a i j = Ok v -> v = 0.
Proof. intros H. unfold rd2. destruct (andb _ _); [|discriminate]. intros E. injection E as <-. apply H. Qed.
Lemma interpolate_zero a p s v : (forall i j, cell a i j = 0) -> interpolate4 a p s = Ok v -> v = 0.
Proof.
  intros H. unfold interpolate4. 
  destruct (rd2 a (iz_lower p) (ir_lower p)) as [a1|] eqn:E1; [|discriminate]. cbn [bind].
  destruct (rd2 a (iz_lower p) (ir_upper p)) as [a2|] eqn:E2; [|discriminate]. cbn [bind].
  destruct (rd2 a (iz_upper p) (ir_lower p)) as [a3|] eqn:E3; [|discriminate]. cbn [bind].
  destruct (rd2 a (iz_upper p) (ir_upper p)) as [a4|] eqn:E4; [|discriminate]. cbn [bind].
  intros E. injection E as <-. rewrite (rd2_zero _ _ _ _ H E1), (rd2_zero _ _ _ _ H E2), (rd2_zero _ _ _ _ H E3), (rd2_zero _ _ _ _ H E4). ring.
Qed.
Lemma gather_zero a b c g z r o v : (forall i j, cell a i j = 0) -> (forall i j, cell b i j = 0) -> (forall i j, cell c i j = 0) ->
  o = (0, 0, 0) -> gather_sources1 a b c g z r o = Ok v -> v = (0, 0, 0).
Proof.
  intros H1 H2 H3 ->. unfold gather_sources1. destruct (within g z r); [|intros E; injection E as <-; reflexivity]. cbv zeta.
  destruct (interpolate4 a _ _) as [v1|] eqn:E1; [|discriminate]. cbn [bind].
  destruct (interpolate4 b _ _) as [v2|] eqn:E2; [|discriminate]. cbn [bind].
  destruct (interpolate4 c _ _) as [v3|] eqn:E3; [|discriminate]. cbn [bind].
  intros E. injection E as <-. apply interpolate_zero in E1, E2, E3; auto. congruence.
Qed.
Lemma inner_zero n m f i j : (forall i j, f i j = 0) -> cell (inner_part n m f) i j = 0.
Proof. intros H. cbn. destruct (andb _ _); [apply H|reflexivity]. Qed.
Lemma gradient_zero a d i j : (forall i j, cell a i j = 0) -> radial_gradient a d i j = 0.
Proof.
  intros H. unfold radial_gradient, gradient1. cbv zeta.
  repeat match goal with |- context [if ?c then _ else _] => destruct c end; rewrite ?H; unfold Rdiv; ring.
Qed.
Lemma ln2 : / 2 < ln 2.
Proof.
  rewrite <- (ln_exp (/ 2)). apply ln_increasing; [apply exp_pos|].
  assert (E : exp (/ 2) * exp (/ 2) <= 3). { rewrite <- exp_plus. replace (/ 2 + / 2) with 1 by lra. apply exp_le_3. }
  pose proof (exp_pos (/ 2)). nra.
Qed.
(** The potential at the electron. *)
Definition still_psi : R := (/ 4 - ln 2 / 2) / 2.
Lemma still_at : psi_at_particles [/ 2] [0] [/ 2] [0%nat] 1 1 0 = ([still_psi], [0], [0]).
Proof.
  pose proof ln2 as L2. assert (B2 : ln 2 < 1).
  { rewrite <- (ln_exp 1). apply ln_increasing; [lra|]. pose proof (exp_ineq1 1 ltac:(lra)). lra. }
  assert (Lh : ln (/ 2) = - ln 2) by (apply ln_Rinv; lra).
  unfold psi_at_particles, last_right, sum_1_of, sum_2_of, take. cbn [take map nth psi_loop put assign repeat length fst snd last_right last sum_1_of sum_2_of total map2 left_of right_of].
  set (X := delta_psi_eq (/ 2 + 1 / 2) (0 + / 2) (0 + / 2 * ln (/ 2)) 1 0).
  assert (EX : X = ln 2 / 2 - / 4).
  { unfold X, delta_psi_eq. replace (/ 2 + 1 / 2) with 1 by lra. rewrite ln_1, Lh. destruct (Rle_dec 1 1); [|lra]. lra. }
  assert (Em : Rmax (/ 2 + 1 / 2) 1 = / 2 + 1 / 2) by (apply Rmax_left; lra). rewrite Em. fold X.
  assert (Ed : dr_psi_eq (/ 2 + 1 / 2) (0 + / 2) 1 0 = 0).
  { unfold dr_psi_eq. replace (/ 2 + 1 / 2) with 1 by lra. destruct (Rle_dec 1 1); [|lra]. lra. }
  rewrite Ed.
  assert (Ep : bounded_psi (between 0 (/ 2 + 1 / 2) 0 X (/ 2) - X) = still_psi).
  { unfold between, bounded_psi. rewrite EX. replace (/ 2 + 1 / 2) with 1 by lra. unfold still_psi.
    match goal with |- (if Rlt_dec ?a ?b then _ else _) = _ => destruct (Rlt_dec a b) end; lra. }
  rewrite Ep. f_equal; [f_equal|].
  - unfold between. f_equal. unfold Rdiv. ring.
  - cbn [dxi_loop map put assign]. f_equal. unfold dxi_boundary, sum_3_of, terms_3; cbn [combine map2 total fst snd last_right last].
    unfold sum_1_of, last_right; cbn [total last].
    replace (/ 2 * 0 / (/ 2 * (1 + still_psi))) with 0 by (unfold Rdiv; ring).
    match goal with |- context [between ?a ?b ?c ?d ?e] => assert (between a b c d e = 0) as -> by (unfold between, Rdiv; cbn [left_of]; ring) end.
    match goal with |- context [Rle_dec ?a ?b] => destruct (Rle_dec a b); [|lra] end. unfold clip3.
    destruct (Rlt_dec 3 _); [lra|]. destruct (Rlt_dec _ (-3)); lra.
Qed.

Lemma still_gamma : still_psi < 0 /\ -(/ 2) < still_psi.
Proof.
  pose proof ln2 as L2. assert (B2 : ln 2 < 1).
  { rewrite <- (ln_exp 1). apply ln_increasing; [lra|]. pose proof (exp_ineq1 1 ltac:(lra)). lra. }
  unfold still_psi. lra.
Qed.
Lemma still_field b : exists x out,
  calculate_b_theta (fun x => x) 1 [1/2; 3/2; 5/2] (mkpl [/ 2] [0] [/ 2] [new_gamma 0 0 still_psi] [still_psi] [0] [0] [0] [0]) [0%nat] b 2 = Some out /\
  cell out 4 2 = x /\ x <> 0.
Proof.
  destruct still_gamma as [P1 P2].
  unfold calculate_b_theta, ai_bi_from_axis. cbn [map homs last e_r length repeat passes inhs accept orb app skipn put assign fst snd].
  eexists. eexists. split; [reflexivity|]. split; [reflexivity|].
  cbn [cell set_row take map nth on_grid length Z.of_nat]. unfold search_from. cbn [Z.to_nat skipn search].
  destruct (Rle_dec (1 / 2) (/ 2)); [|lra]. cbn [Z.sub Z.eqb Z.opp Z.add Pos.sub Z.pos_sub].
  set (psi := still_psi) in *. clearbody psi.
  destruct (Rle_dec (3 / 2) (/ 2)); [lra|]. cbn [Z.eqb Z.to_nat skipn search]. destruct (Rle_dec (5 / 2) (/ 2)); [lra|].
  cbn [Z.eqb length set_row cell Z.of_nat Pos.of_succ_nat Pos.succ Z.add Pos.add Z.leb Z.ltb Z.compare Pos.compare Pos.compare_cont andb Z.sub Z.opp Z.pos_sub Pos.pred_double Z.to_nat nth].
  cbn. unfold new_gamma. intros E.
  assert (Q : (1 - (1 + psi) ^ 2) / (2 * (1 + psi) ^ 2 * (4 * (1 + psi) + 1)) * / 2 = 0).
  { rewrite <- E. replace 0.5 with (/ 2) by lra. replace 0.25 with (/ 4) by lra. field. repeat split; lra. }
  assert (0 < 1 - (1 + psi) ^ 2) by nra.
  assert (0 < 2 * (1 + psi) ^ 2 * (4 * (1 + psi) + 1)). { apply Rmult_lt_0_compat; [|lra]. apply Rmult_lt_0_compat; [lra|]. apply pow_lt. lra. }
  pose proof (Rdiv_lt_0_compat _ _ H H0). lra.
Qed.
Lemma sweep_step argsort U p k st g : sweep argsort U p (S (S k)) st g =
  do (st, g) <- calculate_and_deposit_plasma_column argsort U (S k) (nth (S k) (u_xi U) 0) st g;
  do st <- evolve argsort U p (nth (S k) (u_xi U) 0) st; sweep argsort U p (S k) st g.
Proof. reflexivity. Qed.
Lemma still_refutes argsort wave_breaking charge_e light : (forall x, argsort [x] = [0%nat]) ->
  wave_breaking (1 / 1000000) <> 0 -> light <> 0 ->
  exists F, calculate_wakefields argsort (fun _ => 1) wave_breaking charge_e light still (mka 3 3 (fun _ _ => 0)) [] = Returned (Ok F) /\
    inner (h_bt F) 2 0 <> 0.
Proof.
  intros Ha Hw Hl.
  set (laser := mka 3 3 (fun _ _ => 0)).
  destruct (wakefields_ok argsort (fun _ => 1) wave_breaking charge_e light still still_valid laser []) as (b & p & st & G & F & (Eb & Es) & Pp & Fb & D & Ed & E1 & _).
  exists F. split; [exact E1|]. cbv zeta in Eb, Es. cbn [beam_sources] in Eb.
  assert (Hb : b = zeros2 (a_nxi still) (a_nr still)) by (injection Eb as <-; reflexivity). subst b. clear Eb.
  set (z := zeros2 (a_nxi still) (a_nr still)) in *.
  set (U := the_setup (fun _ => 1) still laser z) in *.
  destruct (derived_are _ _ _ _ z G F Ed) as (_ & _ & Dv). destruct (Dv 2%Z 0%Z ltac:(cbn; lia) ltac:(cbn; lia)) as (-> & _).
  assert (HU : set_on (the_grid (fun _ => 1) still) U) by (apply setup_on; [apply still_valid|exact Fb]).
  destruct (start_ok (fun _ => 1) still still_valid) as (n & C & O & _).
  change (Z.to_nat (a_nxi still)) with 3%nat in Es. rewrite sweep_step in Es.
  set (st0 := start (the_column (fun _ => 1) still)) in *. set (G0 := mkgr z z z z) in *.
  destruct (column_ok (the_grid (fun _ => 1) still) argsort U 2 (nth 2 (u_xi U) 0) st0 G0 n HU C O (zeros_on _ _) ltac:(cbn; lia))
    as (st1 & G1 & Ec & C1 & R1 & D1 & _).
  assert (O1 : outside_axis st1) by (unfold outside_axis; rewrite R1; exact O).
  rewrite Ec in Es. cbn [bind] in Es.
  destruct (evolve_ok (the_grid (fun _ => 1) still) argsort U p (nth 2 (u_xi U) 0) st1 n HU C1) as (st2 & Ev & C2 & O2 & _).
  rewrite Ev in Es. cbn [bind] in Es.
  pose proof (sweep_rows (the_grid (fun _ => 1) still) argsort U p n HU 2 st2 G1 st G ltac:(cbn; lia) C2 O2 D1 Es) as [Row _].
  destruct (Row 4%Z 2%Z ltac:(cbn; lia)) as [_ B].
  unfold inner. change (2 + 2)%Z with 4%Z. change (0 + 2)%Z with 2%Z. rewrite B.
  change (cell z 4 2) with 0. change (a_np still) with 1.
  (* the first column *)
  assert (X : exists x, cell (g_bt G1) 4 2 = x /\ x <> 0).
  { clear - Ha Ec HU. unfold calculate_and_deposit_plasma_column in Ec. revert Ec.
    assert (Er : t_r st0 = [/ 2]) by (unfold st0; rewrite still_column; reflexivity).
    assert (Ep : t_pr st0 = [0]) by (unfold st0; rewrite still_column; reflexivity).
    assert (Ef : f_src (t_felt st0) = [(0, 0, 0)]) by (unfold st0; rewrite still_column; reflexivity).
    unfold at_particles. rewrite Er, Ep, Ef. rewrite !Ha.
    assert (Eq : u_q U = [/ 2]) by (unfold U, the_setup; cbn [u_q]; rewrite still_column; reflexivity).
    assert (Em : u_rmax U = 1).
    { unfold U, the_setup; cbn [u_rmax]. unfold n_rplasma, n_dr, s_d; cbn [still a_rplasma a_rmax a_nr a_ppc].
      replace (1 / 1) with 1 by lra. replace (3 / 1 / 3) with 1 by lra. unfold adjusted_radius. rewrite still_number. cbn. lra. }
    assert (Ed : u_drp U = 1). { unfold U, the_setup; cbn [u_drp]. unfold n_dr, s_d; cbn [still a_rmax a_nr a_ppc]. lra. }
    assert (Epc : u_pc U = 0). { unfold U, the_setup; cbn [u_pc]. unfold n_pc; cbn [still a_pc]. ring. }
    assert (Eg : u_r U = [1/2; 3/2; 5/2]).
    { unfold U, the_setup; cbn [u_r]. unfold n_coords, s_d; cbn [still a_rfld map]. repeat (apply f_equal2; [lra|]). reflexivity. }
    rewrite Eq, Em, Ed, Epc, Eg. rewrite still_at.
    destruct (gather_sources_qs_baxevanis _ _ _ _ _ _ _) as [src|] eqn:Es; [|discriminate]. cbn [bind].
    assert (Esrc : src = [(0, 0, 0)]).
    { unfold gather_sources_qs_baxevanis in Es. cbn [combine traverse fst snd] in Es.
      destruct (gather_sources1 _ _ _ _ _ _ _) as [v|] eqn:E1; [|discriminate]. cbn [bind] in Es. injection Es as <-.
      apply gather_zero in E1; [rewrite E1; reflexivity| | | |reflexivity].
      - intros i j. unfold U, the_setup; cbn [u_a2]. apply inner_zero. reflexivity.
      - intros i j. unfold U, the_setup; cbn [u_na2]. apply inner_zero. intros k l. apply gradient_zero. reflexivity.
      - reflexivity. }
    subst src.
    cbn [each length seq map entry nth a2_of na2_of b0_of fst snd f_src f_psi f_drpsi f_dxipsi].
    set (bt := match b_theta_at_particles _ _ _ _ _ with Some v => v | None => [] end). clearbody bt.
    assert (Tf : too_fast (u_maxg U) (new_gamma 0 0 still_psi) = false).
    { unfold too_fast. change (u_maxg U) with 10. destruct (Rle_dec _ _) as [L|]; [exfalso|reflexivity]. destruct still_gamma as [P1 P2].
      unfold new_gamma in L. apply (Rmult_le_compat_r (2 * (1 + still_psi))) in L; [|lra]. unfold Rdiv in L. rewrite Rmult_assoc, Rinv_l in L by lra. nra. }
    unfold each. cbn [length seq map]. unfold entry; cbn [nth map2]. cbn [a2_of map fst]. rewrite Tf. cbn [map2].
    unfold as_plasma. rewrite Eq. cbn [f_psi f_drpsi f_dxipsi f_src b0_of na2_of map fst snd].
    destruct (still_field (g_bt G0)) as (x & out & E2 & E3 & E4). change (Z.of_nat 2) with 2%Z. rewrite E2.
    destruct (deposit_plasma_particles _ _ _ _ _) as [rho|]; [|discriminate]. cbn [bind].
    destruct (deposit_plasma_particles _ _ _ _ _) as [chi|]; [|discriminate]. cbn [bind].
    intros E. injection E as _ <-. cbn [g_bt]. exists x. split; assumption. }
  destruct X as (x & -> & Nx). unfold Rdiv. intros Q. apply Rmult_integral in Q. destruct Q as [Q|Q].
  - apply Rmult_integral in Q. destruct Q as [Q|Q]; [apply Nx; lra|apply Hw; exact Q].
  - revert Q. apply Rinv_neq_0_compat. exact Hl.
Qed.
