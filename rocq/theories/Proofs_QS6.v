(** Proofs: the calculation of wakefields; what lies behind does not matter. *)
From Coq Require Import Reals ZArith String List Bool Arith Lia Lra Permutation.
From Verif Require Import Model_Push Model_Interp Spec_Interp Proofs_Interp Model_Deposit Spec_Deposit Proofs_Deposit
  Model_Psi Proofs_Psi5 Model_BTheta Model_QS Spec_QS Proofs_QS Proofs_QS2 Proofs_QS3 Proofs_QS4 Proofs_QS5.
Import ListNotations.
Open Scope R_scope.

Lemma last_map_seq (f : nat -> R) n : (0 < n)%nat -> last (map f (seq 0 n)) 0 = f (n - 1)%nat.
Proof.
  intros N. destruct n as [|n]; [lia|]. rewrite seq_S, map_app. cbn [map]. rewrite last_last. f_equal. lia.
Qed.
Section Whole.
  Variables (argsort : list R -> list nat) (skin_depth wave_breaking : R -> R) (charge_e light : R) (A : args).
  Hypothesis VA : valid skin_depth A.
  Let s := s_d skin_depth A.
  Definition the_grid : gridspec := mkgs (a_ximin A / s) (n_dxi skin_depth A) (n_dr skin_depth A) (a_nxi A) (a_nr A).

  Lemma s_eq : s = skin_depth (a_np A / 1000000).
  Proof. unfold s, s_d. f_equal. replace 1e-6 with (/ 1000000) by lra. reflexivity. Qed.
  Lemma s_pos : 0 < s.
  Proof. rewrite s_eq. destruct VA as (S & _). exact S. Qed.
  Lemma n_dxi_eq : n_dxi skin_depth A = slice_width A / s.
  Proof. unfold n_dxi, slice_width. fold s. pose proof s_pos. unfold Rdiv. ring. Qed.
  Lemma n_dr_eq : n_dr skin_depth A = ring_width A / s.
  Proof. unfold n_dr, ring_width. fold s. pose proof s_pos. unfold Rdiv. ring. Qed.
  Lemma widths : 0 < slice_width A /\ 0 < ring_width A.
  Proof.
    destruct VA as (_ & R & X & Nr & Nx & _). apply IZR_le in Nr, Nx. unfold slice_width, ring_width. split; apply Rdiv_lt_0_compat; lra.
  Qed.
  Lemma grid_proper : proper the_grid.
  Proof.
    pose proof widths as [W1 W2]. pose proof s_pos as S. destruct VA as (_ & _ & _ & Nr & Nx & _). unfold proper, the_grid; cbn [gdz gdr gnz gnr].
    rewrite n_dxi_eq, n_dr_eq. repeat split; try lia; apply Rdiv_lt_0_compat; assumption.
  Qed.
  Lemma xi_nth i : (i < Z.to_nat (a_nxi A))%nat -> nth i (n_coords skin_depth A (a_xifld A)) 0 = node_z the_grid (Z.of_nat i).
  Proof.
    intros I. unfold n_coords. fold s. destruct VA as (_ & _ & _ & _ & _ & _ & _ & _ & _ & _ & ->). rewrite map_map, nth_map_seq by exact I.
    unfold slice_at, node_z, the_grid; cbn [gz0 gdz]. rewrite n_dxi_eq. unfold Rdiv. ring.
  Qed.
  Lemma r_coords : n_coords skin_depth A (a_rfld A) = map (fun j => node_r the_grid (Z.of_nat j)) (seq 0 (Z.to_nat (a_nr A))).
  Proof.
    unfold n_coords. fold s. destruct VA as (_ & _ & _ & _ & _ & _ & _ & _ & _ & -> & _). rewrite map_map. apply map_ext. intros j.
    unfold node_r, the_grid; cbn [gdr]. rewrite n_dr_eq, INR_IZR_INZ. unfold Rdiv. ring.
  Qed.
  Lemma xi_coords_last : last (n_coords skin_depth A (a_xifld A)) 0 = node_z the_grid (a_nxi A - 1).
  Proof.
    assert (N : (3 <= a_nxi A)%Z) by (destruct VA as (_ & _ & _ & _ & X & _); exact X).
    unfold n_coords. fold s. destruct VA as (_ & _ & _ & _ & _ & _ & _ & _ & _ & _ & ->). rewrite map_map, last_map_seq by lia.
    replace (Z.of_nat (Z.to_nat (a_nxi A) - 1)) with (a_nxi A - 1)%Z by lia.
    unfold slice_at, node_z, the_grid; cbn [gz0 gdz]. rewrite n_dxi_eq. unfold Rdiv. ring.
  Qed.
  Lemma setup_on laser b : field_array A b -> set_on the_grid (the_setup skin_depth A laser b).
  Proof.
    intros [B1 B2]. destruct VA as (_ & _ & _ & Nr & Nx & _ & _ & Hs & _).
    split; [exact grid_proper|]. split.
    { unfold u_geom, args_of, the_setup; cbn [u_xi u_r u_dxi u_dr gnz gnr gdz gdr the_grid]. f_equal.
      - rewrite xi_nth by lia. reflexivity.
      - exact xi_coords_last.
      - rewrite r_coords, nth_map_seq by lia. reflexivity.
      - rewrite r_coords, last_map_seq by lia. f_equal. lia. }
    split; [reflexivity|]. split; [reflexivity|]. split; [split; reflexivity|]. split; [split; reflexivity|]. split; [split; assumption|].
    split; [|split; [exact r_coords|exact Hs]]. intros i I. apply xi_nth. cbn in I. lia.
  Qed.
  Lemma beam_grid_ok : dgrid_ok (beam_grid skin_depth A) /\ dg_zmin (beam_grid skin_depth A) = a_ximin A / s.
  Proof.
    pose proof (setup_on (zeros2 (a_nxi A) (a_nr A)) (zeros2 (a_nxi A) (a_nr A)) (conj eq_refl eq_refl)) as S.
    destruct (set_dgrid _ _ S) as (D & _). split; [exact D|]. unfold beam_grid; cbn [dg_zmin].
    rewrite xi_nth. { unfold node_z, the_grid; cbn. ring. }
    destruct VA as (_ & _ & _ & _ & X & _). lia.
  Qed.
  Lemma start_ok : exists n, column_of n (start (the_column skin_depth A)) /\ outside_axis (start (the_column skin_depth A)) /\
    (forall x, In x (f_src (t_felt (start (the_column skin_depth A)))) -> x = (0, 0, 0)).
  Proof.
    set (c := the_column skin_depth A). exists (length (p_r c)).
    assert (L : length (p_pr c) = length (p_r c)).
    { unfold c, the_column, initialize; cbn [p_pr p_r]. rewrite repeat_length, map_length, seq_length. reflexivity. }
    split; [|split].
    - unfold column_of, start; cbn [t_r t_pr t_mem t_felt f_src t_sub2 t_sub3 t_sub4]. rewrite !repeat_length. repeat (split; [first [reflexivity|exact L]|]). reflexivity.
    - intros x X. change (t_r (start c)) with (p_r c) in X. apply (In_nth _ _ 0) in X. destruct X as (i & I & <-).
      pose proof widths as [_ W]. pose proof s_pos as S. destruct VA as (_ & Rm & _ & _ & _ & P & Rp & _).
      assert (Dr : 0 < n_dr skin_depth A) by (rewrite n_dr_eq; apply Rdiv_lt_0_compat; assumption).
      unfold c, the_column. rewrite col_r.
      + apply Rmult_le_pos; [pose proof (pos_INR i); lra|]. left. apply Rdiv_lt_0_compat; assumption.
      + unfold c, the_column, initialize in I; cbn [p_r] in I. rewrite map_length, seq_length in I. exact I.
    - intros x X. cbn in X. apply repeat_spec in X. exact X.
  Qed.
  Lemma zeros_on : grids_on the_grid (let z := zeros2 (a_nxi A) (a_nr A) in mkgr z z z z).
  Proof. repeat split. Qed.

  Lemma run_ok laser b : field_array A b -> exists p st G,
    (a_pusher A = "rk4"%string /\ p = RK4 \/ a_pusher A = "ab5"%string /\ p = AB5) /\
    (let z := zeros2 (a_nxi A) (a_nr A) in
     sweep argsort (the_setup skin_depth A laser b) p (Z.to_nat (a_nxi A)) (start (the_column skin_depth A)) (mkgr z z z z) = Ok (st, G) /\
     evolve_plasma_and_calculate_fields argsort (the_setup skin_depth A laser b) (a_pusher A) (the_column skin_depth A) (mkgr z z z z)
       = Returned (Ok G)) /\ grids_on the_grid G.
  Proof.
    intros B. pose proof (setup_on laser b B) as S. destruct start_ok as (n & C & O & _).
    assert (K : (Z.of_nat (Z.to_nat (a_nxi A)) <= gnz the_grid)%Z) by (cbn; destruct VA as (_ & _ & _ & _ & X & _); lia).
    assert (Q : forall p, exists st G, (let z := zeros2 (a_nxi A) (a_nr A) in
      sweep argsort (the_setup skin_depth A laser b) p (Z.to_nat (a_nxi A)) (start (the_column skin_depth A)) (mkgr z z z z) = Ok (st, G)) /\
      grids_on the_grid G).
    { intros p. destruct (sweep_ok the_grid argsort _ p n S (Z.to_nat (a_nxi A)) _ _ K C O zeros_on) as (st & G & E & _ & _ & D).
      exists st, G. split; assumption. }
    destruct VA as (_ & _ & _ & _ & _ & _ & _ & _ & [P|P] & _).
    - destruct (Q RK4) as (st & G & E & D). exists RK4, st, G. split; [left; auto|]. split; [|exact D]. cbv zeta in E |- *. split; [exact E|].
      unfold evolve_plasma_and_calculate_fields. rewrite P. cbn [String.eqb Ascii.eqb Bool.eqb].
      change (u_nxi (the_setup skin_depth A laser b)) with (a_nxi A). rewrite E. reflexivity.
    - destruct (Q AB5) as (st & G & E & D). exists AB5, st, G. split; [right; auto|]. split; [|exact D]. cbv zeta in E |- *. split; [exact E|].
      unfold evolve_plasma_and_calculate_fields. rewrite P. cbn [String.eqb Ascii.eqb Bool.eqb].
      change (u_nxi (the_setup skin_depth A laser b)) with (a_nxi A). rewrite E. reflexivity.
  Qed.
  Lemma wakefields_ok laser bunches : exists b p st G F,
    (let z := zeros2 (a_nxi A) (a_nr A) in
     beam_sources skin_depth charge_e (a_np A) (beam_grid skin_depth A) (a_shape A) bunches z = Returned (Ok b) /\
     sweep argsort (the_setup skin_depth A laser b) p (Z.to_nat (a_nxi A)) (start (the_column skin_depth A)) (mkgr z z z z) = Ok (st, G)) /\
    (a_pusher A = "rk4"%string /\ p = RK4 \/ a_pusher A = "ab5"%string /\ p = AB5) /\ field_array A b /\ grids_on the_grid G /\
    derived_fields skin_depth wave_breaking light A b G = Returned (Ok F) /\
    calculate_wakefields argsort skin_depth wave_breaking charge_e light A laser bunches = Returned (Ok F) /\
    field_array A (h_rho F) /\ field_array A (h_chi F) /\ field_array A (h_er F) /\ field_array A (h_ez F) /\ field_array A (h_bt F).
  Proof.
    destruct beam_grid_ok as [Bg _]. assert (Hs : shape_name (a_shape A)) by (destruct VA as (_ & _ & _ & _ & _ & _ & _ & X & _); exact X).
    destruct (sources_lemma skin_depth charge_e (a_np A) (beam_grid skin_depth A) (a_shape A) Hs Bg bunches (zeros2 (a_nxi A) (a_nr A))
      (conj eq_refl eq_refl)) as (b & Eb & Db & _).
    destruct (run_ok laser b Db) as (p & st & G & Pp & (Es & Ev) & D).
    assert (N : orb (Z.ltb (a_nxi A) 3) (Z.ltb (a_nr A) 3) = false).
    { destruct VA as (_ & _ & _ & X & Y & _). apply orb_false_intro; apply Z.ltb_ge; assumption. }
    eexists b, p, st, G, _. split; [split; [exact Eb|exact Es]|]. split; [exact Pp|]. split; [exact Db|]. split; [exact D|].
    split. { unfold derived_fields. rewrite N. reflexivity. }
    split. { unfold calculate_wakefields. cbv zeta. rewrite Eb. cbn [cbind]. rewrite Ev. cbn [cbind]. unfold derived_fields. rewrite N. reflexivity. }
    destruct D as (D1 & D2 & D3 & D4). cbn [h_rho h_chi h_er h_ez h_bt]. repeat split; cbn; first [apply D3 | apply D4 | apply D2].
  Qed.
End Whole.

(** ** Behind and ahead *)
Lemma inner_part_inner n_xi n_r v i j : (0 <= i < n_xi)%Z -> (0 <= j < n_r)%Z -> inner (inner_part n_xi n_r v) i j = v i j.
Proof.
  intros I J. unfold inner, inner_part; cbn [cell].
  replace (Z.leb 2 (i + 2)) with true by (symmetry; apply Z.leb_le; lia).
  replace (Z.ltb (i + 2) (n_xi + 2)) with true by (symmetry; apply Z.ltb_lt; lia).
  replace (Z.leb 2 (j + 2)) with true by (symmetry; apply Z.leb_le; lia).
  replace (Z.ltb (j + 2) (n_r + 2)) with true by (symmetry; apply Z.ltb_lt; lia). cbn [andb]. f_equal; lia.
Qed.
Lemma radial_gradient_row a b dr i j : cols a = cols b -> (0 <= j < cols a)%Z -> (forall k, (0 <= k < cols a)%Z -> cell a i k = cell b i k) ->
  radial_gradient a dr i j = radial_gradient b dr i j.
Proof.
  intros C J H. unfold radial_gradient. rewrite <- C. cbv zeta. set (n := cols a) in *.
  assert (M : forall k, (0 <= k < 2 * n)%Z -> (if Z.ltb k n then cell a i (n - 1 - k) else cell a i (k - n)) =
     (if Z.ltb k n then cell b i (n - 1 - k) else cell b i (k - n))).
  { intros k K. destruct (Z.ltb_spec k n); apply H; lia. }
  unfold gradient1. destruct (Z.eqb_spec (j + n) 0); [lia|]. destruct (Z.eqb_spec (j + n) (2 * n - 1)).
  - rewrite !M by lia. reflexivity.
  - rewrite !M by lia. reflexivity.
Qed.
Section Causal.
  Variables (argsort : list R -> list nat) (skin_depth wave_breaking : R -> R) (charge_e light : R) (A : args).
  Hypothesis VA : valid skin_depth A.
  Lemma causal_lemma laser laser' bunches bunches' m F F' : laser_array A laser -> laser_array A laser' -> (0 <= m < a_nxi A)%Z ->
    (forall i j, (m <= i < a_nxi A)%Z -> (0 <= j < a_nr A)%Z -> cell laser i j = cell laser' i j) ->
    List.Forall2 (fun l l' => filter (ahead (slice_at A m - 2 * slice_width A)) l = filter (ahead (slice_at A m - 2 * slice_width A)) l') bunches bunches' ->
    calculate_wakefields argsort skin_depth wave_breaking charge_e light A laser bunches = Returned (Ok F) ->
    calculate_wakefields argsort skin_depth wave_breaking charge_e light A laser' bunches' = Returned (Ok F') ->
    agree_from A m (h_er F) (h_er F') /\ agree_from A m (h_bt F) (h_bt F') /\
    ((m <= a_nxi A - 3)%Z -> agree_from A (m + 1) (h_ez F) (h_ez F')) /\
    agree_from A (m + reach (a_shape A)) (h_rho F) (h_rho F') /\ agree_from A (m + reach (a_shape A)) (h_chi F) (h_chi F').
  Proof.
    intros La La' M HL HB E E'.
    destruct (wakefields_ok argsort skin_depth wave_breaking charge_e light A VA laser bunches)
      as (b & p & st & G & F1 & (Eb & Es) & Pp & Fb & D & Ed & E1 & _).
    destruct (wakefields_ok argsort skin_depth wave_breaking charge_e light A VA laser' bunches')
      as (b' & p' & st' & G' & F1' & (Eb' & Es') & Pp' & Fb' & D' & Ed' & E1' & _).
    rewrite E in E1. injection E1 as <-. rewrite E' in E1'. injection E1' as <-.
    assert (p' = p) as ->. { destruct Pp as [[P ->]|[P ->]], Pp' as [[P' ->]|[P' ->]]; try reflexivity; congruence. }
    set (g := the_grid skin_depth A) in *. set (U := the_setup skin_depth A laser b) in *.
    assert (HU : set_on g U) by (apply setup_on; assumption).
    assert (HV : set_on g (the_setup skin_depth A laser' b')) by (apply setup_on; assumption).
    set (V := the_setup skin_depth A laser' b') in *.
    destruct (beam_grid_ok skin_depth A VA) as [Bg Bz].
    assert (Hs : shape_name (a_shape A)) by (destruct VA as (_ & _ & _ & _ & _ & _ & _ & X & _); exact X).
    assert (Sb : same_ahead g m b b').
    { intros i j I J. apply (bunches_ahead skin_depth charge_e (a_np A) (beam_grid skin_depth A) (a_shape A) Hs Bg m
        (slice_at A m - 2 * slice_width A) bunches bunches' (zeros2 (a_nxi A) (a_nr A)) b b' (conj eq_refl eq_refl)); auto; try lia.
      - destruct VA as (S & _). exact S.
      - rewrite Bz. rewrite (s_eq skin_depth A). unfold beam_grid; cbn [dg_dz]. rewrite (n_dxi_eq skin_depth A VA), (s_eq skin_depth A).
        unfold slice_at. apply Req_le. unfold Rdiv. ring.
      - cbn in I, J. split; [cbn [beam_grid dg_nz]; lia|exact J]. }
    assert (S1 : same_ahead g m (u_a2 U) (u_a2 V)).
    { intros i j I J. cbn in I, J. unfold U, V, the_setup; cbn [u_a2]. rewrite !inner_part_inner by lia. apply HL; lia. }
    assert (S2 : same_ahead g m (u_na2 U) (u_na2 V)).
    { intros i j I J. cbn in I, J. unfold U, V, the_setup; cbn [u_na2]. rewrite !inner_part_inner by lia.
      destruct La as [_ L1], La' as [_ L2]. apply radial_gradient_row; [congruence|lia|]. intros k K. apply HL; lia. }
    destruct (start_ok skin_depth A VA) as (n & C & O & _).
    assert (K : (m <= Z.of_nat (Z.to_nat (a_nxi A)) <= gnz g)%Z) by (cbn; lia).
    assert (EV : V = with_sources U (u_a2 V) (u_na2 V) (u_b0 V)) by reflexivity.
    rewrite EV in Es', HV.
    destruct (sweep_ahead g argsort U (u_a2 V) (u_na2 V) (u_b0 V) p n m HU HV S1 S2 Sb M _ _ _ _ _ _ _ K C O (zeros_on skin_depth A) Es Es') as [Q1 Q2].
    change (u_shape U) with (a_shape A) in Q2.
    unfold derived_fields in Ed, Ed'. destruct (orb (Z.ltb (a_nxi A) 3) (Z.ltb (a_nr A) 3)); [discriminate|].
    injection Ed as <-. injection Ed' as <-. cbn [h_rho h_chi h_er h_ez h_bt]. unfold agree_from.
    assert (Bt : forall i j, (m <= i < a_nxi A)%Z -> (0 <= j < a_nr A)%Z ->
      (cell (g_bt G) (i + 2) (j + 2) + cell b (i + 2) (j + 2)) = (cell (g_bt G') (i + 2) (j + 2) + cell b' (i + 2) (j + 2))).
    { intros i j I J. destruct (Q1 (i + 2)%Z (j + 2)%Z ltac:(lia)) as [_ ->]. f_equal. apply (Sb i j); cbn; lia. }
    assert (Ps : forall i j, (m <= i)%Z -> cell (g_psi G) (i + 2) (j + 2) = cell (g_psi G') (i + 2) (j + 2)).
    { intros i j I. destruct (Q1 (i + 2)%Z (j + 2)%Z ltac:(lia)) as [-> _]. reflexivity. }
    split; [|split; [|split; [|split]]].
    - intros i j I J. unfold inner at 1 2; cbn [cell].
      rewrite (Bt i j I J). f_equal. destruct (andb _ _); [|reflexivity]. f_equal. f_equal.
      replace (i + 2 - 2 + 2)%Z with (i + 2)%Z by lia. unfold gradient2. rewrite !(Ps i) by lia. reflexivity.
    - intros i j I J. unfold inner; cbn [cell]. rewrite (Bt i j I J). reflexivity.
    - intros Mn i j I J. rewrite !inner_part_inner by lia. f_equal. f_equal. unfold gradient2.
      destruct (Z.eqb_spec i 0); [lia|]. destruct (Z.eqb_spec i (a_nxi A - 1)).
      + rewrite (Ps (i - 2)%Z), (Ps (i - 1)%Z), (Ps i) by lia. reflexivity.
      + rewrite (Ps (i + 1)%Z), (Ps (i - 1)%Z) by lia. reflexivity.
    - intros i j I J. unfold inner. destruct (Q2 (i + 2)%Z (j + 2)%Z ltac:(lia)) as [-> _]. reflexivity.
    - intros i j I J. unfold inner. destruct (Q2 (i + 2)%Z (j + 2)%Z ltac:(lia)) as [_ ->]. reflexivity.
  Qed.
End Causal.
