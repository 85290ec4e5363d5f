(** Proofs: densities of the plasma; derivatives on the grid; undriven plasma. *)
From Coq Require Import Reals ZArith String List Bool Arith Lia Lra Permutation.
From Verif Require Import Model_Push Model_Interp Spec_Interp Proofs_Interp Model_Deposit Spec_Deposit Proofs_Deposit
  Model_Psi Proofs_Psi5 Model_BTheta Model_QS Spec_QS Proofs_QS Proofs_QS2 Proofs_QS3 Proofs_QS4 Proofs_QS5 Proofs_QS6.
Import ListNotations.
Open Scope R_scope.

(** ** Densities *)
Lemma total_same a b : same_array a b -> total_charge a = total_charge b.
Proof.
  intros (E1 & E2 & E3). unfold total_charge. rewrite E1, E2. apply sum_range_ext. intros i _. apply sum_range_ext. intros j _. apply E3.
Qed.
Lemma column_charge g argsort U i xi st G n st' G' : set_on g U -> column_of n st -> outside_axis st -> grids_on g G ->
  (Z.of_nat i < gnz g)%Z -> calculate_and_deposit_plasma_column argsort U i xi st G = Ok (st', G') ->
  total_charge (g_rho G') = total_charge (g_rho G) +
    plasma_inside (u_dgrid U) (combine (t_r st) (map (rho_weight U st') (seq 0 n))) /\
  total_charge (g_chi G') = total_charge (g_chi G) +
    plasma_inside (u_dgrid U) (combine (t_r st) (map (fun k => rho_weight U st' k / entry (t_gamma st') k) (seq 0 n))).
Proof.
  intros H C O D I E.
  destruct (column_ok g argsort U i xi st G n H C O D I) as (st1 & G1 & E1 & _ & _ & _ & _ & _ & _ & _ & _ & _ & _ & Pr & Pc).
  rewrite E in E1. injection E1 as <- <-.
  destruct (set_dgrid g U H) as (Dg & Nz & Nr). destruct D as (_ & _ & D3 & D4).
  assert (Hs : shape_name (u_shape U)) by (destruct H as (_ & _ & _ & _ & _ & _ & _ & _ & _ & X); exact X).
  assert (Q : forall a b w, guards g a -> plus_array a (contributions (plasma_particle (u_dgrid U) (is_cubic (u_shape U)) (Z.of_nat i)) (combine (t_r st) w)) b ->
     total_charge b = total_charge a + plasma_inside (u_dgrid U) (combine (t_r st) w)).
  { intros a b w [X Y] P.
    assert (F : List.Forall (fun rw : R * R => 0 <= fst rw) (combine (t_r st) w)).
    { apply Forall_forall. intros [x y] XY. apply in_combine_l in XY. apply O; exact XY. }
    assert (Da : darray (u_dgrid U) a) by (split; lia).
    destruct (deposit_plasma_lemma (u_dgrid U) (u_shape U) (Z.of_nat i) (combine (t_r st) w) a Hs Dg Da ltac:(lia) F) as (b1 & E1 & P1).
    destruct (conserve_plasma_lemma (u_dgrid U) (u_shape U) (Z.of_nat i) (combine (t_r st) w) a Hs Dg Da ltac:(lia) F) as (b2 & E2 & _ & T).
    rewrite E1 in E2. injection E2 as <-. rewrite <- T. apply total_same. apply (plus_array_unique _ _ _ _ P P1). }
  split; apply Q; assumption.
Qed.
Definition dense (G : grids) : Prop := forall i j, 0 <= cell (g_chi G) i j <= cell (g_rho G) i j.
Lemma weights_dense g U (zc : Z) r (w v : nat -> R) : dgrid_ok g -> (0 <= zc < dg_nz g)%Z -> (forall x, In x r -> 0 <= x) ->
  forall n m i j, (forall k, (n <= k < n + m)%nat -> 0 <= v k <= w k) ->
  0 <= contributions (plasma_particle g (is_cubic (u_shape U)) zc) (combine r (map v (seq n m))) i j
    <= contributions (plasma_particle g (is_cubic (u_shape U)) zc) (combine r (map w (seq n m))) i j.
Proof.
  intros Dg Hz. induction r as [|x r IH]; intros Hr n m i j H; [cbn; lra|].
  destruct m as [|m]; [cbn; lra|]. cbn [seq map combine contributions fold_right].
  assert (B := IH ltac:(intros; apply Hr; right; assumption) (S n) m i j ltac:(intros; apply H; lia)).
  fold (contributions (plasma_particle g (is_cubic (u_shape U)) zc) (combine r (map v (seq (S n) m))) i j).
  fold (contributions (plasma_particle g (is_cubic (u_shape U)) zc) (combine r (map w (seq (S n) m))) i j).
  assert (Q : 0 <= plasma_particle g (is_cubic (u_shape U)) zc (x, v n) i j <= plasma_particle g (is_cubic (u_shape U)) zc (x, w n) i j).
  { unfold plasma_particle; cbn [fst snd]. destruct (Rle_dec x (r_edge g)) as [L|L]; [|lra].
    assert (X : 0 <= x) by (apply Hr; left; reflexivity). pose proof (H n ltac:(lia)) as [V W].
    destruct (kernel_nonneg g (is_cubic (u_shape U)) false _ _ Dg (plasma_cells g zc x Dg Hz (conj X L))) as [K1 K2].
    split; [apply spread_nonneg; assumption|]. unfold spread. apply Rmult_le_compat_r; [apply at_nonneg; assumption|].
    apply Rmult_le_compat_r; [apply at_nonneg; assumption|exact W]. }
  lra.
Qed.
Lemma div_nonneg a b : 0 <= a -> 0 <= b -> 0 <= a / b.
Proof.
  intros A [B|<-].
  - apply Rmult_le_pos; [exact A|]. left. apply Rinv_0_lt_compat. exact B.
  - unfold Rdiv. rewrite Rinv_0. lra.
Qed.
Lemma slice_dense g argsort U p st0 G0 n i st G : set_on g U -> column_of n st0 -> outside_axis st0 -> grids_on g G0 ->
  (forall i j, (0 <= i < gnz g)%Z -> (0 <= j < gnr g)%Z -> 0 <= inner (u_a2 U) i j) ->
  (forall s, In s (f_src (t_felt st0)) -> 0 <= fst (fst s)) ->
  1 < u_maxg U -> (forall q, In q (u_q U) -> 0 <= q) -> dense G0 ->
  at_slice argsort U p st0 G0 i st G -> dense G.
Proof.
  intros H C0 O0 D0 Pa Ps Mg Hq N0 A.
  assert (Step : forall i st0 G0 st G, column_of n st0 -> outside_axis st0 -> grids_on g G0 -> dense G0 ->
    (forall s, In s (f_src (t_felt st0)) -> 0 <= fst (fst s)) -> (Z.of_nat i < gnz g)%Z ->
    calculate_and_deposit_plasma_column argsort U i (nth i (u_xi U) 0) st0 G0 = Ok (st, G) -> dense G).
  { clear i st G A C0 O0 D0 N0 Ps st0 G0. intros i st0 G0 st G C0 O0 D0 N0 Ps I E.
    destruct (column_ok g argsort U i (nth i (u_xi U) 0) st0 G0 n H C0 O0 D0 I)
      as (st1 & G1 & E1 & C1 & R1 & D1 & L1 & L2 & L3 & B & Lm & P & _ & (_ & _ & Pr) & (_ & _ & Pc)).
    rewrite E in E1. injection E1 as <- <-. destruct (set_dgrid g U H) as (Dg & Nz & Nr).
    intros k j. rewrite Pr, Pc. pose proof (N0 k j) as Nk.
    pose proof (weights_dense (u_dgrid U) U (Z.of_nat i) (t_r st0) (rho_weight U st) (fun k => rho_weight U st k / entry (t_gamma st) k)
      Dg ltac:(lia) O0 0%nat n k j) as W.
    assert (Hw : forall m, (0 <= m < 0 + n)%nat -> 0 <= rho_weight U st m / entry (t_gamma st) m <= rho_weight U st m).
    { intros m Hm.
      assert (S : 0 <= electron_a2 st m). { unfold electron_a2. apply (P Pa Ps). apply nth_In. destruct C1 as (_ & _ & _ & X & _). lia. }
      assert (Bp : - (9 / 10) <= electron_psi st m) by (apply B; apply nth_In; lia).
      destruct (limited_range _ _ _ _ _ _ _ S Bp Mg (Lm m ltac:(lia))) as ((G1 & G2) & _ & _ & G3).
      assert (Wr : 0 <= rho_weight U st m).
      { unfold rho_weight. apply div_nonneg.
        - destruct (nth_in_or_default m (u_q U) 0) as [X|X]; [apply Hq; exact X|unfold entry; rewrite X; lra].
        - assert (0 <= u_dr U). { destruct H as ((_ & X & _) & Eg & _). unfold u_geom, args_of in Eg. injection Eg as _ _ _ _ _ Y. lra. }
          assert (0 <= entry (t_r st) m). { rewrite R1. destruct (nth_in_or_default m (t_r st0) 0) as [X|X]; [apply O0; exact X|unfold entry; rewrite X; lra]. }
          apply Rmult_le_pos; [apply Rmult_le_pos; assumption|lra]. }
      split; [apply div_nonneg; lra|]. apply Rmult_le_reg_r with (entry (t_gamma st) m); [lra|].
      unfold Rdiv. rewrite Rmult_assoc, Rinv_l by lra. nra. }
    specialize (W Hw). lra. }
  assert (Nx : u_nxi U = gnz g) by (destruct H as (_ & _ & X & _); exact X).
  induction A as [i st G Ei E | i st G st' st'' G'' A IH Ev E].
  - apply (Step i st0 G0 st G); auto. lia.
  - destruct (slice_ok g argsort U p st0 G0 n (S i) st G H C0 O0 D0 A) as (I & C & O & D & _ & _ & _ & P0).
    destruct (evolve_ok g argsort U p (nth (S i) (u_xi U) 0) st n H C) as (st1 & E1 & C1 & O1 & F1).
    rewrite Ev in E1. injection E1 as <-. apply (Step i st' G st'' G''); auto; [|lia]. rewrite F1. apply (P0 Pa Ps).
Qed.

(** ** Derivatives on the grid *)
Lemma gradient2_exact (a b c x0 d : R) N j : 0 < d -> (3 <= N)%Z -> (0 <= j < N)%Z ->
  let x k := x0 + IZR k * d in
  gradient2 (fun k => a + b * x k + c * x k ^ 2) N d j = b + 2 * c * x j.
Proof.
  intros D Hn Hj x. unfold gradient2. replace (-1.5) with (- (3 / 2)) by lra. replace (-0.5) with (- (1 / 2)) by lra.
  replace 1.5 with (3 / 2) by lra. replace 0.5 with (1 / 2) by lra. unfold x.
  destruct (Z.eqb_spec j 0) as [->|].
  - field. lra.
  - destruct (Z.eqb_spec j (N - 1)); rewrite ?plus_IZR, ?minus_IZR; field; lra.
Qed.
Lemma gradient2_ext f h N d j : (3 <= N)%Z -> (0 <= j < N)%Z -> (forall k, (0 <= k < N)%Z -> f k = h k) -> gradient2 f N d j = gradient2 h N d j.
Proof.
  intros Hn J H. unfold gradient2. destruct (Z.eqb_spec j 0); [rewrite !H by lia; reflexivity|].
  destruct (Z.eqb_spec j (N - 1)); rewrite !H by lia; reflexivity.
Qed.
Lemma gradient2_commute (f : Z -> Z -> R) N M d e c i j :
  gradient2 (fun i => c * gradient2 (fun j => f i j) M e j) N d i = gradient2 (fun j => c * gradient2 (fun i => f i j) N d i) M e j.
Proof.
  unfold gradient2. destruct (Z.eqb i 0), (Z.eqb j 0), (Z.eqb i (N - 1)), (Z.eqb j (M - 1)); unfold Rdiv; ring.
Qed.
Lemma radial_gradient_exact a dr i j (c0 c2 : R) : 0 < dr -> (2 <= cols a)%Z -> (0 <= j < cols a)%Z ->
  let r k := (IZR k + / 2) * dr in
  (forall k, (0 <= k < cols a)%Z -> cell a i k = c0 + c2 * r k ^ 2) ->
  radial_gradient a dr i j = 2 * c2 * r j - (if Z.eqb j (cols a - 1) then c2 * dr else 0).
Proof.
  intros D N J r H. unfold radial_gradient. cbv zeta. set (n := cols a) in *.
  unfold gradient1. destruct (Z.eqb_spec (j + n) 0); [lia|].
  destruct (Z.eqb_spec (j + n) (2 * n - 1)).
  - replace (Z.eqb j (n - 1)) with true by (symmetry; apply Z.eqb_eq; lia).
    destruct (Z.ltb_spec (j + n) n); [lia|]. destruct (Z.ltb_spec (j + n - 1) n); [lia|].
    rewrite !H by lia. replace (j + n - n)%Z with j by lia. replace (j + n - 1 - n)%Z with (j - 1)%Z by lia. unfold r. rewrite minus_IZR. field. lra.
  - replace (Z.eqb j (n - 1)) with false by (symmetry; apply Z.eqb_neq; lia).
    destruct (Z.ltb_spec (j + n + 1) n); [lia|]. rewrite H by lia. replace (j + n + 1 - n)%Z with (j + 1)%Z by lia.
    destruct (Z.ltb_spec (j + n - 1) n).
    + assert (j = 0)%Z as -> by lia. rewrite H by lia. replace (n - 1 - (0 + n - 1))%Z with 0%Z by lia. unfold r. rewrite plus_IZR. field. lra.
    + rewrite H by lia. replace (j + n - 1 - n)%Z with (j - 1)%Z by lia. unfold r. rewrite plus_IZR, minus_IZR. field. lra.
Qed.
