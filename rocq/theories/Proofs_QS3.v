(** Proofs: what happens behind a slice does not influence the plasma ahead. *)
From Coq Require Import Reals ZArith String List Bool Arith Lia Lra.
From Verif Require Import Model_Push Model_Interp Spec_Interp Proofs_Interp Model_Deposit Spec_Deposit Proofs_Deposit
  Model_Psi Proofs_Psi3 Model_BTheta Model_QS Spec_QS Proofs_QS Proofs_QS2.
Import ListNotations.
Open Scope R_scope.

Lemma node_le g i j : proper g -> (i <= j)%Z -> node_z g i <= node_z g j.
Proof. intros (P & _) H. unfold node_z. apply IZR_le in H. nra. Qed.
Lemma node_lt g i j : proper g -> (i < j)%Z -> node_z g i < node_z g j.
Proof. intros (P & _) H. unfold node_z. apply IZR_lt in H. nra. Qed.
Lemma interpolates_ahead g odd a b m z r v w : proper g -> covered g z r -> (0 <= m < gnz g)%Z -> node_z g m <= z ->
  same_ahead g m a b -> interpolates g odd (inner a) z r v -> interpolates g odd (inner b) z r w -> v = w.
Proof.
  intros Hg [Hz Hr] Hm Z S I J. pose proof Hg as (Pz & Pr & Nz & Nr).
  assert (C : exists i, (0 <= i < gnz g - 1)%Z /\ node_z g i <= z <= node_z g (i + 1) /\
     ((m <= i)%Z \/ (m = i + 1)%Z /\ z = node_z g (i + 1))).
  { destruct (z_cell g z Hg Hz) as (i & Hi & Ci). destruct (Z_le_gt_dec m i) as [L|L]; [exists i; auto|].
    assert (E : z = node_z g m). { pose proof (node_le g (i + 1) m Hg ltac:(lia)). lra. }
    destruct (Z_lt_dec m (gnz g - 1)) as [M|M].
    - exists m. split; [lia|]. split; [|left; lia]. split; [lra|]. rewrite E. apply node_le; [assumption|lia].
    - exists (m - 1)%Z. replace (m - 1 + 1)%Z with m by lia. split; [lia|]. split; [|right; split; [reflexivity|assumption]].
      split; [|lra]. rewrite E. apply node_le; [assumption|lia]. }
  destruct C as (i & Hi & Ci & K). destruct (I i Hi Ci) as [I1 I2]. destruct (J i Hi Ci) as [J1 J2].
  set (lam := (z - node_z g i) / gdz g) in *.
  assert (Q : forall j, (0 <= j < gnr g)%Z -> (1 - lam) * inner a i j = (1 - lam) * inner b i j /\ inner a (i + 1) j = inner b (i + 1) j).
  { intros j Hj. split.
    - destruct K as [K|[K ->]]; [rewrite S by lia; reflexivity|].
      assert (L : lam = 1). { unfold lam, node_z. rewrite plus_IZR. field. lra. }
      rewrite L. ring.
    - apply S; lia. }
  destruct (r_cell g r Hg Hr) as [Cr|(j & Hj & Cj)].
  - rewrite (I2 Cr), (J2 Cr). destruct (Q 0%Z ltac:(lia)) as [Q1 Q2]. rewrite Q1, Q2. reflexivity.
  - rewrite (I1 j Hj Cj), (J1 j Hj Cj). unfold bilinear.
    destruct (Q j ltac:(lia)) as [Q1 Q2]. destruct (Q (j + 1)%Z ltac:(lia)) as [Q3 Q4].
    set (mu := (r - node_r g j) / gdr g). rewrite Q2, Q4.
    replace ((1 - lam) * ((1 - mu) * inner a i j + mu * inner a i (j + 1)))
      with ((1 - mu) * ((1 - lam) * inner a i j) + mu * ((1 - lam) * inner a i (j + 1))) by ring.
    rewrite Q1, Q3. ring.
Qed.
Lemma gather_ahead g a1 a2 a3 b1 b2 b3 m z r old : proper g -> (0 <= m < gnz g)%Z -> node_z g m <= z ->
  guards g a1 -> guards g a2 -> guards g a3 -> guards g b1 -> guards g b2 -> guards g b3 ->
  same_ahead g m a1 b1 -> same_ahead g m a2 b2 -> same_ahead g m a3 b3 -> (forall x, In x r -> 0 <= x) ->
  gather_sources_qs_baxevanis a1 a2 a3 (args_of g) z r old = gather_sources_qs_baxevanis b1 b2 b3 (args_of g) z r old.
Proof.
  intros Hg Hm Hz A1 A2 A3 B1 B2 B3 S1 S2 S3 Hr.
  destruct (gather_sources_lemma g _ _ _ z r old Hg A1 A2 A3 Hr) as (V1 & V2 & V3 & -> & I).
  destruct (gather_sources_lemma g _ _ _ z r old Hg B1 B2 B3 Hr) as (W1 & W2 & W3 & -> & J).
  f_equal. rewrite !map2_combine. apply map_ext_in. intros [x o] X. cbn [fst snd]. apply in_combine_l in X. apply Hr in X.
  destruct (within (args_of g) z x) eqn:W; [|reflexivity]. apply within_true in W; [|assumption].
  destruct (I x W) as (I1 & I2 & I3). destruct (J x W) as (J1 & J2 & J3).
  rewrite (interpolates_ahead g _ _ _ m z x _ _ Hg W Hm Hz S1 I1 J1), (interpolates_ahead g _ _ _ m z x _ _ Hg W Hm Hz S2 I2 J2),
    (interpolates_ahead g _ _ _ m z x _ _ Hg W Hm Hz S3 I3 J3). reflexivity.
Qed.

Section Ahead.
  Variables (argsort : list R -> list nat) (g : gridspec) (U : setup) (a2 na2 b0 : arr2) (m : Z).
  Let V := with_sources U a2 na2 b0.
  Hypothesis HU : set_on g U.
  Hypothesis HV : set_on g V.
  Hypothesis Hm : (0 <= m < gnz g)%Z.
  Hypothesis S1 : same_ahead g m (u_a2 U) a2.
  Hypothesis S2 : same_ahead g m (u_na2 U) na2.
  Hypothesis S3 : same_ahead g m (u_b0 U) b0.

  Lemma at_ahead xi r pr old : node_z g m <= xi -> (forall x, In x r -> 0 <= x) ->
    at_particles argsort U xi r pr old = at_particles argsort V xi r pr old.
  Proof.
    intros X Hr. unfold at_particles.
    assert (E : gather_sources_qs_baxevanis (u_a2 U) (u_na2 U) (u_b0 U) (u_geom U) xi r old =
                gather_sources_qs_baxevanis (u_a2 V) (u_na2 V) (u_b0 V) (u_geom V) xi r old).
    { destruct HU as (Pg & Eg & _ & _ & A1 & A2 & A3 & _). destruct HV as (_ & Eg' & _ & _ & B1 & B2 & B3 & _).
      rewrite Eg, Eg'. apply (gather_ahead g _ _ _ _ _ _ m); assumption. }
    rewrite E. reflexivity.
  Qed.
  Lemma column_ahead i xi st G : node_z g m <= xi -> outside_axis st ->
    calculate_and_deposit_plasma_column argsort U i xi st G = calculate_and_deposit_plasma_column argsort V i xi st G.
  Proof. intros X O. unfold calculate_and_deposit_plasma_column. rewrite (at_ahead xi (t_r st) (t_pr st) _ X O). reflexivity. Qed.
  Lemma substep_ahead xi r pr old : node_z g m <= xi ->
    derivatives_substep argsort U xi r pr old = derivatives_substep argsort V xi r pr old.
  Proof.
    intros X. unfold derivatives_substep. cbv zeta. rewrite at_ahead; [reflexivity|exact X|].
    clear. induction r as [|y r IH]; intros x X; cbn in X; [destruct X|]. destruct X as [<-|X]; [|apply IH; exact X].
    unfold side. destruct (Rlt_dec y 0); lra.
  Qed.
  Lemma evolve_ahead p xi st : node_z g m + gdz g <= xi -> evolve argsort U p xi st = evolve argsort V p xi st.
  Proof.
    intros X. destruct p; cbn [evolve]; [|reflexivity].
    assert (D : u_dxi U = gdz g). { destruct HU as (_ & Eg & _). unfold u_geom, args_of in Eg. injection Eg. auto. }
    assert (P : 0 < gdz g) by (destruct HU as ((P & _) & _); exact P).
    unfold evolve_plasma_rk4. cbv zeta. change (u_dxi V) with (u_dxi U).
    assert (H1 : node_z g m <= xi - u_dxi U * 0.5) by (rewrite D; lra).
    assert (H2 : node_z g m <= xi - u_dxi U) by (rewrite D; lra).
    rewrite (substep_ahead _ _ _ _ H1). destruct (derivatives_substep argsort V _ _ _ _) as [[s2 k2]|]; [|reflexivity]. cbn [bind].
    rewrite (substep_ahead _ _ _ _ H1). destruct (derivatives_substep argsort V _ _ _ _) as [[s3 k3]|]; [|reflexivity]. cbn [bind].
    rewrite (substep_ahead _ _ _ _ H2). reflexivity.
  Qed.
End Ahead.

(** ** Rows that a column does not touch *)
Definition same_grids_from (n s : Z) (G G' : grids) : Prop :=
  (forall i j, (n + 2 <= i)%Z -> cell (g_psi G') i j = cell (g_psi G) i j /\ cell (g_bt G') i j = cell (g_bt G) i j) /\
  (forall i j, (n + s + 2 <= i)%Z -> cell (g_rho G') i j = cell (g_rho G) i j /\ cell (g_chi G') i j = cell (g_chi G) i j).
Lemma same_grids_refl n s G : same_grids_from n s G G.
Proof. split; auto. Qed.
Lemma same_grids_trans n s G G' G'' : same_grids_from n s G G' -> same_grids_from n s G' G'' -> same_grids_from n s G G''.
Proof.
  intros [A B] [A' B']. split; intros i j I.
  - destruct (A i j I), (A' i j I). split; congruence.
  - destruct (B i j I), (B' i j I). split; congruence.
Qed.
Lemma ceil_IZR z : ceil (IZR z) = z.
Proof.
  apply Z.le_antisymm; [apply ceil_le; lra|]. destruct (Z_le_gt_dec z (ceil (IZR z))) as [L|L]; [exact L|].
  exfalso. assert (H : (ceil (IZR z) <= z - 1)%Z) by lia. unfold ceil in H. 
  pose proof (archimed (- IZR z)) as [A1 A2]. unfold Int_part in H.
  assert (IZR (up (- IZR z)) <= - IZR z + 1) by lra.
  assert (B : (up (- IZR z) <= - z + 1)%Z). { apply le_IZR. rewrite plus_IZR, opp_IZR. lra. }
  lia.
Qed.
Lemma spread_above g (cubic ruyten : bool) rc zc w i j : (ceil zc + (if cubic then 4 else 3) <= i)%Z ->
  spread (kernel_of g cubic ruyten rc zc) w i j = 0.
Proof.
  intros I. unfold spread. destruct cubic; cbn [kernel_of].
  - unfold cubic_kernel. cbn [cubic_shape k_z k_iz k_r k_ir].
    rewrite (at_outside (fold_edges _ _ _) (i - ceil zc)); [ring|]. rewrite fold_edges_length. lia.
  - unfold linear_kernel. cbn [k_z k_iz k_r k_ir]. rewrite (at_outside _ (i - (ceil zc + 1))); [ring|]. cbn [length]. lia.
Qed.
Lemma column_rows g argsort U i xi st G n st' G' : set_on g U -> column_of n st -> outside_axis st -> grids_on g G ->
  (Z.of_nat i < gnz g)%Z -> calculate_and_deposit_plasma_column argsort U i xi st G = Ok (st', G') ->
  same_grids_from (Z.of_nat i + 1) (reach (u_shape U)) G G'.
Proof.
  intros H C O D I E.
  destruct (column_ok g argsort U i xi st G n H C O D I) as (st1 & G1 & E1 & _ & _ & _ & _ & _ & _ & _ & _ & _ & _ & (_ & _ & Pr) & (_ & _ & Pc)).
  rewrite E in E1. injection E1 as <- <-.
  assert (Q : forall l k j, (Z.of_nat i + 1 + reach (u_shape U) + 2 <= k)%Z ->
     contributions (plasma_particle (u_dgrid U) (is_cubic (u_shape U)) (Z.of_nat i)) l k j = 0).
  { intros l k j K. unfold reach in K. induction l as [|rw l IH]; [reflexivity|]. cbn [contributions fold_right]. 
    fold (contributions (plasma_particle (u_dgrid U) (is_cubic (u_shape U)) (Z.of_nat i)) l k j). rewrite IH.
    unfold plasma_particle. destruct (Rle_dec _ _); [|ring]. rewrite spread_above; [ring|]. rewrite ceil_IZR.
    destruct (is_cubic (u_shape U)); lia. }
  split.
  - intros k j K. unfold calculate_and_deposit_plasma_column in E.
    destruct (at_particles argsort U xi (t_r st) (t_pr st) (f_src (t_felt st))) as [[f gamma]|]; cbn [bind] in E; [|discriminate].
    destruct (deposit_plasma_particles _ _ _ _ _) as [rho|]; cbn [bind] in E; [|discriminate].
    destruct (deposit_plasma_particles _ _ _ _ _) as [chi|]; cbn [bind] in E; [|discriminate].
    injection E as _ <-. cbn [g_psi g_bt]. split; [apply grid_other; lia|].
    unfold calculate_b_theta. destruct (ai_bi_from_axis _ _ _ _) as [[[a b] a0]|]; [|reflexivity].
    unfold set_row; cbn [cell]. replace (Z.eqb k (Z.of_nat i + 2)) with false by (symmetry; apply Z.eqb_neq; lia). reflexivity.
  - intros k j K. rewrite Pr, Pc, !Q by exact K. split; ring.
Qed.
Lemma same_grids_le n n' s G G' : (n <= n')%Z -> same_grids_from n s G G' -> same_grids_from n' s G G'.
Proof. intros L [A B]. split; intros i j I; [apply A|apply B]; lia. Qed.
Lemma sweep_rows g argsort U p n : set_on g U -> forall k st G st' G', (Z.of_nat k <= gnz g)%Z -> column_of n st -> outside_axis st ->
  grids_on g G -> sweep argsort U p k st G = Ok (st', G') -> same_grids_from (Z.of_nat k) (reach (u_shape U)) G G'.
Proof.
  intros H. induction k as [|i IH]; intros st G st' G' K C O D E; cbn [sweep] in E.
  - injection E as _ <-. apply same_grids_refl.
  - destruct (column_ok g argsort U i (nth i (u_xi U) 0) st G n H C O D ltac:(lia)) as (st1 & G1 & E1 & C1 & R1 & D1 & _).
    pose proof (column_rows g argsort U i _ st G n st1 G1 H C O D ltac:(lia) E1) as Q1.
    rewrite E1 in E. cbn [bind] in E.
    assert (O1 : outside_axis st1) by (unfold outside_axis; rewrite R1; exact O).
    replace (Z.of_nat (S i)) with (Z.of_nat i + 1)%Z by lia.
    eapply same_grids_trans; [exact Q1|]. apply (same_grids_le (Z.of_nat i)); [lia|].
    destruct i as [|i'].
    + cbn [bind] in E. apply (IH st1 G1 st' G'); auto; lia.
    + destruct (evolve_ok g argsort U p (nth (S i') (u_xi U) 0) st1 n H C1) as (st2 & E2 & C2 & O2 & _).
      rewrite E2 in E. cbn [bind] in E. apply (IH st2 G1 st' G'); auto; lia.
Qed.
Lemma sweep_ahead g argsort U a2 na2 b0 p n m : set_on g U -> set_on g (with_sources U a2 na2 b0) ->
  same_ahead g m (u_a2 U) a2 -> same_ahead g m (u_na2 U) na2 -> same_ahead g m (u_b0 U) b0 -> (0 <= m < gnz g)%Z ->
  forall k st G st' G' st'' G'', (m <= Z.of_nat k <= gnz g)%Z -> column_of n st -> outside_axis st -> grids_on g G ->
  sweep argsort U p k st G = Ok (st', G') -> sweep argsort (with_sources U a2 na2 b0) p k st G = Ok (st'', G'') ->
  same_grids_from m (reach (u_shape U)) G' G''.
Proof.
  intros H H' S1 S2 S3 M. set (V := with_sources U a2 na2 b0) in *.
  assert (Base : forall st1 st2 G st' G' st'' G'' k, (Z.of_nat k = m)%Z -> column_of n st1 -> column_of n st2 -> outside_axis st1 ->
    outside_axis st2 -> grids_on g G ->
    sweep argsort U p k st1 G = Ok (st', G') -> sweep argsort V p k st2 G = Ok (st'', G'') -> same_grids_from m (reach (u_shape U)) G' G'').
  { intros st1 st2 G st' G' st'' G'' k <- C1 C2 O1 O2 D E E'.
    pose proof (sweep_rows g argsort U p n H k _ _ _ _ ltac:(lia) C1 O1 D E) as [Q1 Q2].
    pose proof (sweep_rows g argsort V p n H' k _ _ _ _ ltac:(lia) C2 O2 D E') as [Q3 Q4]. change (u_shape V) with (u_shape U) in *.
    split; intros i j I.
    - destruct (Q1 i j I), (Q3 i j I). split; congruence.
    - destruct (Q2 i j I), (Q4 i j I). split; congruence. }
  assert (Hx : forall i, (Z.of_nat i < gnz g)%Z -> nth i (u_xi U) 0 = node_z g (Z.of_nat i)).
  { destruct H as (_ & _ & _ & _ & _ & _ & _ & X & _). exact X. }
  assert (Pg : proper g) by (destruct H as (X & _); exact X).
  induction k as [|i IH]; intros st G st' G' st'' G'' K C O D E E'.
  - apply (Base st st G st' G' st'' G'' 0%nat); auto; lia.
  - destruct (Z.eq_dec (Z.of_nat (S i)) m) as [Em|Em]; [apply (Base st st G st' G' st'' G'' (S i)); auto|].
    cbn [sweep] in E, E'. change (u_xi V) with (u_xi U) in E'.
    assert (X : node_z g m <= nth i (u_xi U) 0) by (rewrite Hx by lia; apply node_le; [assumption|lia]).
    destruct (column_ok g argsort U i (nth i (u_xi U) 0) st G n H C O D ltac:(lia)) as (st1 & G1 & E1 & C1 & R1 & D1 & _).
    pose proof (column_ahead argsort g U a2 na2 b0 m H H' M S1 S2 S3 i (nth i (u_xi U) 0) st G X O) as Qc. fold V in Qc. rewrite <- Qc in E'.
    rewrite E1 in E, E'. cbn [bind] in E, E'.
    assert (O1 : outside_axis st1) by (unfold outside_axis; rewrite R1; exact O).
    destruct i as [|i'].
    + cbn [bind] in E, E'. apply (IH st1 G1 st' G' st'' G''); auto; lia.
    + destruct (evolve_ok g argsort U p (nth (S i') (u_xi U) 0) st1 n H C1) as (st2 & E2 & C2 & O2 & _).
      destruct (evolve_ok g argsort V p (nth (S i') (u_xi U) 0) st1 n H' C1) as (st3 & E3 & C3 & O3 & _).
      rewrite E2 in E. rewrite E3 in E'. cbn [bind] in E, E'.
      destruct (Z.eq_dec (Z.of_nat (S i')) m) as [Es|Es].
      * apply (Base st2 st3 G1 st' G' st'' G'' (S i')); auto.
      * assert (X' : node_z g m + gdz g <= nth (S i') (u_xi U) 0).
        { rewrite Hx by lia. pose proof (node_le g (m + 1) (Z.of_nat (S i')) Pg ltac:(lia)) as N.
          unfold node_z in N at 1. unfold node_z at 1. rewrite plus_IZR in N. lra. }
        pose proof (evolve_ahead argsort g U a2 na2 b0 m H H' M S1 S2 S3 p _ st1 X') as Qe. fold V in Qe. rewrite <- Qe, E2 in E3. injection E3 as <-.
        apply (IH st2 G1 st' G' st'' G''); auto; lia.
Qed.
