(** Proofs: the column of the quasi-static plasma model, momenta and energies. *)
From Coq Require Import Reals ZArith String List Bool Arith Lia Lra.
From Verif Require Import Model_Push Model_Interp Spec_Interp Proofs_Interp Model_Deposit Spec_Deposit Proofs_Deposit
  Model_Psi Model_BTheta Model_QS Spec_QS Proofs_QS.
Import ListNotations.
Open Scope R_scope.

(** ** Sizes; the run does not fail *)
Lemma gather_ok g U xi r old : set_on g U -> (forall x, In x r -> 0 <= x) -> length old = length r ->
  exists src, gather_sources_qs_baxevanis (u_a2 U) (u_na2 U) (u_b0 U) (u_geom U) xi r old = Ok src /\
    length src = length r /\
    ((forall i j, (0 <= i < gnz g)%Z -> (0 <= j < gnr g)%Z -> 0 <= inner (u_a2 U) i j) ->
     (forall s, In s old -> 0 <= fst (fst s)) -> forall s, In s src -> 0 <= fst (fst s)).
Proof.
  intros (Hg & Eg & _ & _ & A1 & A2 & A3 & _) Hr L. rewrite Eg.
  destruct (gather_sources_lemma g _ _ _ xi r old Hg A1 A2 A3 Hr) as (V1 & V2 & V3 & E & I).
  eexists. split; [exact E|]. split; [rewrite map2_length'; lia|].
  intros P O s S. clear E. revert old L O s S. induction r as [|x r IH]; intros [|o old] L O s S; try discriminate.
  - destruct S.
  - cbn [map2 In] in S. destruct S as [<-|S].
    + destruct (within (args_of g) xi x) eqn:W.
      * apply within_true in W; [|apply Hr; left; reflexivity]. cbn [fst].
        destruct (I x W) as (I1 & _). 
        set (M := fold_right Rmax 0 (map (fun ij => inner (u_a2 U) (Z.of_nat (fst ij)) (Z.of_nat (snd ij)))
                    (list_prod (seq 0 (Z.to_nat (gnz g))) (seq 0 (Z.to_nat (gnr g)))))).
        assert (B : forall l v, In v l -> v <= fold_right Rmax 0 l).
        { clear. induction l as [|y l IH]; intros v V; [destruct V|]. cbn [fold_right]. destruct V as [->|V].
          - apply Rmax_l. - eapply Rle_trans; [apply IH; exact V|apply Rmax_r]. }
        apply (interpolates_bounds g _ _ _ _ 0 M Hg W I1). intros i j Hi Hj. split; [apply P; assumption|].
        apply B. apply in_map_iff. exists (Z.to_nat i, Z.to_nat j). cbn [fst snd]. rewrite !Z2Nat.id by lia. split; [reflexivity|].
        apply in_prod; apply in_seq; lia.
      * apply O. left; reflexivity.
    + apply (IH ltac:(intros; apply Hr; right; assumption) old ltac:(cbn in L; lia) ltac:(intros; apply O; right; assumption)).
      exact S.
Qed.
Lemma at_ok g argsort U xi r pr old : set_on g U -> (forall x, In x r -> 0 <= x) -> length old = length r ->
  exists f gamma, at_particles argsort U xi r pr old = Ok (f, gamma) /\ length (f_src f) = length r /\
    ((forall i j, (0 <= i < gnz g)%Z -> (0 <= j < gnr g)%Z -> 0 <= inner (u_a2 U) i j) ->
     (forall s, In s old -> 0 <= fst (fst s)) -> forall s, In s (f_src f) -> 0 <= fst (fst s)).
Proof.
  intros H Hr L. destruct (gather_ok g U xi r old H Hr L) as (src & E & Ls & P). unfold at_particles. rewrite E. cbn [bind].
  destruct (psi_at_particles r pr (u_q U) (argsort r) (u_rmax U) (u_drp U) (u_pc U)) as [[psi dr_psi] dxi_psi].
  eexists _, _. split; [reflexivity|]. cbn [f_src]. split; assumption.
Qed.
Lemma set_dgrid g U : set_on g U -> dgrid_ok (u_dgrid U) /\ dg_nz (u_dgrid U) = gnz g /\ dg_nr (u_dgrid U) = gnr g.
Proof.
  intros ((P1 & P2 & P3 & P4) & Eg & N1 & N2 & _). unfold u_geom, args_of in Eg. injection Eg as E1 E2 E3 E4 E5 E6.
  unfold dgrid_ok, u_dgrid; cbn [dg_dz dg_dr dg_rmin dg_nz dg_nr]. rewrite E3, E5, E6, N1, N2.
  unfold node_r. rewrite Rplus_0_l. repeat split; try lia; try assumption. lra.
Qed.

Lemma psi_lengths argsort U r pr : forall psi a b, psi_at_particles r pr (u_q U) (argsort r) (u_rmax U) (u_drp U) (u_pc U) = (psi, a, b) ->
  length psi = length r /\ forall x, In x psi -> - (9 / 10) <= x.
Proof.
  intros psi a b E. unfold psi_at_particles in E. injection E as <- _ _. rewrite map_length. split.
  - assert (P : forall idx v a, length (put idx v a) = length a).
    { induction idx as [|i idx IH]; intros [|y v] a'; cbn [put]; auto. rewrite IH.
      clear. revert i; induction a' as [|z a' IH]; intros [|i]; cbn [assign length]; auto. }
    rewrite P, repeat_length. reflexivity.
  - intros x X. apply in_map_iff in X. destruct X as (v & <- & _). unfold bounded_psi. destruct (Rlt_dec _ _); lra.
Qed.
Lemma at_psi argsort U xi r pr old f gamma : at_particles argsort U xi r pr old = Ok (f, gamma) ->
  forall x, In x (f_psi f) -> - (9 / 10) <= x.
Proof.
  unfold at_particles. destruct (gather_sources_qs_baxevanis _ _ _ _ _ _ _) as [src|]; cbn [bind]; [|discriminate].
  destruct (psi_at_particles r pr (u_q U) (argsort r) (u_rmax U) (u_drp U) (u_pc U)) as [[psi a] b] eqn:E.
  intros H. injection H as <- _. cbn [f_psi]. apply (psi_lengths argsort U r pr _ _ _ E).
Qed.
Lemma at_gamma argsort U xi r pr old f gamma : at_particles argsort U xi r pr old = Ok (f, gamma) ->
  gamma = map (fun i => new_gamma (entry pr i) (entry (a2_of (f_src f)) i) (entry (f_psi f) i)) (seq 0 (length pr)).
Proof.
  unfold at_particles. destruct (gather_sources_qs_baxevanis _ _ _ _ _ _ _) as [src|]; cbn [bind]; [|discriminate].
  destruct (psi_at_particles r pr (u_q U) (argsort r) (u_rmax U) (u_drp U) (u_pc U)) as [[psi a] b] eqn:E.
  intros H. injection H as <- <-. reflexivity.
Qed.

(** What the deposition of a column does, without the parts of its definition. *)
Definition rho_weight (U : setup) (st : state) (k : nat) : R :=
  entry (u_q U) k / (u_dr U * entry (t_r st) k * (1 - entry (t_pz st) k / entry (t_gamma st) k)).
Lemma column_ok g argsort U i xi st G n : set_on g U -> column_of n st -> outside_axis st -> grids_on g G ->
  (Z.of_nat i < gnz g)%Z ->
  exists st' G', calculate_and_deposit_plasma_column argsort U i xi st G = Ok (st', G') /\
    column_of n st' /\ t_r st' = t_r st /\ grids_on g G' /\
    length (f_psi (t_felt st')) = n /\ length (t_pz st') = n /\ length (t_gamma st') = n /\
    (forall x, In x (f_psi (t_felt st')) -> - (9 / 10) <= x) /\
    (forall k, (k < n)%nat -> limited (u_maxg U) (electron_a2 st' k) (electron_psi st' k) (entry (t_pr st) k)
       (entry (t_pr st') k) (entry (t_pz st') k) (entry (t_gamma st') k)) /\
    ((forall i j, (0 <= i < gnz g)%Z -> (0 <= j < gnr g)%Z -> 0 <= inner (u_a2 U) i j) ->
     (forall s, In s (f_src (t_felt st)) -> 0 <= fst (fst s)) -> forall s, In s (f_src (t_felt st')) -> 0 <= fst (fst s)) /\
    (t_mem st' = t_mem st /\ t_sub2 st' = t_sub2 st /\ t_sub3 st' = t_sub3 st /\ t_sub4 st' = t_sub4 st) /\
    plus_array (g_rho G) (contributions (plasma_particle (u_dgrid U) (is_cubic (u_shape U)) (Z.of_nat i))
      (combine (t_r st) (map (rho_weight U st') (seq 0 n)))) (g_rho G') /\
    plus_array (g_chi G) (contributions (plasma_particle (u_dgrid U) (is_cubic (u_shape U)) (Z.of_nat i))
      (combine (t_r st) (map (fun k => rho_weight U st' k / entry (t_gamma st') k) (seq 0 n)))) (g_chi G').
Proof.
  intros H C O D I. destruct C as (C1 & C2 & C3 & C4 & C5 & C6 & C7).
  destruct (at_ok g argsort U xi (t_r st) (t_pr st) (f_src (t_felt st)) H O ltac:(congruence)) as (f & gamma & E & Ls & P).
  destruct (at_lengths _ _ _ _ _ _ _ _ E) as (L1 & _ & _ & L2). pose proof (at_psi _ _ _ _ _ _ _ _ E) as B.
  pose proof (at_gamma _ _ _ _ _ _ _ _ E) as Gm.
  unfold calculate_and_deposit_plasma_column. rewrite E. cbn [bind].
  set (pz0 := each (t_pr st) (fun k => new_pz (entry (t_pr st) k) (entry (a2_of (f_src f)) k) (entry (f_psi f) k))).
  set (stop := map (too_fast (u_maxg U)) gamma).
  set (pz := map2 _ stop pz0). set (gam := map2 _ stop gamma). set (pr := map2 _ stop (t_pr st)).
  destruct (set_dgrid g U H) as (Dg & Nz & Nr).
  set (st' := mkst (t_r st) pr pz gam f (t_mem st) (t_sub2 st) (t_sub3 st) (t_sub4 st)).
  assert (Lp : length pz0 = n) by (unfold pz0, each; rewrite map_length, seq_length; exact C2).
  assert (Lst : length stop = n) by (unfold stop; rewrite map_length; lia).
  assert (Lz : length pz = n) by (unfold pz; rewrite map2_length'; lia).
  assert (Lg : length gam = n) by (unfold gam; rewrite map2_length'; lia).
  assert (Lr : length pr = n) by (unfold pr; rewrite map2_length'; lia).
  set (w_rho := each (t_r st) (fun k => entry (u_q U) k / (u_dr U * entry (t_r st) k * (1 - entry pz k / entry gam k)))).
  set (w_chi := each (t_r st) (fun k => entry w_rho k / entry gam k)).
  assert (W1 : w_rho = map (rho_weight U st') (seq 0 n)) by (unfold w_rho, each; rewrite C1; reflexivity).
  assert (W2 : w_chi = map (fun k => rho_weight U st' k / entry (t_gamma st') k) (seq 0 n)).
  { unfold w_chi, each. rewrite C1. apply map_ext_in. intros k K. apply in_seq in K. unfold entry at 1. rewrite W1, nth_map_seq by lia. reflexivity. }
  destruct H as (Hg & Eg & N1 & N2 & A1 & A2 & A3 & Hxi & Hur & Hs). destruct D as (D1 & D2 & D3 & D4).
  assert (Hi : (0 <= Z.of_nat i < dg_nz (u_dgrid U))%Z) by lia.
  assert (Da : forall a, guards g a -> darray (u_dgrid U) a) by (intros a [X Y]; split; lia).
  assert (Fr : forall w : list R, List.Forall (fun rw : R * R => 0 <= fst rw) (combine (t_r st) w)).
  { intros w. apply Forall_forall. intros [x y] X. apply in_combine_l in X. apply O; exact X. }
  destruct (deposit_plasma_lemma (u_dgrid U) (u_shape U) (Z.of_nat i) (combine (t_r st) w_rho) (g_rho G) Hs Dg (Da _ D3) Hi (Fr _))
    as (rho & -> & Pr). cbn [bind].
  destruct (deposit_plasma_lemma (u_dgrid U) (u_shape U) (Z.of_nat i) (combine (t_r st) w_chi) (g_chi G) Hs Dg (Da _ D4) Hi (Fr _))
    as (chi & -> & Pc). cbn [bind].
  eexists st', _. split; [reflexivity|].
  split. { unfold column_of; cbn. rewrite Ls. split; [exact C1|]. split; [exact Lr|]. split; [exact C3|]. auto. }
  split; [reflexivity|].
  assert (Gp : forall a b e, guards g a -> plus_array a e b -> guards g b).
  { intros a b e [X Y] (Z1 & Z2 & _). split; congruence. }
  split. { split; cbn [g_psi g_bt g_rho g_chi].
    - destruct D1 as [X Y]. split; [exact X|exact Y].
    - split; [|split; [exact (Gp _ _ _ D3 Pr)|exact (Gp _ _ _ D4 Pc)]]. unfold calculate_b_theta.
      destruct (ai_bi_from_axis _ _ _ _) as [[[a b] a0]|]; exact D2. }
  cbn [st' t_felt t_pz t_gamma t_pr t_mem t_sub2 t_sub3 t_sub4]. split; [congruence|]. split; [exact Lz|]. split; [exact Lg|].
  split; [exact B|]. split; [|split; [exact P|]].
  - intros k K.
    set (a2 := electron_a2 st' k). set (psi := electron_psi st' k).
    assert (Ea : entry (a2_of (f_src f)) k = a2).
    { unfold entry, a2_of, a2, electron_a2. cbn [st' t_felt]. 
      pose proof (map_nth (fun s : R * R * R => fst (fst s)) (f_src f) (0, 0, 0) k) as M. cbn [fst] in M. exact M. }
    assert (Bp : - (9 / 10) <= psi). { apply B. apply nth_In. cbn [st' t_felt]. lia. }
    assert (Eg' : entry gamma k = new_gamma (entry (t_pr st) k) a2 psi).
    { rewrite Gm. unfold entry at 1. rewrite nth_map_seq by lia. rewrite Ea. reflexivity. }
    assert (Ez : entry pz0 k = new_pz (entry (t_pr st) k) a2 psi).
    { unfold pz0, each. unfold entry at 1. rewrite nth_map_seq by lia. rewrite Ea. reflexivity. }
    exists (new_pz (entry (t_pr st) k) a2 psi), (new_gamma (entry (t_pr st) k) a2 psi). split.
    { unfold on_shell, new_pz, new_gamma. split; field; lra. }
    unfold pr, pz, gam, entry. rewrite !(map2_nth' _ true 0 0) by lia.
    unfold stop. rewrite (nth_indep (map _ _) true (too_fast (u_maxg U) 0)) by (rewrite map_length; lia).
    rewrite map_nth. fold (entry gamma k). rewrite Eg'. unfold too_fast.
    destruct (Rle_dec (u_maxg U) (new_gamma (entry (t_pr st) k) a2 psi)) as [Le|Gt].
    + right. auto.
    + left. split; [apply Rnot_le_lt; exact Gt|]. split; [reflexivity|]. split; [exact Ez|]. reflexivity.
  - split; [auto|]. change (entry gam) with (entry (t_gamma st')). rewrite <- W1. split; [assumption|]. cbn [g_chi]. rewrite W2 in Pc. exact Pc.
Qed.

Lemma substep_ok g argsort U xi r pr old n : set_on g U -> length r = n -> length pr = n -> length old = n ->
  exists src k, derivatives_substep argsort U xi r pr old = Ok (src, k) /\ length src = n /\ length k = n.
Proof.
  intros H L1 L2 L3. unfold derivatives_substep. cbv zeta.
  assert (A : forall x, In x (map2 Rmult r (map side r)) -> 0 <= x).
  { clear. induction r as [|y r IH]; intros x X; cbn in X; [destruct X|]. destruct X as [<-|X]; [|apply IH; exact X].
    unfold side. destruct (Rlt_dec y 0); lra. }
  destruct (at_ok g argsort U xi (map2 Rmult r (map side r)) (map2 Rmult pr (map side r)) old H A
     ltac:(rewrite map2_length', map_length; lia)) as (f & gamma & -> & Ls & _).
  cbn [bind]. eexists _, _. split; [reflexivity|]. rewrite Ls, !map2_length', !map_length. split; [lia|].
  unfold derivatives. rewrite !map_length, seq_length, map2_length', map_length. lia.
Qed.
Lemma moved_length h w x d : length (Model_QS.moved h w x d) = Nat.min (length x) (length d).
Proof. apply map2_length'. Qed.
Lemma evolve_ok g argsort U p xi st n : set_on g U -> column_of n st ->
  exists st', evolve argsort U p xi st = Ok st' /\ column_of n st' /\ outside_axis st' /\
    t_felt st' = t_felt st.
Proof.
  intros H (C1 & C2 & C3 & C4 & C5 & C6 & C7). destruct p; cbn [evolve].
  - assert (Q : exists st', evolve_plasma_rk4 argsort U xi st = Ok st' /\ column_of n st' /\ t_felt st' = t_felt st).
    { unfold evolve_plasma_rk4. cbv zeta.
      assert (K1 : length (derivatives (t_pr st) (t_gamma st) (t_felt st)) = n) by (unfold derivatives; rewrite map_length, seq_length; exact C2).
      set (k1 := derivatives _ _ _) in *. clearbody k1.
      destruct (substep_ok g argsort U (xi - u_dxi U * 0.5) (Model_QS.moved (u_dxi U) 0.5 (t_r st) (map fst k1))
        (Model_QS.moved (u_dxi U) 0.5 (t_pr st) (map snd k1)) (t_sub2 st) n H) as (s2 & k2 & -> & S2 & K2);
        try (rewrite moved_length, map_length; lia); try assumption. cbn [bind].
      destruct (substep_ok g argsort U (xi - u_dxi U * 0.5) (Model_QS.moved (u_dxi U) 0.5 (t_r st) (map fst k2))
        (Model_QS.moved (u_dxi U) 0.5 (t_pr st) (map snd k2)) (t_sub3 st) n H) as (s3 & k3 & -> & S3 & K3);
        try (rewrite moved_length, map_length; lia); try assumption. cbn [bind].
      destruct (substep_ok g argsort U (xi - u_dxi U) (Model_QS.moved (u_dxi U) 1 (t_r st) (map fst k3))
        (Model_QS.moved (u_dxi U) 1 (t_pr st) (map snd k3)) (t_sub4 st) n H) as (s4 & k4 & -> & S4 & K4);
        try (rewrite moved_length, map_length; lia); try assumption. cbn [bind].
      eexists. split; [reflexivity|]. cbn [t_felt]. split; [|reflexivity].
      unfold column_of; cbn. unfold each. rewrite !map2_length', !map_length, !seq_length. repeat split; lia. }
    destruct Q as (st' & E & C & F). exists st'. split; [exact E|]. split; [exact C|]. split; [|exact F].
    intros x X. exact (rk4_nonneg argsort U xi st st' E x X).
  - eexists. split; [reflexivity|]. split; [|split; [|reflexivity]].
    + unfold column_of, evolve_plasma_ab5; cbv zeta; cbn [t_r t_pr t_mem t_felt t_sub2 t_sub3 t_sub4].
      rewrite !map_length, !seq_length. repeat split; assumption.
    + intros x X. exact (ab5_nonneg U st x X).
Qed.
Lemma sweep_ok g argsort U p n : set_on g U -> forall k st G, (Z.of_nat k <= gnz g)%Z -> column_of n st -> outside_axis st -> grids_on g G ->
  exists st' G', sweep argsort U p k st G = Ok (st', G') /\ column_of n st' /\ outside_axis st' /\ grids_on g G'.
Proof.
  intros H. induction k as [|i IH]; intros st G K C O D.
  - exists st, G. auto.
  - cbn [sweep].
    destruct (column_ok g argsort U i (nth i (u_xi U) 0) st G n H C O D ltac:(lia)) as (st1 & G1 & -> & C1 & R1 & D1 & _). cbn [bind].
    assert (O1 : outside_axis st1) by (unfold outside_axis; rewrite R1; exact O).
    destruct i as [|i'].
    + cbn [bind]. apply IH; auto; lia.
    + destruct (evolve_ok g argsort U p (nth (S i') (u_xi U) 0) st1 n H C1) as (st2 & -> & C2 & O2 & _). cbn [bind].
      apply IH; auto; lia.
Qed.
(** The slices reached are those of the run. *)
Lemma sweep_slices argsort U p st0 G0 : forall k st G st' G', 
  at_slice argsort U p st0 G0 (S k) st G ->
  (do st1 <- evolve argsort U p (nth (S k) (u_xi U) 0) st; sweep argsort U p (S k) st1 G) = Ok (st', G') ->
  at_slice argsort U p st0 G0 0 st' G'.
Proof.
  induction k as [|i IH]; intros st G st' G' A E; (destruct (evolve argsort U p _ st) as [st1|] eqn:E1; cbn [bind] in E; [|discriminate]);
    cbn [sweep] in E;
    destruct (calculate_and_deposit_plasma_column _ _ _ _ _ _) as [[st2 G2]|] eqn:E2; cbn [bind] in E; try discriminate.
  - injection E as <- <-. apply (behind argsort U p st0 G0 0%nat st G st1 st2 G2 A E1 E2).
  - apply (IH st2 G2 st' G'); [|exact E]. apply (behind argsort U p st0 G0 (S i) st G st1 st2 G2 A E1 E2).
Qed.
Lemma run_slices argsort U p st0 G0 k st G : Z.of_nat (S k) = u_nxi U -> sweep argsort U p (S k) st0 G0 = Ok (st, G) ->
  at_slice argsort U p st0 G0 0 st G.
Proof.
  intros K E. cbn [sweep] in E.
  destruct (calculate_and_deposit_plasma_column _ _ _ _ _ _) as [[st2 G2]|] eqn:E2; cbn [bind] in E; try discriminate.
  destruct k as [|k].
  - injection E as <- <-. apply front; [lia|exact E2].
  - apply (sweep_slices argsort U p st0 G0 k st2 G2); [|exact E]. apply front; [lia|exact E2].
Qed.

(** ** At all slices *)
Lemma slice_ok g argsort U p st0 G0 n i st G : set_on g U -> column_of n st0 -> outside_axis st0 -> grids_on g G0 ->
  at_slice argsort U p st0 G0 i st G ->
  (Z.of_nat i < gnz g)%Z /\ column_of n st /\ outside_axis st /\ grids_on g G /\
  length (f_psi (t_felt st)) = n /\ length (t_pz st) = n /\ length (t_gamma st) = n /\
  ((forall i j, (0 <= i < gnz g)%Z -> (0 <= j < gnr g)%Z -> 0 <= inner (u_a2 U) i j) ->
     (forall s, In s (f_src (t_felt st0)) -> 0 <= fst (fst s)) -> forall s, In s (f_src (t_felt st)) -> 0 <= fst (fst s)).
Proof.
  intros H C0 O0 D0 A. assert (Nx : u_nxi U = gnz g) by (destruct H as (_ & _ & X & _); exact X).
  induction A as [i st G Ei E | i st G st' st'' G'' A IH Ev E].
  - assert (I : (Z.of_nat i < gnz g)%Z) by lia.
    destruct (column_ok g argsort U i (nth i (u_xi U) 0) st0 G0 n H C0 O0 D0 I) as (st1 & G1 & E1 & C1 & R1 & D1 & L1 & L2 & L3 & _ & _ & P & _).
    rewrite E in E1. injection E1 as <- <-. split; [exact I|]. split; [exact C1|].
    split; [unfold outside_axis; rewrite R1; exact O0|]. auto.
  - destruct IH as (I & C & O & D & _ & _ & _ & P0).
    destruct (evolve_ok g argsort U p (nth (S i) (u_xi U) 0) st n H C) as (st1 & E1 & C1 & O1 & F1).
    rewrite Ev in E1. injection E1 as <-.
    destruct (column_ok g argsort U i (nth i (u_xi U) 0) st' G n H C1 O1 D ltac:(lia)) as (st2 & G2 & E2 & C2 & R2 & D2 & L1 & L2 & L3 & _ & _ & P & _).
    rewrite E in E2. injection E2 as <- <-. split; [lia|]. split; [exact C2|].
    split; [unfold outside_axis; rewrite R2; exact O1|]. split; [exact D2|]. split; [exact L1|]. split; [exact L2|]. split; [exact L3|].
    intros Pa Ps. rewrite F1 in P. apply (P Pa). apply (P0 Pa Ps).
Qed.
(** The electrons at slice [i] came with momenta [pr] and radii [r]. *)
Lemma slice_last g argsort U p st0 G0 n i st G : set_on g U -> column_of n st0 -> outside_axis st0 -> grids_on g G0 ->
  at_slice argsort U p st0 G0 i st G -> exists before G1, column_of n before /\ outside_axis before /\ grids_on g G1 /\ (Z.of_nat i < gnz g)%Z /\
    calculate_and_deposit_plasma_column argsort U i (nth i (u_xi U) 0) before G1 = Ok (st, G).
Proof.
  intros H C0 O0 D0 A. inversion A; subst.
  - exists st0, G0. assert (u_nxi U = gnz g) by (destruct H as (_ & _ & X & _); exact X). repeat split; try apply C0; try apply D0; auto. lia.
  - destruct (slice_ok g argsort U p st0 G0 n (S i) st1 G1 H C0 O0 D0 H0) as (I & C & O & D & _).
    destruct (evolve_ok g argsort U p (nth (S i) (u_xi U) 0) st1 n H C) as (st2 & E1 & C1 & O1 & F1).
    rewrite H1 in E1. injection E1 as <-. exists st', G1. split; [exact C1|]. split; [exact O1|]. split; [exact D|]. split; [lia|exact H2].
Qed.

Lemma limited_range max a2 psi pr pr' pz' gamma' : 0 <= a2 -> - (9 / 10) <= psi -> 1 < max ->
  limited max a2 psi pr pr' pz' gamma' -> 1 <= gamma' < max /\ Rabs pz' < gamma' /\ pr' ^ 2 + pz' ^ 2 < gamma' ^ 2 /\ 0 < 1 - pz' / gamma'.
Proof.
  intros A P M (pz & gamma & (S1 & S2) & [(Lt & -> & -> & ->)|(_ & -> & -> & ->)]).
  - assert (0 < gamma).
    { destruct (Rle_dec gamma 0); [|lra]. exfalso. assert (pz <= gamma) by lra.
      assert (gamma ^ 2 <= pz ^ 2) by nra. nra. }
    assert (1 <= gamma) by nra.
    assert (Rabs pz < gamma). { apply Rabs_def1; [lra|]. nra. }
    split; [lra|]. split; [assumption|]. split; [nra|].
    replace (1 - pz / gamma) with ((gamma - pz) / gamma) by (field; lra). apply Rdiv_lt_0_compat; lra.
  - rewrite Rabs_R0. repeat split; try lra.
Qed.
