(** Proofs: fields at the electrons and in a slice; histories of the ab5 pusher. *)
From Coq Require Import Reals ZArith String List Bool Arith Lia Lra Permutation.
From Coquelicot Require Import Coquelicot.
From Verif Require Import Model_Push Model_Interp Spec_Interp Proofs_Interp Model_Deposit Spec_Deposit Proofs_Deposit
  Model_Psi Spec_Psi Proofs_Psi Proofs_Psi2 Proofs_Psi3 Proofs_Psi4 Proofs_Psi5 Proofs_Psi6 Model_BTheta Spec_BTheta Proofs_BTheta Proofs_BTheta2 Proofs_BTheta3 Proofs_BTheta4
  Properties_Psi Properties_BTheta Model_QS Spec_QS Spec_QS2 Proofs_QS Proofs_QS2 Proofs_QS3 Proofs_QS4 Proofs_QS5 Proofs_QS6 Proofs_QS7 Proofs_QS8.
Import ListNotations.
Open Scope R_scope.

Lemma axis_fuel p idx : length idx = length (e_r p) ->
  ai_bi_from_axis Spec_BTheta.exact (length (e_r p)) p idx = ai_bi_from_axis Spec_BTheta.exact (2 + length (e_r p)) p idx.
Proof.
  intros L. destruct (C46_terminates Spec_BTheta.exact p idx L) as (a & b & a0 & _ & _ & H). rewrite !H by lia. reflexivity.
Qed.
Lemma field_at p idx : orders idx (e_r p) -> regular p -> e_r p <> [] ->
  exists field w, solves p field w /\ field 0 = 0 /\
    (forall r_fld b_theta k, (forall x, In x r_fld -> 0 < x) ->
       (forall a b, (a < b < length r_fld)%nat -> nth a r_fld 0 <= nth b r_fld 0) ->
       exists out, calculate_b_theta (fun x => x) (length (e_r p)) r_fld p idx b_theta k = Some out /\
         (forall j, (0 <= j < Z.of_nat (length r_fld))%Z ->
            cell out (k + 2) (2 + j) = field (nth (Z.to_nat j) r_fld 0)) /\
         (forall i j, (i <> k + 2 \/ j < 2 \/ 2 + Z.of_nat (length r_fld) <= j)%Z ->
            cell out i j = cell b_theta i j)) /\
    (forall dr_p, 0 < dr_p ->
       exists v, b_theta_at_particles (fun x => x) (length (e_r p)) p idx dr_p = Some v /\ length v = length (e_r p) /\
         forall k, (k < length (e_r p))%nat -> nth (nth k idx 0%nat) v 0 =
           bounded 3 (chord field (mid_left idx (e_r p) k) (mid_right (dr_p / 2) idx (e_r p) k)
                        (nth (nth k idx 0%nat) (e_r p) 0))).
Proof.
  intros ORD REG NE. destruct (C46_field p idx (length (e_r p)) ORD REG NE) as (field & w & S & Z0 & A & B).
  assert (L : length idx = length (e_r p)). { destruct ORD as [P _]. apply Permutation_length in P. rewrite seq_length in P. exact P. }
  pose proof (axis_fuel p idx L) as Fu.
  exists field, w. split; [exact S|]. split; [exact Z0|]. split.
  - intros r_fld b_theta k PF SF. destruct (A r_fld b_theta k PF SF) as (out & E & Q). exists out. split; [|exact Q].
    unfold calculate_b_theta in *. change (fun x : R => x) with Spec_BTheta.exact. rewrite Fu. exact E.
  - intros dr_p DP. destruct (B dr_p DP) as (v & E & Q). exists v. split; [|exact Q].
    unfold b_theta_at_particles in *. change (fun x : R => x) with Spec_BTheta.exact. rewrite Fu. exact E.
Qed.

(** ** Fields at the electrons *)
Lemma rings_regular U r pr gamma f : rings U r pr -> length gamma = length r -> length (f_psi f) = length r ->
  length (f_drpsi f) = length r -> length (f_dxipsi f) = length r -> length (f_src f) = length r ->
  (forall x, In x (f_psi f) -> - (9 / 10) <= x) -> regular (electrons_in U r pr gamma f).
Proof.
  intros (N1 & N2 & N3 & N4 & N5 & N6 & _) L1 L2 L3 L4 L5 B. constructor; cbn [electrons_in e_r e_pr e_q e_gamma e_psi e_dr_psi e_dxi_psi e_b0 e_na2]; auto.
  - repeat constructor; rewrite ?map_length; auto.
  - intros x X. specialize (B x X). lra.
Qed.
Lemma felt_in g argsort U xi r pr old f gamma : set_on g U -> orders (argsort r) r -> rings U r pr -> length old = length r ->
  at_particles argsort U xi r pr old = Ok (f, gamma) -> in_fields g U xi (argsort r) r pr old f gamma.
Proof.
  intros H ORD RG LO E. pose proof RG as (N1 & N2 & N3 & N4 & N5 & N6 & N7 & N8).
  destruct (at_lengths _ _ _ _ _ _ _ _ E) as (L1 & L2 & L3 & L4). pose proof (at_psi _ _ _ _ _ _ _ _ E) as B.
  pose proof (at_gamma _ _ _ _ _ _ _ _ E) as Gm.
  destruct (at_ok g argsort U xi r pr old H ltac:(intros x X; left; apply N3; exact X) LO) as (f1 & g1 & E1 & Ls & _).
  rewrite E in E1. assert (f1 = f) by (injection E1; auto). subst f1. clear E1 g1.
  pose proof H as (Hg & Eg & _ & _ & A1 & A2 & A3 & _).
  unfold at_particles in E. rewrite Eg in E.
  destruct (gather_sources_lemma g (u_a2 U) (u_na2 U) (u_b0 U) xi r old Hg A1 A2 A3 ltac:(intros x X; left; apply N3; exact X)) as (V1 & V2 & V3 & Es & I).
  rewrite Es in E. cbn [bind] in E.
  pose proof (C45_particles r pr (u_q U) (argsort r) (u_rmax U) (u_drp U) (u_pc U)) as P45.
  destruct (psi_at_particles r pr (u_q U) (argsort r) (u_rmax U) (u_drp U) (u_pc U)) as [[psi dpsi] xpsi] eqn:Ep.
  set (src := map2 _ r old) in E.
  set (gam := each pr _) in E.
  set (bt := match b_theta_at_particles _ _ _ _ _ with Some v => v | None => [] end) in E.
  assert (Ef : f = mkf src bt psi dpsi xpsi) by congruence. assert (Egm : gamma = gam) by congruence. clear E.
  assert (F1 : f_src f = src) by (rewrite Ef; reflexivity).
  assert (F2 : f_psi f = psi) by (rewrite Ef; reflexivity).
  assert (F3 : f_drpsi f = dpsi) by (rewrite Ef; reflexivity).
  assert (F4 : f_dxipsi f = xpsi) by (rewrite Ef; reflexivity).
  assert (F5 : f_bt f = bt) by (rewrite Ef; reflexivity).
  assert (EL : as_plasma U r pr gam (mkf src [] psi dpsi xpsi) = electrons_in U r pr gamma f).
  { unfold as_plasma, electrons_in. rewrite Egm, F1, F2, F3, F4. reflexivity. }
  assert (RE : regular (electrons_in U r pr gamma f)) by (apply rings_regular; auto; lia).
  destruct (field_at (electrons_in U r pr gamma f) (argsort r) ORD RE N1) as (field & w & S & _ & _ & Q).
  destruct (Q (u_drp U) N8) as (v & Ev & _ & Vv). cbn [electrons_in e_r] in Ev, Vv.
  constructor.
  - intros i K. cbv zeta. rewrite F1. unfold src. rewrite (map2_nth' _ 0 (0, 0, 0) (0, 0, 0)) by lia.
    destruct (within (args_of g) xi (nth i r 0)) eqn:W.
    + assert (Cv : covered g xi (nth i r 0)) by (apply within_true; [left; apply N3; apply nth_In; lia|exact W]).
      left. split; [exact Cv|exact (I _ Cv)].
    + destruct (nth i old (0, 0, 0)) as [[a2 na2] b0]. right. split; [|reflexivity].
      intros Cv. apply within_true in Cv; [|left; apply N3; apply nth_In; lia]. unfold geom_of, args_of in *. congruence.
  - intros k K. cbv zeta. rewrite F2, F3. specialize (P45 k ORD N2 N3 N5 N4 N7 N8 K). cbv zeta in P45.
    replace (-0.90) with (- (9 / 10)) in P45 by lra. exact P45.
  - rewrite F4, Ep. reflexivity.
  - intros i K. exists (new_pz (nth i pr 0) (fst (fst (nth i (f_src f) (0, 0, 0)))) (nth i (f_psi f) 0)).
    rewrite Gm. rewrite nth_map_seq by lia.
    assert (Bp : - (9 / 10) <= nth i (f_psi f) 0) by (apply B; apply nth_In; lia).
    unfold entry, a2_of. pose proof (map_nth (fun s : R * R * R => fst (fst s)) (f_src f) (0, 0, 0) i) as M. cbn [fst] in M. rewrite M.
    unfold on_shell, new_gamma, new_pz. split; field; lra.
  - exists field, w. split; [exact S|]. intros k K. rewrite F5. unfold bt. rewrite EL.
    rewrite Ev. apply Vv. exact K.
Qed.

(** ** Fields of a slice *)
Lemma column_fields g argsort U i xi st G n st' G' : set_on g U -> column_of n st -> grids_on g G -> (Z.of_nat i < gnz g)%Z ->
  orders (argsort (t_r st)) (t_r st) -> rings U (t_r st) (t_pr st) ->
  calculate_and_deposit_plasma_column argsort U i xi st G = Ok (st', G') ->
  (exists gamma, in_fields g U xi (argsort (t_r st)) (t_r st) (t_pr st) (f_src (t_felt st)) (t_felt st') gamma) /\
  grid_fields U (Z.of_nat i) (t_r st) (t_pr st') (t_gamma st') (t_felt st') G'.
Proof.
  intros H C D I ORD RG E. pose proof C as (C1 & C2 & C3 & C4 & _).
  pose proof RG as (N1 & N2 & N3 & N4 & N5 & N6 & N7 & N8).
  assert (O : outside_axis st) by (intros x X; left; apply N3; exact X).
  destruct (column_ok g argsort U i xi st G n H C O D I) as (st1 & G1 & E1 & C' & Er & _ & P1 & P2 & P3 & B & _).
  rewrite E in E1. assert (st1 = st') by congruence. assert (G1 = G') by congruence. subst st1 G1. clear E1.
  unfold calculate_and_deposit_plasma_column in E.
  destruct (at_particles argsort U xi (t_r st) (t_pr st) (f_src (t_felt st))) as [[f gamma]|] eqn:Ea; cbn [bind] in E; [|discriminate].
  pose proof (felt_in g argsort U xi (t_r st) (t_pr st) (f_src (t_felt st)) f gamma H ORD RG ltac:(lia) Ea) as FI.
  destruct (at_lengths _ _ _ _ _ _ _ _ Ea) as (L1 & L2 & L3 & L4).
  set (stop := map (too_fast (u_maxg U)) gamma) in E. cbv zeta in E.
  set (pz := map2 _ stop (each _ _)) in E. set (gam := map2 _ stop gamma) in E. set (pr := map2 _ stop (t_pr st)) in E.
  set (psi := calculate_psi _ _ _ _ _ _ _ _) in E.
  set (bt := match calculate_b_theta _ _ _ _ _ _ _ with Some v => v | None => g_bt G end) in E.
  destruct (deposit_plasma_particles _ _ _ (combine _ (each (t_r st) (fun k => entry (u_q U) k / _))) _) as [rho|]; cbn [bind] in E; [|discriminate].
  destruct (deposit_plasma_particles _ _ _ _ _) as [chi|]; cbn [bind] in E; [|discriminate].
  assert (Es : st' = mkst (t_r st) pr pz gam f (t_mem st) (t_sub2 st) (t_sub3 st) (t_sub4 st)) by congruence.
  assert (EG : G' = mkgr psi bt rho chi) by congruence. clear E.
  assert (F : t_felt st' = f) by (rewrite Es; reflexivity).
  assert (F1 : t_pr st' = pr) by (rewrite Es; reflexivity).
  assert (F2 : t_gamma st' = gam) by (rewrite Es; reflexivity).
  assert (F3 : g_psi G' = psi) by (rewrite EG; reflexivity).
  assert (F4 : g_bt G' = bt) by (rewrite EG; reflexivity).
  split; [exists gamma; rewrite F; exact FI|].
  assert (RE : regular (electrons_in U (t_r st) (t_pr st') (t_gamma st') (t_felt st'))).
  { destruct C' as (X1 & X2 & X3 & X4 & _). rewrite Er in X1. apply rings_regular; try lia; try (rewrite F; lia); [|exact B].
    unfold rings. split; [exact N1|]. split; [exact N2|]. split; [exact N3|]. split; [lia|]. auto. }
  destruct (field_at (electrons_in U (t_r st) (t_pr st') (t_gamma st') (t_felt st')) (argsort (t_r st)) ORD RE N1) as (field & w & S & _ & Q & _).
  destruct H as (Hg & Eg & U1 & U2 & _ & _ & _ & _ & Hur & _).
  assert (Ur : forall k, (k < Z.to_nat (gnr g))%nat -> nth k (u_r U) 0 = node_r g (Z.of_nat k)).
  { intros k K. rewrite Hur. rewrite nth_map_seq by exact K. reflexivity. }
  assert (Lr : length (u_r U) = Z.to_nat (gnr g)) by (rewrite Hur, map_length, seq_length; reflexivity).
  assert (Pr : forall x, In x (u_r U) -> 0 < x).
  { intros x X. apply (In_nth _ _ 0) in X. destruct X as (k & K & <-). rewrite Ur by lia. destruct Hg as (_ & Hr & _ & _).
    unfold node_r. pose proof (IZR_le 0 (Z.of_nat k) ltac:(lia)). apply Rmult_lt_0_compat; lra. }
  assert (Sr : forall a b, (a < b < length (u_r U))%nat -> nth a (u_r U) 0 <= nth b (u_r U) 0).
  { intros a b K. rewrite !Ur by lia. destruct Hg as (_ & Hr & _ & _). unfold node_r.
    pose proof (IZR_le (Z.of_nat a) (Z.of_nat b) ltac:(lia)). apply Rmult_le_compat_r; lra. }
  destruct (Q (u_r U) (g_bt G) (Z.of_nat i) Pr Sr) as (out & Eo & V & _).
  intros m Mm phi. exists field, w. split; [exact S|]. intros j J. cbv zeta.
  assert (J' : (0 <= j < Z.of_nat (length (u_r U)))%Z) by lia.
  unfold inner. replace (j + 2)%Z with (2 + j)%Z by lia. split.
  - rewrite F3. unfold psi, phi. rewrite (C45_grid (u_r U) (t_r st) (u_q U) _ (u_rmax U) (u_pc U) (g_psi G) (Z.of_nat i) j m); auto.
  - rewrite F4. unfold bt. 
    assert (EL : as_plasma U (t_r st) pr gam f = electrons_in U (t_r st) (t_pr st') (t_gamma st') (t_felt st')).
    { unfold as_plasma, electrons_in. rewrite F, F1, F2. reflexivity. }
    rewrite EL. cbn [electrons_in e_r] in Eo. rewrite Eo. apply V; exact J'.
Qed.

(** ** The path of an electron *)
Definition same_column (a b : state) : Prop :=
  t_r a = t_r b /\ t_pr a = t_pr b /\ t_gamma a = t_gamma b /\ t_felt a = t_felt b /\ t_mem a = t_mem b /\
  t_sub2 a = t_sub2 b /\ t_sub3 a = t_sub3 b /\ t_sub4 a = t_sub4 b.
Lemma ab5_same U a b : same_column a b -> same_column (evolve_plasma_ab5 U a) (evolve_plasma_ab5 U b).
Proof.
  intros (E1 & E2 & E3 & E4 & E5 & E6 & E7 & E8). unfold same_column, evolve_plasma_ab5.
  cbn [t_r t_pr t_gamma t_felt t_mem t_sub2 t_sub3 t_sub4]. rewrite E1, E2, E3, E4, E5. auto 10.
Qed.
Lemma at_bt argsort U xi r pr old f gamma : length (argsort r) = length r ->
  at_particles argsort U xi r pr old = Ok (f, gamma) -> length (f_bt f) = length r.
Proof.
  intros L. unfold at_particles. destruct (gather_sources_qs_baxevanis _ _ _ _ _ _ _) as [src|]; cbn [bind]; [|discriminate].
  destruct (psi_at_particles r pr (u_q U) (argsort r) (u_rmax U) (u_drp U) (u_pc U)) as [[psi a] b].
  set (p := as_plasma _ _ _ _ _). destruct (C46_terminates (fun x => x) p (argsort r) L) as (a1 & b1 & a0 & _ & _ & T).
  unfold b_theta_at_particles. rewrite (T (length r)) by (cbn; lia).
  intros H. assert (f_bt f = put (argsort r) (map clip3 (at_loop (u_drp U) None (take (argsort r) (e_r p)) (combine (take (argsort r) a1) (take (argsort r) b1)))) (repeat 0 (length (e_r p)))) as ->.
  { injection H as <- _. reflexivity. }
  rewrite put_length, repeat_length. reflexivity.
Qed.
Lemma column_event g argsort U i xi st G n st' G' : set_on g U -> column_of n st -> outside_axis st -> grids_on g G -> (Z.of_nat i < gnz g)%Z ->
  length (argsort (t_r st)) = length (t_r st) ->
  calculate_and_deposit_plasma_column argsort U i xi st G = Ok (st', G') ->
  exists v, event_of n v /\ event_in st' v /\ same_column st' (prepare st v).
Proof.
  intros H C O D I La E. pose proof C as (C1 & C2 & C3 & C4 & _).
  destruct (at_ok g argsort U xi (t_r st) (t_pr st) (f_src (t_felt st)) H O ltac:(lia)) as (f & gamma & Ea & Ls & _).
  destruct (at_lengths _ _ _ _ _ _ _ _ Ea) as (L1 & L2 & L3 & L4). pose proof (at_bt _ _ _ _ _ _ _ _ La Ea) as L5.
  unfold calculate_and_deposit_plasma_column in E. rewrite Ea in E. cbn [bind] in E.
  set (stop := map (too_fast (u_maxg U)) gamma) in E. cbv zeta in E.
  set (pz := map2 _ stop (each _ _)) in E. set (gam := map2 _ stop gamma) in E. set (pr := map2 _ stop (t_pr st)) in E.
  set (psi := calculate_psi _ _ _ _ _ _ _ _) in E.
  set (bt := match calculate_b_theta _ _ _ _ _ _ _ with Some v => v | None => g_bt G end) in E.
  destruct (deposit_plasma_particles _ _ _ (combine _ (each (t_r st) (fun k => entry (u_q U) k / _))) _) as [rho|]; cbn [bind] in E; [|discriminate].
  destruct (deposit_plasma_particles _ _ _ _ _) as [chi|]; cbn [bind] in E; [|discriminate].
  assert (Es : st' = mkst (t_r st) pr pz gam f (t_mem st) (t_sub2 st) (t_sub3 st) (t_sub4 st)) by congruence. clear E.
  assert (Lst : length stop = n) by (unfold stop; rewrite map_length; lia).
  exists (mkev stop gam f). split; [|split].
  - unfold event_of; cbn [v_stop v_gamma v_felt]. unfold gam. rewrite map2_length'. repeat split; lia.
  - rewrite Es. unfold event_in; cbn [v_stop v_gamma v_felt t_felt t_gamma t_pr t_pz]. split; [reflexivity|]. split; [reflexivity|].
    intros k K. assert (Kn : (k < n)%nat). { destruct (Nat.lt_ge_cases k n) as [X|X]; [exact X|]. rewrite nth_overflow in K by lia. discriminate. }
    unfold pr, gam, pz. rewrite !(map2_nth' _ false 0 0) by (rewrite ?map_length, ?seq_length; unfold each; rewrite ?map_length, ?seq_length; lia).
    rewrite K. auto.
  - rewrite Es. unfold same_column, prepare; cbn [v_stop v_gamma v_felt t_r t_felt t_gamma t_pr t_mem t_sub2 t_sub3 t_sub4]. auto 10.
Qed.
Lemma same_trans a b c : same_column a b -> same_column b c -> same_column a c.
Proof. unfold same_column. intuition congruence. Qed.
Lemma prepare_same a b v : same_column a b -> same_column (prepare a v) (prepare b v).
Proof. intros (E1 & E2 & E3 & E4 & E5 & E6 & E7 & E8). unfold same_column, prepare; cbn. rewrite E1, E2, E5. auto 10. Qed.
Lemma slice_events g argsort U st0 G0 n i st G : set_on g U -> (forall l, length (argsort l) = length l) ->
  column_of n st0 -> outside_axis st0 -> grids_on g G0 -> at_slice argsort U AB5 st0 G0 i st G ->
  exists l v, Z.of_nat (length l) = (u_nxi U - 1 - Z.of_nat i)%Z /\ List.Forall (event_of n) l /\ event_of n v /\
    (forall j, (j < length (l ++ [v]))%nat -> exists i' st' G', Z.of_nat i' = (u_nxi U - 1 - Z.of_nat j)%Z /\
       at_slice argsort U AB5 st0 G0 i' st' G' /\ event_in st' (nth j (l ++ [v]) v)) /\
    same_column st (prepare (history U l st0) v).
Proof.
  intros H La C O D A. induction A as [i st G Ei E|i st G st' st'' G'' A IH E E'].
  - pose proof H as (_ & _ & N & _).
    destruct (column_event g argsort U i _ st0 G0 n st G H C O D ltac:(lia) (La _) E) as (v & V1 & V2 & V3).
    exists [], v. split; [cbn; lia|]. split; [constructor|]. split; [exact V1|]. split; [|exact V3].
    intros j J. cbn in J. assert (j = 0)%nat as -> by lia. exists i, st, G. split; [lia|]. split; [constructor; assumption|exact V2].
  - destruct IH as (l & v & Ll & Fl & Fv & Q & Sm).
    destruct (slice_ok g argsort U AB5 st0 G0 n (S i) st G H C O D A) as (I & C1 & O1 & D1 & _).
    cbn [evolve] in E. assert (Est : st' = evolve_plasma_ab5 U st) by congruence. 
    assert (Sm' : same_column st' (history U (l ++ [v]) st0)).
    { rewrite history_snoc, Est. apply ab5_same. exact Sm. }
    assert (C2 : column_of n st').
    { destruct C1 as (X1 & X2 & X3 & X4 & X5 & X6 & X7). rewrite Est. unfold column_of, evolve_plasma_ab5; cbn. rewrite !map_length, seq_length. auto 10. }
    assert (O2 : outside_axis st') by (rewrite Est; intros x X; exact (ab5_nonneg U st x X)).
    pose proof H as (_ & _ & N & _).
    assert (A' : at_slice argsort U AB5 st0 G0 i st'' G'') by (eapply behind; [exact A|cbn [evolve]; exact E|exact E']).
    destruct (column_event g argsort U i _ st' G n st'' G'' H C2 O2 D1 ltac:(lia) (La _) E') as (v' & V1 & V2 & V3).
    exists (l ++ [v]), v'. split; [rewrite app_length; cbn; lia|]. split; [apply Forall_app; auto|]. split; [exact V1|]. split.
    + intros j J. rewrite app_length in J. cbn [length] in J.
      destruct (Nat.lt_ge_cases j (length (l ++ [v]))) as [K|K].
      * destruct (Q j K) as (i' & s' & g' & Q1 & Q2 & Q3). exists i', s', g'. split; [exact Q1|]. split; [exact Q2|].
        rewrite app_nth1 by exact K. rewrite (nth_indep _ v' v) by exact K. exact Q3.
      * rewrite app_length in K; cbn in K. assert (j = length (l ++ [v])) as -> by (rewrite app_length in *; cbn in *; lia).
        exists i, st'', G''. split; [rewrite app_length; cbn; lia|]. split; [exact A'|]. rewrite app_nth2, Nat.sub_diag by lia. exact V2.
    + eapply same_trans; [exact V3|]. apply prepare_same. exact Sm'.
Qed.
Lemma path_of g argsort U st0 G0 n i st G k : set_on g U -> (forall l, length (argsort l) = length l) ->
  column_of n st0 -> outside_axis st0 -> grids_on g G0 -> at_slice argsort U AB5 st0 G0 i st G -> (k < n)%nat ->
  exists l v s e, Z.of_nat (length l) = (u_nxi U - 1 - Z.of_nat i)%Z /\
    (forall j, (j < length (l ++ [v]))%nat -> exists i' st' G', Z.of_nat i' = (u_nxi U - 1 - Z.of_nat j)%Z /\
       at_slice argsort U AB5 st0 G0 i' st' G' /\ event_in st' (nth j (l ++ [v]) v)) /\
    (s = 1 \/ s = -1) /\ passes_axis (u_dxi U) k (electron_at st0 k) l s e /\
    nth k (t_r st) 0 = s * l_r e /\ nth k (t_pr st) 0 = (if nth k (v_stop v) false then 0 else s * l_pr e) /\ 0 <= nth k (t_r st) 0.
Proof.
  intros H La C O D A K. pose proof C as (C1 & C2 & _).
  destruct (slice_events g argsort U st0 G0 n i st G H La C O D A) as (l & v & Ll & Fl & Fv & Q & Sm).
  assert (Fl' : List.Forall (event_of (length (t_r st0))) l) by (rewrite C1; exact Fl).
  destruct (ab5_reflects U st0 k l ltac:(lia) ltac:(lia) ltac:(apply O; apply nth_In; lia) Fl') as (s & e & S & P & E & N).
  exists l, v, s, e. split; [exact Ll|]. split; [exact Q|]. split; [exact S|]. split; [exact P|].
  destruct Sm as (S1 & S2 & _). rewrite S1, S2. unfold prepare; cbn [t_r t_pr].
  destruct (history_lengths U l st0 ltac:(lia)) as [X1 X2].
  split; [|split; [|exact N]].
  - apply (f_equal l_r) in E. exact E.
  - destruct Fv as (F1 & _). rewrite (map2_nth' _ false 0 0) by lia. apply (f_equal l_pr) in E. cbn [electron_at l_pr image] in E. rewrite E. reflexivity.
Qed.
Lemma slice_fields g argsort U p st0 G0 n i st G : set_on g U -> sorts argsort ->
  column_of n st0 -> outside_axis st0 -> grids_on g G0 -> at_slice argsort U p st0 G0 i st G ->
  rings U (t_r st) (t_pr st) ->
  (exists pr old gamma, in_fields g U (nth i (u_xi U) 0) (argsort (t_r st)) (t_r st) pr old (t_felt st) gamma /\
     forall k, (k < n)%nat -> nth k gamma 0 < u_maxg U /\ nth k (t_pr st) 0 = nth k pr 0 /\ nth k (t_gamma st) 0 = nth k gamma 0 \/
       u_maxg U <= nth k gamma 0 /\ nth k (t_pr st) 0 = 0 /\ nth k (t_gamma st) 0 = 1) /\
  grid_fields U (Z.of_nat i) (t_r st) (t_pr st) (t_gamma st) (t_felt st) G.
Proof.
  intros H Sr C O D A RG.
  destruct (slice_last g argsort U p st0 G0 n i st G H C O D A) as (before & G1 & Cb & Ob & Gb & I & E).
  destruct (column_ok g argsort U i (nth i (u_xi U) 0) before G1 n H Cb Ob Gb I) as (st1 & G2 & E1 & C1 & Er & _ & X1 & X2 & X3 & B & Lm & _).
  rewrite E in E1. assert (st1 = st) by congruence. assert (G2 = G) by congruence. subst st1 G2. clear E1.
  assert (RG' : rings U (t_r before) (t_pr before)).
  { destruct RG as (R1 & R2 & R3 & R4 & R5). rewrite Er in R1, R2, R3, R5. destruct Cb as (Y1 & Y2 & _).
    split; [exact R1|]. split; [exact R2|]. split; [exact R3|]. split; [lia|exact R5]. }
  destruct (column_fields g argsort U i _ before G1 n st G H Cb Gb I (Sr _) RG' E) as ((gamma & F) & GF).
  rewrite <- Er in F, GF. split; [|exact GF]. exists (t_pr before), (f_src (t_felt before)), gamma. split; [exact F|].
  intros k K. destruct (Lm k K) as (pz & gm & On & Q).
  destruct F as [_ _ _ FE _]. destruct C1 as (Y1 & _). destruct (FE k ltac:(lia)) as (pz' & On').
  assert (Bp : - (9 / 10) <= electron_psi st k) by (apply B; apply nth_In; lia).
  assert (gm = nth k gamma 0) as ->.
  { unfold on_shell, electron_a2, electron_psi, entry in *. set (a2 := fst (fst (nth k (f_src (t_felt st)) (0, 0, 0)))) in *.
    set (psi := nth k (f_psi (t_felt st)) 0) in *. destruct On as [O1 O2], On' as [O1' O2']. set (q := nth k (t_pr before) 0) in *.
    assert (pz = gm - (1 + psi)) as -> by lra. assert (pz' = nth k gamma 0 - (1 + psi)) as -> by lra.
    apply (Rmult_eq_reg_l (2 * (1 + psi))); nra. }
  unfold entry in Q. tauto.
Qed.

(** ** The first column *)
Lemma first_rings skin_depth A laser b : valid skin_depth A -> 0 <= a_pc A ->
  rings (the_setup skin_depth A laser b) (t_r (first_column skin_depth A)) (t_pr (first_column skin_depth A)).
Proof.
  intros V Pc. destruct (widths skin_depth A V) as [W1 W2]. pose proof (s_pos skin_depth A V) as S.
  assert (Rp : ring_width A / a_ppc A <= match a_rplasma A with Some r => r | None => a_rmax A end) by apply V.
  assert (PP : 0 < a_ppc A) by apply V.
  assert (Dr : 0 < n_dr skin_depth A) by (rewrite (n_dr_eq skin_depth A V); apply Rdiv_lt_0_compat; assumption).
  assert (Rn : n_dr skin_depth A / a_ppc A <= n_rplasma skin_depth A).
  { rewrite (n_dr_eq skin_depth A V). unfold n_rplasma. 
    replace (ring_width A / s_d skin_depth A / a_ppc A) with (ring_width A / a_ppc A / s_d skin_depth A) by (field; lra).
    destruct (a_rplasma A); apply Rmult_le_compat_r; try exact Rp; left; apply Rinv_0_lt_compat; exact S. }
  assert (Dp : 0 < n_dr skin_depth A / a_ppc A) by (apply Rdiv_lt_0_compat; assumption).
  assert (N0 : (0 < n_part (n_rplasma skin_depth A) (n_dr skin_depth A) (a_ppc A))%nat).
  { destruct (Nat.eq_0_gt_0_cases (n_part (n_rplasma skin_depth A) (n_dr skin_depth A) (a_ppc A))) as [Z|Z]; [|exact Z]. exfalso.
    pose proof (radius_near (n_rplasma skin_depth A) (n_dr skin_depth A) (a_ppc A) ltac:(lra) Dr PP) as [X _].
    unfold adjusted_radius in X. rewrite Z in X. cbn [INR] in X. rewrite Rmult_0_l in X.
    rewrite Rabs_left1 in X by lra. lra. }
  pose proof (C47_column (n_rplasma skin_depth A) (n_pc skin_depth A) (n_dr skin_depth A) (a_ppc A) ltac:(lra) Dr PP) as Q. cbv zeta in Q.
  fold (the_column skin_depth A) in Q. destruct Q as (L1 & L2 & L3 & L4 & L5 & Q).
  set (n := n_part _ _ _) in *. set (dp := n_dr skin_depth A / a_ppc A) in *.
  unfold first_column, start; cbn [t_r t_pr]. unfold rings, the_setup; cbn [u_q u_rmax u_drp].
  set (c := the_column skin_depth A) in *. fold dp.
  assert (Rpos : forall i, (i < n)%nat -> 0 < nth i (p_r c) 0).
  { intros i I. destruct (Q i I) as (-> & _). apply Rmult_lt_0_compat; [pose proof (pos_INR i); lra|exact Dp]. }
  split; [intros Z; rewrite Z in L1; cbn in L1; lia|]. split.
  { apply (NoDup_nth _ 0). intros i j I J E. rewrite L1 in I, J. destruct (Q i I) as (E1 & _), (Q j J) as (E2 & _). rewrite E1, E2 in E.
    apply Rmult_eq_reg_r in E; [|lra]. apply INR_eq. lra. }
  split; [intros x X; apply (In_nth _ _ 0) in X; destruct X as (i & I & <-); apply Rpos; lia|].
  split; [lia|]. split; [lia|]. split.
  { intros x X. apply (In_nth _ _ 0) in X. destruct X as (i & I & <-). rewrite L5 in I. destruct (Q i I) as (_ & _ & _ & _ & ->).
    specialize (Rpos i I). set (y := nth i (p_r c) 0) in *. apply Rmult_le_pos; [apply Rmult_le_pos; lra|].
    assert (0 <= n_pc skin_depth A * y ^ 2); [|lra]. unfold n_pc. apply Rmult_le_pos; [apply Rmult_le_pos; [exact Pc|]|]; apply pow2_ge_0. }
  split; [|exact Dp]. unfold adjusted_radius. fold n dp. apply Rmult_lt_0_compat; [apply lt_0_INR; exact N0|exact Dp].
Qed.
Lemma first_quantities skin_depth A laser b : valid skin_depth A ->
  let s := skin_depth (a_np A / 1000000) in
  let U := the_setup skin_depth A laser b in
  let radius := match a_rplasma A with Some r => r | None => a_rmax A end in
  let c := initialize (radius / s) (a_pc A * s ^ 2) (ring_width A / s) (a_ppc A) in
  let n := n_part (radius / s) (ring_width A / s) (a_ppc A) in
  let st := first_column skin_depth A in
  u_q U = p_q c /\ u_drp U = ring_width A / s / a_ppc A /\ u_rmax U = INR n * u_drp U /\ u_pc U = a_pc A * s ^ 2 /\
  u_maxg U = a_maxg A /\ u_shape U = a_shape A /\ u_nxi U = a_nxi A /\ u_nr U = a_nr A /\ u_dr U = ring_width A / s /\
  (forall i, (i < Z.to_nat (a_nxi A))%nat -> nth i (u_xi U) 0 = slice_at A (Z.of_nat i) / s) /\
  (forall j, (j < Z.to_nat (a_nr A))%nat -> nth j (u_r U) 0 = (INR j + / 2) * ring_width A / s) /\
  t_r st = p_r c /\ column_of n st /\
  (forall x, In x (t_pr st) -> x = 0) /\ (forall x, In x (f_src (t_felt st) ++ t_sub2 st ++ t_sub3 st ++ t_sub4 st) -> x = (0, 0, 0)) /\
  (forall m, In m (t_mem st) -> m = (mkm 0 0 0 0, mkm 0 0 0 0)).
Proof.
  intros V. cbv zeta. rewrite <- (s_eq skin_depth A).
  assert (Er : n_rplasma skin_depth A = (match a_rplasma A with Some r => r | None => a_rmax A end) / s_d skin_depth A).
  { unfold n_rplasma. destruct (a_rplasma A); reflexivity. }
  assert (Ec : the_column skin_depth A = initialize ((match a_rplasma A with Some r => r | None => a_rmax A end) / s_d skin_depth A)
    (a_pc A * s_d skin_depth A ^ 2) (ring_width A / s_d skin_depth A) (a_ppc A)).
  { unfold the_column. rewrite Er, (n_dr_eq skin_depth A V). reflexivity. }
  unfold the_setup; cbn [u_q u_drp u_rmax u_pc u_maxg u_shape u_nxi u_nr u_dr u_xi u_r]. rewrite Ec, Er, (n_dr_eq skin_depth A V).
  unfold first_column. rewrite Ec. set (c := initialize _ _ _ _). set (n := n_part _ _ _).
  assert (L : length (p_r c) = n /\ length (p_pr c) = n).
  { unfold c, initialize; cbn [p_r p_pr]. rewrite map_length, seq_length, repeat_length. auto. }
  destruct L as [La Lb].
  repeat (split; [reflexivity|]).
  destruct V as (_ & _ & _ & _ & _ & _ & _ & _ & _ & Vr & Vx).
  split. { intros i I. unfold n_coords. rewrite Vx, map_map, nth_map_seq by exact I. reflexivity. }
  split. { intros j J. unfold n_coords. rewrite Vr, map_map, nth_map_seq by exact J. reflexivity. }
  split; [reflexivity|]. unfold column_of, start; cbn [t_r t_pr t_mem t_felt f_src t_sub2 t_sub3 t_sub4]. rewrite !repeat_length, La, Lb.
  split; [auto 10|]. split; [|split].
  - intros x X. unfold c, initialize in X; cbn [p_pr] in X. apply repeat_spec in X. exact X.
  - intros x X. rewrite !in_app_iff in X. destruct X as [X|[X|[X|X]]]; apply repeat_spec in X; exact X.
  - intros m X. apply repeat_spec in X. exact X.
Qed.
