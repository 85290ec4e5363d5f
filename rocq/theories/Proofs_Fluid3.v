(** Proofs: what follows from the solution of the cold fluid model. *)
From Coq Require Import Reals ZArith String List Bool Arith Lia Lra Permutation.
From Coquelicot Require Import Coquelicot.
From Verif Require Import Model_Push Model_Interp Spec_Interp Proofs_Interp Model_Deposit Spec_Deposit Proofs_Deposit
  Model_QS Spec_QS Proofs_QS4 Proofs_QS6 Proofs_QS7 Model_Fluid Spec_Fluid Proofs_Fluid Proofs_Fluid2.
Import ListNotations.
Open Scope R_scope.

(** ** The potential *)
Lemma column_lemma s W l' a n psi a' n' psi' m j : (0 <= j < c_nr W)%Z -> (0 <= m)%Z ->
  potential s W a n psi -> potential s (with_laser W l') a' n' psi' ->
  (forall i, (m <= i < c_nxi W)%Z -> a i j = a' i j) ->
  (c_beam W = true -> forall i, (m < i < c_nxi W)%Z -> n i j = n' i j) ->
  forall i, (m <= i < c_nxi W)%Z -> psi i j = psi' i j.
Proof.
  intros J M (v & H0 & Hs) (v' & H0' & Hs') Ea En.
  assert (P : forall k, (m <= c_nxi W - 1 - Z.of_nat k)%Z -> psi (c_nxi W - 1 - Z.of_nat k)%Z j = psi' (c_nxi W - 1 - Z.of_nat k)%Z j /\
                        v (c_nxi W - 1 - Z.of_nat k)%Z j = v' (c_nxi W - 1 - Z.of_nat k)%Z j).
  { induction k as [|k IH]; intros K.
    - replace (c_nxi W - 1 - Z.of_nat 0)%Z with (c_nxi W - 1)%Z by lia. destruct (H0 j J) as [-> ->].
      destruct (H0' j J) as [E1 E2]. cbn in E1, E2. rewrite E1, E2. split; reflexivity.
    - destruct (IH ltac:(lia)) as [I1 I2]. set (i := (c_nxi W - 1 - Z.of_nat k)%Z) in *.
      replace (c_nxi W - 1 - Z.of_nat (S k))%Z with (i - 1)%Z by lia.
      assert (Q : (psi (i - 1)%Z j, v (i - 1)%Z j) = (psi' (i - 1)%Z j, v' (i - 1)%Z j)).
      { rewrite (Hs i j) by (unfold point; lia). rewrite (Hs' i j) by (unfold point; cbn; lia). cbn [with_laser c_beam].
        rewrite I1, I2, !Ea by lia. change (step_xi (with_laser W l')) with (step_xi W).
        destruct (c_beam W) eqn:B; [rewrite (En eq_refl) by lia|]; reflexivity. }
      injection Q as Q1 Q2. split; assumption. }
  intros i I. destruct (P (Z.to_nat (c_nxi W - 1 - i)) ltac:(lia)) as [Q _].
  replace (c_nxi W - 1 - Z.of_nat (Z.to_nat (c_nxi W - 1 - i)))%Z with i in Q by lia. exact Q.
Qed.
Lemma quiet_lemma s W a n psi : potential s W a n psi ->
  (forall i j, point W i j -> a i j = 0 /\ (c_beam W = true -> n i j = 0)) -> forall i j, point W i j -> psi i j = 0.
Proof.
  intros H Q i j [I J]. assert (Z0 : potential s (with_laser W (c_laser W)) (fun _ _ => 0) (fun _ _ => 0) (fun _ _ => 0)).
  { exists (fun _ _ => 0). split; [intros; split; reflexivity|]. intros i0 j0 _ _.
    replace (if c_beam (with_laser W (c_laser W)) then 0 else 0) with 0 by (destruct (c_beam _); reflexivity).
    assert (P0 : forall t, poisson ((1 - t) * 0 + t * 0) 0 (0, 0) = (0, 0)).
    { intros t. unfold poisson; cbn [fst snd]. f_equal. field. }
    assert (A0 : forall c, along c (0, 0) (0, 0) = (0, 0)) by (intros c; unfold along; cbn [fst snd]; f_equal; ring).
    unfold rk4. rewrite P0, A0, !P0, !A0, !P0, !A0, !P0. cbn [fst snd]. unfold along; cbn [fst snd]. f_equal; ring. }
  apply (column_lemma s W _ _ _ _ _ _ _ 0%Z j J ltac:(lia) H Z0).
  - intros k K. apply (Q k j). split; assumption.
  - intros B k K. destruct (Q k j) as [_ E]; [split; [lia|exact J]|]. apply E. exact B.
  - exact I.
Qed.
Lemma strength_unique W a a' : strength W a -> strength W a' -> forall i j, a i j = a' i j.
Proof.
  intros H H' i j. destruct (H i j) as [P E], (H' i j) as [P' E']. rewrite <- E' in E. nra.
Qed.

(** ** The bunches *)
Section Bunches.
  Variables (s e : R) (W : fluid).
  Hypothesis D : domain 2 W.
  Hypothesis S : 0 < s.
  Let g := fluid_grid s W.
  Let Dep (l : list (pos * R)) (i j : Z) : R := contributions (particle g (is_cubic (c_shape W)) true) (map (counted s e) l) (i + 2) (j + 2).
  Lemma volume_pos j : (0 <= j)%Z -> 0 < c_np W * ring_volume W j.
  Proof.
    intros J. destruct (steps_pos W D) as [P1 P2]. destruct D as (_ & _ & _ & _ & Np & _). apply IZR_le in J. pose proof PI_RGT_0.
    apply Rmult_lt_0_compat; [exact Np|]. unfold ring_volume.
    replace (_ - _) with (PI * step_xi W * step_r W ^ 2 * (2 * IZR j + 1)) by ring.
    apply Rmult_lt_0_compat; [|lra]. apply Rmult_lt_0_compat; [apply Rmult_lt_0_compat; assumption|]. apply pow_lt. exact P2.
  Qed.
  Lemma g_ok : dgrid_ok g.
  Proof.
    pose proof (steps_pos W D) as [P1 P2]. destruct D as (_ & _ & Nx & Nr & _). unfold dgrid_ok, g, fluid_grid; cbn.
    repeat split; try lia; try apply Rdiv_lt_0_compat; assumption.
  Qed.
  Lemma density_value bunches n : bunch_density s e W bunches n ->
    forall i j, point W i j -> n i j = Dep (concat bunches) i j / (c_np W * ring_volume W j).
  Proof.
    intros (N & E & H) i j P. assert (Hs : shape_name (c_shape W)) by (destruct D as (_ & _ & _ & _ & _ & Hs); exact Hs).
    destruct (deposit_3d_lemma g (c_shape W) true (map (counted s e) (concat bunches)) (zeros g) Hs g_ok ltac:(split; reflexivity)) as (N' & E' & (_ & _ & V)).
    fold g in E. unfold pos in *. rewrite E in E'. assert (N' = N) as -> by congruence.
    pose proof (volume_pos j ltac:(apply P)). apply Rmult_eq_reg_r with (c_np W * ring_volume W j); [|lra].
    rewrite H by exact P. unfold Dep, inner. rewrite V. cbn [zeros cell]. unfold pos. field. split; intros Q; rewrite Q in *; lra.
  Qed.
  Lemma density_same bunches bunches' n n' i j : bunch_density s e W bunches n -> bunch_density s e W bunches' n' ->
    Permutation (concat bunches) (concat bunches') -> point W i j -> n i j = n' i j.
  Proof.
    intros H H' P I. rewrite (density_value _ _ H i j I), (density_value _ _ H' i j I). f_equal. unfold Dep.
    apply contributions_perm. apply Permutation_map. exact P.
  Qed.
  Lemma density_outside bunches n i j : bunch_density s e W bunches n ->
    List.Forall (fun pq => ~ inside g (fst (counted s e pq))) (concat bunches) -> point W i j -> n i j = 0.
  Proof.
    intros H P I. rewrite (density_value _ _ H i j I). unfold Dep. rewrite contributions_zero; [unfold Rdiv; ring|].
    apply List.Forall_map. eapply List.Forall_impl; [|exact P]. intros pq Q. unfold particle. destruct (inside_dec g _) as [Y|Y]; [contradiction|reflexivity].
  Qed.
  Lemma dep_ahead m xi l i j : xi <= c_ximin W + (IZR m - 2) * step_xi W -> (m <= i)%Z ->
    Dep l i j = Dep (filter (ahead xi) l) i j.
  Proof.
    intros X I. unfold Dep. induction l as [|pq l IH]; [reflexivity|]. cbn [filter]. unfold ahead at 1.
    destruct (Rle_dec (lon (fst pq)) xi) as [L|L].
    - cbn [map contributions fold_right]. unfold contributions in IH at 1. rewrite IH.
      destruct pq as [[[x y] z] q]. unfold counted at 1. rewrite (particle_behind (fun x => x) 0 0 g (c_shape W) _ _ m); [ring| |lia].
      destruct g_ok as (Hz & _). unfold z_cells, lon in *; cbn [snd fst] in *. unfold g, fluid_grid in *; cbn in *.
      apply Rmult_le_reg_r with (step_xi W / s); [exact Hz|]. unfold Rdiv at 1. rewrite Rmult_assoc, Rinv_l, Rmult_1_r by lra.
      assert (Q : z / s <= (c_ximin W + (IZR m - 2) * step_xi W) / s).
      { unfold Rdiv. apply Rmult_le_compat_r; [|lra]. left. apply Rinv_0_lt_compat. exact S. }
      unfold Rdiv in *. lra.
    - cbn [map contributions fold_right]. unfold contributions in IH. rewrite IH. reflexivity.
  Qed.
  Lemma density_ahead m xi bunches bunches' n n' i j : bunch_density s e W bunches n -> bunch_density s e W bunches' n' ->
    xi <= c_ximin W + (IZR m - 2) * step_xi W ->
    List.Forall2 (fun l l' => filter (ahead xi) l = filter (ahead xi) l') bunches bunches' ->
    (m <= i)%Z -> point W i j -> n i j = n' i j.
  Proof.
    intros H H' X F M I. rewrite (density_value _ _ H i j I), (density_value _ _ H' i j I). f_equal.
    rewrite (dep_ahead m xi (concat bunches)), (dep_ahead m xi (concat bunches')) by assumption. f_equal.
    clear - F. induction F as [|l l' bs bs' H F IH]; [reflexivity|]. cbn [concat]. rewrite !filter_app, H, IH. reflexivity.
  Qed.
  Lemma sum_inner f k : (0 <= k)%Z -> f 0%Z = 0 -> f 1%Z = 0 -> f (k + 2)%Z = 0 -> f (k + 3)%Z = 0 ->
    sum_range (k + 4) f = sum_range k (fun i => f (i + 2)%Z).
  Proof.
    intros K F0 F1 F2 F3. replace (k + 4)%Z with (k + 2 + 1 + 1)%Z by lia. rewrite !sum_range_S by lia.
    replace (k + 2 + 1)%Z with (k + 3)%Z by lia. rewrite F2, F3.
    assert (Q : forall k, (0 <= k)%Z -> sum_range (k + 2) f = sum_range k (fun i => f (i + 2)%Z)).
    { apply range_ind.
      - replace (0 + 2)%Z with (0 + 1 + 1)%Z by lia. rewrite !sum_range_S, sum_range_0 by lia. replace (0 + 1)%Z with 1%Z by lia. rewrite F0, F1, sum_range_0. ring.
      - intros m M IH. replace (m + 1 + 2)%Z with (m + 2 + 1)%Z by lia. rewrite !sum_range_S, IH by lia. reflexivity. }
    rewrite Q by exact K. ring.
  Qed.
  (** All particles within the domain are counted. *)
  Lemma total_lemma bunches n : bunch_density s e W bunches n -> guarded_grid g (c_shape W) ->
    sum_range (c_nxi W) (fun i => sum_range (c_nr W) (fun j => n i j * (c_np W * ring_volume W j))) = particles_inside s e W bunches.
  Proof.
    intros (N & E & H) G. assert (Hs : shape_name (c_shape W)) by (destruct D as (_ & _ & _ & _ & _ & Hs); exact Hs).
    assert (A : darray g (zeros g)) by (split; reflexivity).
    destruct (conserve_lemma g (c_shape W) true (map (counted s e) (concat bunches)) (zeros g) Hs g_ok A) as (N' & E' & (R' & C') & T).
    fold g in E. pose proof (guards_lemma _ _ _ _ _ _ Hs g_ok G A E) as Gd.
    unfold pos in *. rewrite E in E'. assert (N' = N) as -> by congruence.
    unfold particles_inside. fold g. assert (Z0 : total_charge (zeros g) = 0).
    { unfold total_charge. apply sum_range_zero. intros. apply sum_range_zero. intros. reflexivity. }
    rewrite Z0, Rplus_0_l in T. transitivity (total_charge N); [|exact T]. unfold total_charge. rewrite R', C'.
    destruct D as (_ & _ & Nx & Nr & _). change (dg_nz g) with (c_nxi W). change (dg_nr g) with (c_nr W).
    assert (Zc : forall i j, ~ inner_cell g i j -> cell N i j = 0) by (intros; rewrite Gd by assumption; reflexivity).
    assert (Zr : forall i, (i < 2 \/ c_nxi W + 2 <= i)%Z -> sum_range (c_nr W + 4) (fun j => cell N i j) = 0).
    { intros i I. apply sum_range_zero. intros j _. apply Zc. unfold inner_cell. change (dg_nz g) with (c_nxi W). lia. }
    rewrite sum_inner by (try lia; apply Zr; lia). apply sum_range_ext. intros i I.
    rewrite sum_inner by (try lia; apply Zc; unfold inner_cell; change (dg_nr g) with (c_nr W); lia).
    apply sum_range_ext. intros j J. rewrite H by (split; assumption). reflexivity.
  Qed.
End Bunches.

(** ** Two solutions *)
Section Two.
  Variables (s E0 e light : R) (W : fluid) (l' : option ((Z -> Z -> C) * string)) (bunches bunches' : list (list (pos * R))) (F F' : fields)
    (a n psi a' n' psi' : Z -> Z -> R) (m : Z).
  Let W' := with_laser W l'.
  Hypothesis D : domain 3 W.
  Hypothesis L : light <> 0.
  Hypothesis M : (0 <= m)%Z.
  Hypothesis H : solution s E0 e light W bunches F a n psi.
  Hypothesis H' : solution s E0 e light W' bunches' F' a' n' psi'.
  Hypothesis Ep : forall i j, point W i j -> (m <= i)%Z -> psi i j = psi' i j.
  Hypothesis Ea : forall i j, point W i j -> (m <= i)%Z -> a i j = a' i j.

  Lemma chi_same i j : point W i j -> (m <= i)%Z -> 1 + psi i j <> 0 -> inner (h_chi F) i j = inner (h_chi F') i j.
  Proof.
    intros P I Hp. pose proof (sol_chi _ _ _ _ _ _ _ _ _ _ H i j P Hp) as Q. rewrite (Ep i j P I) in Hp, Q.
    pose proof (sol_chi _ _ _ _ _ _ _ _ _ _ H' i j P Hp) as Q'. apply Rmult_eq_reg_r with (1 + psi' i j); [|exact Hp]. lra.
  Qed.
  Lemma rho_same i j : point W i j -> (m <= i)%Z -> 1 + psi i j <> 0 -> inner (h_rho F) i j = inner (h_rho F') i j.
  Proof.
    intros P I Hp. pose proof (electron_exists (a i j) (psi i j) Hp) as El.
    destruct (sol_rho _ _ _ _ _ _ _ _ _ _ H i j _ _ P Hp El) as [_ Q]. rewrite (chi_same i j P I Hp) in Q.
    rewrite (Ep i j P I) in Hp, El. rewrite (Ea i j P I) in El.
    destruct (sol_rho _ _ _ _ _ _ _ _ _ _ H' i j _ _ P Hp El) as [_ Q']. rewrite Q, Q'. rewrite (Ep i j P I), (Ea i j P I). reflexivity.
  Qed.
  Lemma gradient_from f h N d i : (3 <= N)%Z -> (m <= N - 3)%Z -> (m + 1 <= i < N \/ m = 0 /\ 0 <= i < N)%Z -> (forall k, (m <= k < N)%Z -> f k = h k) ->
    gradient2 f N d i = gradient2 h N d i.
  Proof.
    intros HN HM I Hf. unfold gradient2. destruct (Z.eqb_spec i 0); [rewrite !Hf by lia; reflexivity|].
    destruct (Z.eqb_spec i (N - 1)); rewrite !Hf by lia; reflexivity.
  Qed.
  Lemma ez_same i j : point W i j -> (m <= c_nxi W - 3)%Z -> (m + 1 <= i \/ m = 0)%Z -> inner (h_ez F) i j = inner (h_ez F') i j.
  Proof.
    intros P HM I. rewrite (sol_ez _ _ _ _ _ _ _ _ _ _ H i j P), (sol_ez _ _ _ _ _ _ _ _ _ _ H' i j P). f_equal.
    unfold d_xi. cbn [with_laser c_nxi W']. change (step_xi W') with (step_xi W). destruct P as [P1 P2].
    destruct D as (_ & _ & Nx & _). apply gradient_from; try lia. intros k K. apply Ep; [split; lia|lia].
  Qed.
  Lemma force_same i j : point W i j -> (m <= i)%Z ->
    inner (h_er F) i j - light * inner (h_bt F) i j = inner (h_er F') i j - light * inner (h_bt F') i j.
  Proof.
    intros P I. rewrite (sol_force _ _ _ _ _ _ _ _ _ _ H i j P), (sol_force _ _ _ _ _ _ _ _ _ _ H' i j P). f_equal.
    unfold d_r. cbn [with_laser c_nr W']. change (step_r W') with (step_r W). destruct P as [P1 P2]. destruct D as (_ & _ & Nx & Nr & _).
    apply gradient2_ext; try lia. intros k K. apply Ep; [split; lia|lia].
  Qed.
  (** The azimuthal field differs by the field of the bunches. *)
  Lemma bt_diff i j : point W i j -> (m <= c_nxi W - 4 \/ m = 0)%Z -> (m + 2 <= i \/ m = 0)%Z -> (forall k, (0 <= k < c_nr W)%Z -> 1 + psi i k <> 0) ->
    light * (inner (h_bt F) i j - inner (h_bt F') i j) * ((IZR j + / 2) * step_r W) = disk W (fun k => E0 / s * (n i k - n' i k)) j.
  Proof.
    intros P HM I Hp. destruct P as [P1 P2].
    assert (El : forall k, (0 <= k < c_nr W)%Z -> 1 + psi i k <> 0 /\ electron (a i k) (psi i k) (fluid_uz (a i k) (psi i k)) (fluid_gamma (a i k) (psi i k))).
    { intros k K. split; [apply Hp; exact K|]. apply electron_exists. apply Hp. exact K. }
    assert (El' : forall k, (0 <= k < c_nr W')%Z -> 1 + psi' i k <> 0 /\ electron (a' i k) (psi' i k) (fluid_uz (a i k) (psi i k)) (fluid_gamma (a i k) (psi i k))).
    { intros k K. cbn in K. destruct (El k K) as [Q1 Q2]. rewrite <- (Ep i k), <- (Ea i k) by (try (split; lia); lia). split; assumption. }
    pose proof (sol_bt _ _ _ _ _ _ _ _ _ _ H i j (fun k => fluid_uz (a i k) (psi i k)) (fun k => fluid_gamma (a i k) (psi i k)) (conj P1 P2) El) as B.
    pose proof (sol_bt _ _ _ _ _ _ _ _ _ _ H' i j (fun k => fluid_uz (a i k) (psi i k)) (fun k => fluid_gamma (a i k) (psi i k)) (conj P1 P2) El') as B'.
    change (step_r W') with (step_r W) in B'.
    replace (light * (inner (h_bt F) i j - inner (h_bt F') i j) * ((IZR j + / 2) * step_r W)) with
      (light * inner (h_bt F) i j * ((IZR j + / 2) * step_r W) - light * inner (h_bt F') i j * ((IZR j + / 2) * step_r W)) by ring.
    rewrite B, B'. unfold disk. change (step_r W') with (step_r W).
    assert (C : forall k, (0 <= k < c_nr W)%Z ->
      d_xi W (inner (h_ez F)) i k + E0 / s * (n i k - inner (h_rho F) i k * (fluid_uz (a i k) (psi i k) / fluid_gamma (a i k) (psi i k))) =
      d_xi W' (inner (h_ez F')) i k + E0 / s * (n' i k - inner (h_rho F') i k * (fluid_uz (a i k) (psi i k) / fluid_gamma (a i k) (psi i k)))
      + E0 / s * (n i k - n' i k)).
    { intros k K. rewrite (rho_same i k) by (try (split; assumption); try lia; apply Hp; exact K).
      assert (Q : d_xi W (inner (h_ez F)) i k = d_xi W' (inner (h_ez F')) i k).
      { unfold d_xi. cbn [with_laser c_nxi W']. change (step_xi W') with (step_xi W). destruct D as (_ & _ & Nx & _).
        destruct (Z.eq_dec m 0) as [Em|Em].
        - apply gradient2_ext; [exact Nx|exact P1|]. intros q Q. apply ez_same; [split; lia|lia|lia].
        - unfold gradient2. destruct (Z.eqb_spec i 0); [lia|]. destruct (Z.eqb_spec i (c_nxi W - 1)); rewrite !ez_same by (try split; lia); reflexivity. }
      rewrite Q. ring. }
    rewrite (C j) by exact P2. rewrite (sum_range_ext j _ (fun k => (d_xi W' (inner (h_ez F')) i k + E0 / s * (n' i k - inner (h_rho F') i k * (fluid_uz (a i k) (psi i k) / fluid_gamma (a i k) (psi i k)))) * ((IZR k + / 2) * step_r W) * step_r W + E0 / s * (n i k - n' i k) * ((IZR k + / 2) * step_r W) * step_r W)).
    2:{ intros k K. rewrite (C k) by lia. ring. }
    rewrite sum_range_plus. unfold Rdiv. ring.
  Qed.
  Lemma bt_same i j : point W i j -> (m <= c_nxi W - 4 \/ m = 0)%Z -> (m + 2 <= i \/ m = 0)%Z -> (forall k, (0 <= k < c_nr W)%Z -> 1 + psi i k <> 0) ->
    (forall k, (0 <= k < c_nr W)%Z -> n i k = n' i k) -> inner (h_bt F) i j = inner (h_bt F') i j.
  Proof.
    intros P HM I Hp En. pose proof (bt_diff i j P HM I Hp) as Q.
    assert (Z0 : disk W (fun k => E0 / s * (n i k - n' i k)) j = 0).
    { unfold disk. destruct P as [_ P2]. rewrite En by exact P2. rewrite sum_range_zero; [unfold Rdiv; ring|]. intros k K. rewrite En by lia. ring. }
    rewrite Z0 in Q. apply Rmult_integral in Q as [Q|Q].
    - apply Rmult_integral in Q as [Q|Q]; [contradiction|lra].
    - exfalso. destruct P as [_ P2]. assert (0 <= IZR j) by (apply IZR_le; lia).
      destruct (steps_pos W) as [_ Sr]; [unfold domain in *; intuition lia|]. nra.
  Qed.
End Two.

(** ** Runs that get the same *)
Lemma domain_2 W : domain 3 W -> domain 2 W.
Proof. unfold domain. intuition lia. Qed.
Lemma fields_same s E0 e light W l' bunches bunches' F a n psi F' a' n' psi' : domain 3 W -> 0 < s -> light <> 0 ->
  solution s E0 e light W bunches F a n psi -> solution s E0 e light (with_laser W l') bunches' F' a' n' psi' ->
  same_laser_from 0 W l' -> (forall i j, point W i j -> n i j = n' i j) -> regular W psi ->
  forall i j, point W i j -> same_fields_at F F' i j.
Proof.
  intros D S L H H' El En Rg i j P.
  assert (Ea : forall i j, point W i j -> (0 <= i)%Z -> a i j = a' i j).
  { intros k l K K0. apply (El a a' (sol_laser _ _ _ _ _ _ _ _ _ _ H) (sol_laser _ _ _ _ _ _ _ _ _ _ H')); assumption. }
  assert (Ep : forall i j, point W i j -> (0 <= i)%Z -> psi i j = psi' i j).
  { intros k l [K1 K2] _. apply (column_lemma s W l' a n psi a' n' psi' 0 l K2 ltac:(lia) (sol_psi _ _ _ _ _ _ _ _ _ _ H) (sol_psi _ _ _ _ _ _ _ _ _ _ H')); [| |exact K1].
    - intros q Q. apply Ea; [split; lia|lia].
    - intros _ q Q. apply En. split; lia. }
  assert (I0 : (0 <= i)%Z) by (destruct P; lia).
  pose proof (chi_same _ _ _ _ _ _ _ _ _ _ _ _ _ _ _ _ 0%Z H H' Ep i j P I0 (Rg i j P)) as Q1.
  pose proof (rho_same _ _ _ _ _ _ _ _ _ _ _ _ _ _ _ _ 0%Z H H' Ep Ea i j P I0 (Rg i j P)) as Q2.
  pose proof (ez_same _ _ _ _ _ _ _ _ _ _ _ _ _ _ _ _ 0%Z D ltac:(lia) H H' Ep i j P ltac:(unfold domain in D; lia) ltac:(lia)) as Q3.
  pose proof (force_same _ _ _ _ _ _ _ _ _ _ _ _ _ _ _ _ 0%Z D H H' Ep i j P I0) as Q4.
  pose proof (bt_same _ _ _ _ _ _ _ _ _ _ _ _ _ _ _ _ 0%Z D L ltac:(lia) H H' Ep Ea i j P ltac:(lia) ltac:(lia)) as Q5.
  assert (Q5' : inner (h_bt F) i j = inner (h_bt F') i j).
  { apply Q5; intros k K; [apply Rg|apply En]; destruct P; split; assumption. }
  repeat split; try assumption. rewrite Q5' in Q4. lra.
Qed.
(** ** Currents *)
Lemma sum_nonzero f : forall n, (0 <= n)%Z -> sum_range n f <> 0 -> exists k, (0 <= k < n)%Z /\ f k <> 0.
Proof.
  apply (range_ind (fun n => sum_range n f <> 0 -> exists k, (0 <= k < n)%Z /\ f k <> 0)).
  - rewrite sum_range_0. lra.
  - intros n N IH H. rewrite sum_range_S in H by exact N. destruct (Req_dec (f n) 0) as [E|E].
    + destruct IH as (k & K & Hk); [lra|]. exists k. split; [lia|exact Hk].
    + exists n. split; [lia|exact E].
Qed.
Lemma disk_nonzero W f : 0 < step_r W -> forall j, (0 <= j)%Z -> f j <> 0 -> exists k, (0 <= k <= j)%Z /\ disk W f k <> 0.
Proof.
  intros Sr. assert (Q : forall m j, (0 <= j < m)%Z -> f j <> 0 -> exists k, (0 <= k <= j)%Z /\ disk W f k <> 0).
  { intros m. destruct (Z_le_dec 0 m) as [M|M]; [|intros; lia]. revert m M.
    apply (range_ind (fun m => forall j, (0 <= j < m)%Z -> f j <> 0 -> exists k, (0 <= k <= j)%Z /\ disk W f k <> 0)); [intros; lia|].
    intros m M IH j J Hj. destruct (Req_dec (disk W f j) 0) as [E|E]; [|exists j; split; [lia|exact E]].
    assert (N : sum_range j (fun k => f k * ((IZR k + / 2) * step_r W) * step_r W) <> 0).
    { intros Z0. unfold disk in E. rewrite Z0 in E. assert (0 <= IZR j) by (apply IZR_le; lia).
      assert (E' : f j * ((IZR j + / 2) * step_r W * step_r W / 2) = 0) by lra.
      apply Rmult_integral in E' as [E'|E']; [contradiction|]. nra. }
    destruct (sum_nonzero _ j ltac:(lia) N) as (k & K & Hk). destruct (IH k) as (q & Q1 & Q2); [lia| |].
    - intros Z0. apply Hk. rewrite Z0. ring.
    - exists q. split; [lia|exact Q2]. }
  intros j J. apply (Q (j + 1)%Z). lia.
Qed.
Lemma disk_uniform W J j : (0 <= j)%Z -> disk W (fun _ => J) j = J * (((IZR j + / 2) * step_r W) ^ 2 / 2 + step_r W ^ 2 / 8).
Proof.
  intros H. assert (Q : forall j, (0 <= j)%Z -> sum_range j (fun k => J * ((IZR k + / 2) * step_r W) * step_r W) = J * step_r W ^ 2 * (IZR j ^ 2 / 2)).
  { apply range_ind.
    - rewrite sum_range_0. field.
    - intros n N IH. rewrite sum_range_S, IH by exact N. rewrite plus_IZR. field. }
  unfold disk. rewrite Q by exact H. field.
Qed.
