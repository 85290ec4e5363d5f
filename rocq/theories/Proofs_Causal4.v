(** Updates of wakefields that agree ahead of a position, and whole runs. *)
From Coq Require Import QArith Reals Qreals ZArith String List Bool Lia Lra.
From Coquelicot Require Import Coquelicot.
From Verif Require Model_Laser Spec_Laser Properties_Laser Spec_QS.
From Verif Require Import Model_Push Model_Interp Spec_Interp Model_Deposit Model_QS Model_Tracker Spec_Tracker Proofs_Tracker Model_Run Model_RZ
  Spec_RZ Proofs_RZ2 Model_Bunch Spec_Bunch Model_Sim Spec_Sim Spec_Causal Proofs_Causal Proofs_Causal2 Proofs_Causal3.
Import ListNotations.
Open Scope R_scope.

Lemma near_iff z x : proper_box x -> exists k, forall i, near z x i <-> (k <= i)%Z.
Proof.
  intros H. pose proof (cell_pos x H) as W. set (t := (z - gz0 (box_grid x)) / gdz (box_grid x) - 1).
  exists (- Int_part (- t))%Z. intros i. destruct (base_Int_part (- t)) as [B1 B2].
  assert (E : near z x i <-> t <= IZR i).
  { unfold near, node_z, t. rewrite plus_IZR.
    assert (Q : (z - gz0 (box_grid x)) = (z - gz0 (box_grid x)) / gdz (box_grid x) * gdz (box_grid x)) by (field; lra).
    set (u := (z - gz0 (box_grid x)) / gdz (box_grid x)) in *. split; intros A.
    - assert (u <= IZR i + 1); [|lra]. apply Rmult_le_reg_r with (gdz (box_grid x)); [exact W|]. lra.
    - assert (u * gdz (box_grid x) <= (IZR i + 1) * gdz (box_grid x)); [apply Rmult_le_compat_r; lra|lra]. }
  rewrite E. split; intros A.
  - apply Z.le_ngt. intros A'. apply Z.lt_le_pred in A'. apply IZR_le in A'. unfold Z.pred in A'. rewrite plus_IZR, opp_IZR in A'. lra.
  - apply IZR_le in A. rewrite opp_IZR in A. lra.
Qed.
Lemma near_shift z x i : near (z + 5 * gdz (box_grid x)) x i <-> near z x (i - 5).
Proof. unfold near, node_z. rewrite !plus_IZR, minus_IZR. split; lra. Qed.

(** ** The pulse *)
Section Laser.
  Variable env : R -> R -> C.
  Variable to_main : Model_Laser.sparams -> nat * nat -> Model_Laser.carr2 -> Model_Laser.carr2.
  Variable to_sub : Model_Laser.sparams -> nat * nat -> (nat -> nat -> R) -> (nat -> nat -> R).
  Variables e_ch m_e eps_0 : R.
  Lemma evolve_on_grid x l0 pol sp n main a old chi np p' : Model_Laser.sp_nz sp = Z.to_nat (x_nxi x) -> Model_Laser.sp_nr sp = Z.to_nat (x_nr x) ->
    Model_Laser.evolve to_main to_sub e_ch m_e eps_0 (on_grid x l0 pol sp n main a old) chi np = (Model_Laser.Fine, p') ->
    exists b b_old, Model_Laser.evolve_envelope (negb (Nat.eqb n 0))
      (Model_Laser.eargs_of sp (Model_Laser.wave_number l0) (Model_Laser.plasma_wave_number np e_ch m_e eps_0)) chi (Model_Laser.sp_nt sp) (a, old) = Some (b, b_old) /\
      p' = on_grid x l0 pol sp (S n) main b b_old.
  Proof.
    intros E1 E2. unfold Model_Laser.evolve, on_grid.
    cbn [Model_Laser.p_params Model_Laser.p_sub Model_Laser.p_env Model_Laser.p_a_env Model_Laser.p_main Model_Laser.p_n_steps Model_Laser.p_l0 Model_Laser.p_pol Model_Laser.s_rows Model_Laser.s_cols Model_Laser.s_val].
    destruct (andb _ _); [|discriminate].
    destruct (Model_Laser.evolve_envelope _ _ chi _ _) as [[b b_old]|] eqn:E; [|discriminate].
    intros Q. injection Q as <-. exists b, b_old. split; [first [exact E|reflexivity]|]. reflexivity.
  Qed.
  Lemma laser_step z x F F' np l l' l1 l1' : proper_box x -> data_rel z x F F' -> laser_rel z x l l' ->
    evolve_laser to_main to_sub e_ch m_e eps_0 x (h_chi F) np l = Some l1 ->
    evolve_laser to_main to_sub e_ch m_e eps_0 x (h_chi F') np l' = Some l1' -> laser_rel z x l1 l1'.
  Proof.
    intros Hp (_ & _ & D). unfold laser_rel, evolve_laser. destruct (x_evolution x).
    2:{ intros ->. destruct l'; congruence. }
    destruct l as [p|], l' as [p'|]; try tauto.
    2:{ intros _ E E'. injection E as <-. injection E' as <-. exact I. }
    intros (l0 & pol & sp & n & main & a & old & a' & old' & -> & -> & Ez & Er & Ra & Ro).
    destruct (Model_Laser.evolve _ _ _ _ _ (on_grid x l0 pol sp n main a old) _ np) as [[] q] eqn:E; try discriminate.
    destruct (Model_Laser.evolve _ _ _ _ _ (on_grid x l0 pol sp n main a' old') _ np) as [[] q'] eqn:E'; try discriminate.
    intros Q Q'. injection Q as <-. injection Q' as <-.
    apply evolve_on_grid in E as (b & b_old & E & ->); [|exact Ez|exact Er].
    apply evolve_on_grid in E' as (b' & b_old' & E' & ->); [|exact Ez|exact Er].
    exists l0, pol, sp, (S n), main, b, b_old, b', b_old'. split; [reflexivity|]. split; [reflexivity|]. split; [exact Ez|]. split; [exact Er|].
    destruct (near_iff z x Hp) as (k & Hk). destruct Hp as (_ & _ & Nx & Nr).
    set (e := Model_Laser.eargs_of sp (Model_Laser.wave_number l0) (Model_Laser.plasma_wave_number np e_ch m_e eps_0)) in *.
    assert (Sm : forall u v, rows_rel z x u v <-> Spec_Laser.same_from e (Z.to_nat (Z.max 0 k)) u v).
    { intros u v. unfold rows_rel, Spec_Laser.same_from. cbn [e Model_Laser.eargs_of Model_Laser.e_nz Model_Laser.e_nr]. rewrite Ez, Er.
      split; intros Q i w Hi Hw; [apply Q; [lia|exact Hw|apply Hk; lia]|]. intros Hn. apply Hk in Hn. apply Q; [lia|exact Hw]. }
    rewrite !Sm in *.
    eapply (Properties_Laser.C69_causality _ e _ _ _ _); [| | |exact Ra|exact Ro|exact E|exact E'].
    - cbn [e Model_Laser.eargs_of Model_Laser.e_nr]. lia.
    - cbn [e Model_Laser.eargs_of Model_Laser.e_nz]. lia.
    - cbn [e Model_Laser.eargs_of Model_Laser.e_nz Model_Laser.e_nr]. intros i w Hi Hw.
      apply (D (Z.of_nat i) (Z.of_nat w)); [split; lia|]. apply Hk. lia.
  Qed.
  Lemma laser_start z o l1 : unused (o_box o) o -> start_laser env to_main (o_box o) (o_dt o) (o_laser o) = Some l1 -> laser_rel z (o_box o) l1 l1.
  Proof.
    unfold unused, start_laser, laser_rel. set (x := o_box o). destruct (x_evolution x); [|reflexivity].
    destruct (o_laser o) as [p|]; [|intros _ E; injection E as <-; exact I].
    intros ((l0 & pol & ->) & H). destruct (H eq_refl) as [L1 L2]. unfold Model_Laser.set_envelope_solver_params, set_args.
    rewrite L1, L2. destruct (Nat.ltb _ 1); [discriminate|]. cbn [Model_Laser.params_of Model_Laser.a_subgrid_nz Model_Laser.a_subgrid_nr].
    cbn -[Z.to_nat Nat.add Nat.sub]. intros E. injection E as <-.
    do 9 eexists. split; [reflexivity|]. split; [reflexivity|]. cbn [Model_Laser.sp_nz Model_Laser.sp_nr].
    split; [reflexivity|]. split; [reflexivity|]. split; intros i w _ _ _; reflexivity.
  Qed.
End Laser.
Lemma seen_rel z x l l' v v' k : proper_box x -> (forall i, near z x i <-> (k <= i)%Z) -> laser_rel z x l l' -> seen l = Some v -> seen l' = Some v' -> light_rel k x v v'.
Proof.
  intros Hp Hk. unfold laser_rel. destruct (x_evolution x).
  - destruct l as [p|], l' as [p'|]; try tauto.
    + intros (l0 & pol & sp & n & main & a & old & a' & old' & -> & -> & Ez & Er & Ra & Ro). cbn [seen on_grid Model_Laser.p_a_env Model_Laser.p_pol].
      intros E E'. injection E as <-. injection E' as <-. cbn [light_rel]. split; [reflexivity|]. split; [reflexivity|].
      intros i j [I J] Hi. unfold value. cbn [Model_Laser.s_val]. apply Ra; [lia|lia|]. rewrite Z2Nat.id by lia. apply Hk, Hi.
    + intros _ E E'. injection E as <-. injection E' as <-. exact I.
  - intros ->. intros E E'. rewrite E in E'. injection E' as <-. destruct v as [[a p]|]; cbn; auto.
Qed.

(** ** Updates *)
Section Updates.
  Variable to_main : Model_Laser.sparams -> nat * nat -> Model_Laser.carr2 -> Model_Laser.carr2.
  Variable to_sub : Model_Laser.sparams -> nat * nat -> (nat -> nat -> R) -> (nat -> nat -> R).
  Variables e_ch m_e eps_0 light : R.
  Variables (argsort : list R -> list nat) (skin_depth wave_breaking : R -> R).
  Definition domain_of (pl : plasma) (x : box) : Prop :=
    match pl with ColdFluid p_shape _ => fluid_domain skin_depth p_shape x | Baxevanis q => qs_domain skin_depth q x end.
  Notation solve := (solve_of e_ch light argsort skin_depth wave_breaking).
  Lemma domain_proper pl x : domain_of pl x -> proper_box x.
  Proof. destruct pl; intros (H1 & H2 & H3 & H4 & _); split; auto. Qed.
  Lemma solve_rel pl x k y n z l l' bs bs' F F' : domain_of pl x -> x_density x z = Some n ->
    (forall i, (k <= i)%Z -> y <= node_z (box_grid x) (i + 1)) -> light_rel k x l l' -> List.Forall2 (front y) bs bs' ->
    solve pl x n z l bs = Returned (Ok F) -> solve pl x n z l' bs' = Returned (Ok F') ->
    sized x F /\ sized x F' /\ from_slice (k + 5) x F F'.
  Proof.
    intros D Hn Hk HL HB E E'. destruct pl as [sh beam|q]; cbn [domain_of solve_of] in *.
    - pose proof D as (_ & _ & _ & _ & _ & Dn). destruct (Dn z) as (n' & En & Pn & Sn). assert (n' = n) as -> by congruence.
      eapply fluid_rel; eassumption.
    - pose proof D as (_ & _ & _ & _ & _ & _ & _ & _ & Dn). destruct (Dn z) as (n' & En & Sn). assert (n' = n) as -> by congruence.
      assert (Sz : forall l bs F, qs_solve argsort skin_depth wave_breaking e_ch light q x n z l bs = Returned (Ok F) -> sized x F).
      { intros u v G Eg. assert (Ef : match u with Some (a, _) => Model_RZ.fits x a | None => true end = true).
        { unfold qs_solve in Eg. destruct (match u with Some (a, _) => Model_RZ.fits x a | None => true end); [reflexivity|discriminate]. }
        destruct (qs_ok argsort skin_depth wave_breaking e_ch light q x n z u v D Sn Ef) as (G' & Eg' & Sg). congruence. }
      split; [eapply Sz; exact E|]. split; [eapply Sz; exact E'|]. eapply qs_rel; eassumption.
  Qed.
  Lemma field_rel env pl y o o' bs bs' o1 o1' : domain_of pl (o_box o) -> wrel y o o' -> List.Forall2 (front y) bs bs' ->
    update env to_main to_sub e_ch m_e eps_0 (solve pl) o bs = Some o1 ->
    update env to_main to_sub e_ch m_e eps_0 (solve pl) o' bs' = Some o1' ->
    wrel (y + 5 * gdz (box_grid (o_box o))) o1 o1' /\ o_box o1 = o_box o.
  Proof.
    intros D W HB E E'. pose proof W as [W1 W2 W3 W4 W5 Hp St]. unfold update in E, E'.
    assert (G : exists u u', (if o_init o then evolve_properties to_main to_sub e_ch m_e eps_0 o else initialize_properties env to_main o) = Some u /\
      (if o_init o' then evolve_properties to_main to_sub e_ch m_e eps_0 o' else initialize_properties env to_main o') = Some u' /\
      o_box u = o_box o /\ o_box u' = o_box o /\ o_dt u = o_dt u' /\ o_even u = o_even u' /\ o_init u = true /\ o_init u' = true /\ o_t u = o_t u' /\
      laser_rel y (o_box o) (o_laser u) (o_laser u')).
    { destruct St as [(I1 & <- & Un)|(I1 & I2 & Dr & Lr)].
      - rewrite I1 in *. unfold initialize_properties in *.
        destruct (start_laser env to_main (o_box o) (o_dt o) (o_laser o)) as [l1|] eqn:El; [|discriminate].
        do 2 eexists. split; [reflexivity|]. split; [reflexivity|]. cbn [o_box o_dt o_even o_init o_t o_laser].
        repeat (split; [reflexivity|]). eapply laser_start; eassumption.
      - rewrite I1, I2 in *. unfold evolve_properties in *. rewrite <- W1 in *.
        destruct (evolve_laser _ _ _ _ _ _ _ _ (o_laser o)) as [l1|] eqn:El; [|discriminate].
        destruct (evolve_laser _ _ _ _ _ _ _ _ (o_laser o')) as [l1'|] eqn:El'; [|discriminate].
        rewrite <- W5 in El'. do 2 eexists. split; [reflexivity|]. split; [reflexivity|]. cbn [o_box o_dt o_even o_init o_t o_laser].
        split; [reflexivity|]. split; [reflexivity|]. split; [exact W2|]. split; [exact W3|]. split; [exact I1|]. split; [exact I2|].
        split; [rewrite W2, W4; reflexivity|]. eapply laser_step; eassumption. }
    destruct G as (u & u' & Eu & Eu' & B1 & B2 & T1 & T2 & T3 & T4 & T5 & Lr). rewrite Eu in E. rewrite Eu' in E'. clear Eu Eu' St W.
    unfold calculate_field in E, E'. rewrite B1 in E. rewrite B2 in E'. rewrite <- T5 in E'.
    destruct (x_density (o_box o) (o_t u * c_SI)) as [n|] eqn:En; [|discriminate].
    destruct (seen (o_laser u)) as [v|] eqn:Ev; [|discriminate]. destruct (seen (o_laser u')) as [v'|] eqn:Ev'; [|discriminate].
    destruct (solve pl (o_box o) n (o_t u * c_SI) v bs) as [[F|]|] eqn:Es; try discriminate.
    destruct (solve pl (o_box o) n (o_t u * c_SI) v' bs') as [[F'|]|] eqn:Es'; try discriminate.
    injection E as <-. injection E' as <-. cbn [o_box]. split; [|reflexivity].
    destruct (near_iff y (o_box o) Hp) as (k & Hk).
    destruct (solve_rel pl (o_box o) k y n (o_t u * c_SI) v v' bs bs' F F' D En) as (S1 & S2 & Fs); try assumption.
    { intros i Hi. apply Hk, Hi. }
    { eapply seen_rel; eassumption. }
    pose proof (cell_pos _ Hp) as Wp.
    constructor; cbn [o_box o_dt o_even o_t o_np o_init o_arrays o_laser]; auto. right. split; [exact T3|]. split; [exact T4|]. split.
    - split; [exact S1|]. split; [exact S2|]. intros i j Hi Hn. apply Fs; [exact Hi|]. apply near_shift, Hk in Hn. lia.
    - eapply laser_mono; [|exact Lr]. lra.
  Qed.

  (** ** Lists of fields *)
  Definition frd (z : R) (f f' : efield) : Prop :=
    frel z f f' /\ match f with Wake _ pl o => domain_of pl (o_box o) | Analytic _ => True end.
  Lemma frd_mono z y f f' : z <= y -> frd z f f' -> frd y f f'.
  Proof.
    intros H [Hf Hd]. split; [|exact Hd]. destruct f as [env pl o|c], f' as [env' pl' o'|c']; cbn [frel] in *; try assumption; try contradiction.
    destruct Hf as (E1 & E2 & W). split; [exact E1|]. split; [exact E2|]. eapply wrel_mono; eassumption.
  Qed.
  Lemma cells_nonneg z fields fields' : List.Forall2 (frd z) fields fields' -> forall d, In d (cell_lengths fields) -> 0 <= d.
  Proof.
    intros H. induction H as [|f f' l l' [_ Hd] H IH]; intros d Hi; [destruct Hi|]. destruct f as [env pl o|c]; cbn in Hi.
    - destruct Hi as [<-|Hi]; [|apply IH, Hi]. apply Rlt_le. apply (cell_pos (o_box o)), (domain_proper pl), Hd.
    - apply IH, Hi.
  Qed.
  Lemma update_rel y bs bs' : List.Forall2 (front y) bs bs' -> forall fields fields', List.Forall2 (frd y) fields fields' -> forall j,
    if_both (fun l l' => cell_lengths l = cell_lengths fields /\ List.Forall2 (frd (y + 5 * nth j (cell_lengths fields) 0)) l l')
      (update_wake to_main to_sub e_ch m_e eps_0 light argsort skin_depth wave_breaking j fields bs)
      (update_wake to_main to_sub e_ch m_e eps_0 light argsort skin_depth wave_breaking j fields' bs').
  Proof.
    intros HB fields fields' H. induction H as [|f f' l l' Hf H IH]; intros j; [cbn; split; [reflexivity|constructor]|].
    pose proof (cells_nonneg y (f :: l) (f' :: l') (List.Forall2_cons _ _ Hf H)) as Hc.
    assert (Hn : forall k, 0 <= nth k (cell_lengths (f :: l)) 0).
    { intros k. destruct (nth_in_or_default k (cell_lengths (f :: l)) 0) as [G|G]; [apply Hc, G|lra]. }
    destruct f as [env pl o|c], f' as [env' pl' o'|c']; try (destruct Hf as [[] _]; fail).
    - destruct Hf as [(<- & <- & W) D]. destruct j as [|j]; cbn [update_wake].
      + destruct (update env _ _ _ _ _ _ o bs) as [o1|] eqn:E; [|exact I].
        destruct (update env _ _ _ _ _ _ o' bs') as [o1'|] eqn:E'; [|exact I]. cbn [if_both].
        destruct (field_rel env pl y o o' bs bs' o1 o1' D W HB E E') as [W1 B1].
        split; [cbn; rewrite B1; reflexivity|]. specialize (Hn 0%nat). cbn [cell_lengths flat_map app nth] in *. constructor.
        * split; [split; [reflexivity|split; [reflexivity|exact W1]]|]. rewrite B1. exact D.
        * eapply forall2_impl; [|exact H]. intros a b. apply frd_mono. lra.
      + specialize (IH j). specialize (Hn (S j)). cbn [cell_lengths flat_map app nth] in Hn |- *.
        destruct (update_wake _ _ _ _ _ _ _ _ _ j l bs) as [r|]; [|exact I].
        destruct (update_wake _ _ _ _ _ _ _ _ _ j l' bs') as [r'|]; [|exact I]. cbn [if_both] in *. destruct IH as [C1 C2].
        split; [cbn; f_equal; exact C1|]. constructor; [|exact C2].
        eapply frd_mono; [|split; [split; [reflexivity|split; [reflexivity|exact W]]|exact D]]. unfold cell_lengths in Hn. lra.
    - destruct Hf as [Hf _]. cbn [frel] in Hf. subst c'. cbn [update_wake]. specialize (IH j).
      destruct (update_wake _ _ _ _ _ _ _ _ _ j l bs) as [r|]; [|exact I].
      destruct (update_wake _ _ _ _ _ _ _ _ _ j l' bs') as [r'|]; [|exact I]. cbn [if_both] in *. destruct IH as [C1 C2].
      split; [exact C1|]. constructor; [|exact C2]. split; [reflexivity|exact I].
  Qed.

  (** ** Runs *)
  Definition rb (z : R) : option tracked -> option tracked -> Prop := if_both (same_ahead z).
  Definition rfs (cells : list R) (z : R) : option (list efield) -> option (list efield) -> Prop :=
    if_both (fun l l' => cell_lengths l = cells /\ List.Forall2 (frd z) l l').
  Lemma charges_front z hb hb' : same_ahead z hb hb' -> front z (charges_of hb) (charges_of hb').
  Proof.
    intros (S1 & S2 & At & Hs).
    assert (G : forall hb, charges_of hb = map (fun pw => (pos_of (fst pw), snd pw * q_species (snd hb))) (combine (parts hb) (weights hb))).
    { clear. intros hb. unfold charges_of, get_q. fold (parts hb). fold (weights hb).
      generalize (weights hb). induction (parts hb) as [|p l IH]; intros [|w ws]; cbn; try reflexivity. rewrite IH. reflexivity. }
    unfold front. rewrite (G hb), (G hb'), !filter_map_comm.
    assert (Q : forall pw : part * R, at_least z (pos_of (fst pw), snd pw * q_species (snd hb)) = (if Rle_dec z (xi (fst pw)) then true else false)) by reflexivity.
    destruct At as (_ & _ & _ & _ & _ & _ & _ & Eq & _). rewrite <- Eq. rewrite !(filter_ext _ _ Q). apply f_equal. exact Hs.
  Qed.
  Lemma all_some_rel y l l' : List.Forall2 (rb y) l l' -> if_both (fun u v => List.Forall2 (front y) (map charges_of u) (map charges_of v)) (all_some l) (all_some l').
  Proof.
    induction 1 as [|a b l l' Hab H IH]; [constructor|]. destruct a as [a|], b as [b|]; cbn; auto.
    - destruct (all_some l); [|exact I]. destruct (all_some l'); [|exact I]. cbn in *. constructor; [apply charges_front, Hab|exact IH].
    - destruct (all_some l); exact I.
  Qed.
  Lemma run_rel auto_dt c fuel x0 bunches bunches' fields fields' : ~ In None (c_dtb c) ->
    List.Forall2 (same_ahead x0) bunches bunches' -> List.Forall2 (frd x0) fields fields' ->
    orel (option tracked) (option (list efield)) rb (rfs (cell_lengths fields)) (cell_lengths fields) (length bunches) x0
      (do_tracking _ _ (sim_evolve "boris") (sim_update to_main to_sub e_ch m_e eps_0 light argsort skin_depth wave_breaking) auto_dt sim_copy exact
         fuel c (map Some bunches) (Some fields))
      (do_tracking _ _ (sim_evolve "boris") (sim_update to_main to_sub e_ch m_e eps_0 light argsort skin_depth wave_breaking) auto_dt sim_copy exact
         fuel c (map Some bunches') (Some fields')).
  Proof.
    intros Hc Hb Hf. apply run_moving; auto.
    - eapply cells_nonneg; exact Hf.
    - intros x y [a|] [b|]; cbn; auto. apply same_ahead_mono.
    - intros x [f|] [f'|] [a|] [b|] t dt Hdt; cbn; auto; try (intros _ _; destruct (push_bunch _ _ _ _ _); exact I).
      intros [_ Fr] Hab. destruct (push_bunch "boris" f a _ _) as [a1|] eqn:E; [|exact I]. destruct (push_bunch "boris" f' b _ _) as [b1|] eqn:E'; [|exact I].
      cbn. eapply (evolve_rel x (Q2R t) (Q2R dt) f f'); [|eapply forall2_impl; [|exact Fr]; intros u v [Q _]; exact Q|exact Hab|exact E|exact E'].
      replace 0 with (Q2R 0) by lra. apply Qle_Rle, Hdt.
    - intros x j [f|] [f'|] l l'; cbn; auto.
      + intros [C1 Fr] HL. pose proof (all_some_rel x l l' HL) as A. destruct (all_some l) as [u|]; [|exact I].
        destruct (all_some l') as [v|]; [|destruct (update_wake _ _ _ _ _ _ _ _ _ j f _); exact I]. cbn in A.
        pose proof (update_rel x _ _ A f f' Fr j) as U. rewrite C1 in U. exact U.
      + intros _ _. destruct (all_some l); [destruct (update_wake _ _ _ _ _ _ _ _ _ j f _)|]; exact I.
    - intros x [a|] [b|]; cbn; auto. apply copy_rel.
    - rewrite map_length. reflexivity.
    - cbn. split; [reflexivity|exact Hf].
    - clear - Hb. induction Hb; constructor; auto.
  Qed.
End Updates.

(** ** The whole run *)
Lemma adjust_usable sd T fields : List.Forall (usable sd) fields -> List.Forall (usable sd) (adjust_wakes T fields) /\ cell_lengths (adjust_wakes T fields) = cell_lengths fields.
Proof.
  induction 1 as [|f l Hf H [IH1 IH2]]; [split; [constructor|reflexivity]|]. destruct f as [env pl o|c]; cbn [adjust_wakes].
  - assert (B : o_box (Model_RZ.adjust_dt T o) = o_box o /\ o_init (Model_RZ.adjust_dt T o) = o_init o /\ o_laser (Model_RZ.adjust_dt T o) = o_laser o)
      by (unfold Model_RZ.adjust_dt; destruct (o_even o); auto).
    destruct B as (B1 & B2 & B3). split.
    + constructor; [|exact IH1]. unfold usable in *. rewrite B1, B2, B3. exact Hf.
    + cbn. rewrite B1. f_equal. exact IH2.
  - split; [constructor; [exact I|exact IH1]|exact IH2].
Qed.
Lemma usable_frd sd z f : usable sd f -> frd sd z f f.
Proof.
  destruct f as [env pl o|c]; [|intros _; split; [reflexivity|exact I]]. intros (H1 & H2 & H3).
  assert (D : domain_of sd pl (o_box o)) by exact H2. split; [|exact D]. split; [reflexivity|]. split; [reflexivity|].
  constructor; try reflexivity; [eapply domain_proper; exact D|]. left. split; [exact H1|]. split; [reflexivity|]. exact H3.
Qed.
Lemma frd_same sd z f f' : frd sd z f f' -> same_field z f f'.
Proof.
  intros [Hf Hd]. destruct f as [env pl o|c], f' as [env' pl' o'|c']; cbn [frel same_field] in *; try assumption; try contradiction.
  destruct Hf as (-> & -> & [W1 W2 W3 W4 W5 Hp St]). repeat (split; [first [reflexivity|assumption]|]).
  destruct St as [(_ & <- & _)|(_ & _ & (_ & _ & D) & L)].
  { split; [intros i j _ _; auto|]. destruct (o_laser o); cbn; auto. }
  assert (N : forall i, z <= node_z (box_grid (o_box o)) i -> near z (o_box o) i).
  { intros i Hi. unfold near. pose proof (node_mono (o_box o) i (i + 1) Hp ltac:(lia)). lra. }
  split; [intros i j Hi Hn; apply D; auto|]. unfold laser_rel in L. destruct (x_evolution (o_box o)).
  - destruct (o_laser o) as [p|], (o_laser o') as [p'|]; try tauto.
    destruct L as (l0 & pol & sp & n & main & a & old & a' & old' & -> & -> & Ez & Er & Ra & _). right. split; [reflexivity|].
    do 2 eexists. do 4 (split; [reflexivity|]). intros i j [I1 J1] Hn. unfold value. cbn [Model_Laser.s_val].
    apply Ra; [lia|lia|]. rewrite Z2Nat.id by lia. apply N, Hn.
  - rewrite L. destruct (o_laser o') as [p'|]; cbn; auto.
Qed.
Lemma pushed {B} i t d y (l : list (event B)) : In (EPush i t d y) l -> In (t, d) (Spec_Tracker.pushes i l).
Proof.
  induction l as [|e l IH]; [intros []|]. intros [->|H].
  - cbn. rewrite Nat.eqb_refl. left. reflexivity.
  - destruct e as [k u v w| |]; cbn; auto. destruct (Nat.eqb k i); [right|]; auto.
Qed.
