From Coq Require Import Reals ZArith String List Bool Lia Lra FunctionalExtensionality.
From Coquelicot Require Import Coquelicot.
From Verif Require Model_Laser Spec_Laser Proofs_Laser Properties_Laser Properties_QS Properties_Fluid Spec_QS Spec_Fluid.
From Verif Require Import Model_Push Model_Interp Spec_Interp Model_Deposit Spec_Deposit Model_QS Model_Fluid Model_RZ Spec_RZ Proofs_RZ.
Import ListNotations.
Open Scope R_scope.

(** ** Only the values on the grid matter *)
Lemma inner_part_ext n m v v' : (forall i j, (0 <= i < n)%Z -> (0 <= j < m)%Z -> v i j = v' i j) -> inner_part n m v = inner_part n m v'.
Proof.
  intros H. unfold inner_part. f_equal. extensionality i. extensionality j.
  destruct (Z.leb_spec 2 i); [|reflexivity]. destruct (Z.ltb_spec i (n + 2)); [|reflexivity].
  destruct (Z.leb_spec 2 j); [|reflexivity]. destruct (Z.ltb_spec j (m + 2)); [|reflexivity]. cbn. apply H; lia.
Qed.
Lemma radial_gradient_ext a b d i j n : cols a = n -> cols b = n -> (forall k, (0 <= k < n)%Z -> cell a i k = cell b i k) ->
  (0 <= j < n)%Z -> radial_gradient a d i j = radial_gradient b d i j.
Proof.
  intros Ca Cb H J. unfold radial_gradient, gradient1. rewrite Ca, Cb.
  assert (M : forall k, (0 <= k < 2 * n)%Z -> (if Z.ltb k n then cell a i (n - 1 - k)%Z else cell a i (k - n)%Z) = (if Z.ltb k n then cell b i (n - 1 - k)%Z else cell b i (k - n)%Z)).
  { intros k K. destruct (Z.ltb_spec k n); apply H; lia. }
  destruct (Z.eqb_spec (j + n) 0); [lia|]. destruct (Z.eqb_spec (j + n) (2 * n - 1)).
  - rewrite !M by lia. reflexivity.
  - rewrite !M by lia. reflexivity.
Qed.
Lemma wakefields_laser_ext argsort sd wb e c A a b bunches : cols a = a_nr A -> cols b = a_nr A ->
  (forall i j, (0 <= i < a_nxi A)%Z -> (0 <= j < a_nr A)%Z -> cell a i j = cell b i j) ->
  calculate_wakefields argsort sd wb e c A a bunches = calculate_wakefields argsort sd wb e c A b bunches.
Proof.
  intros Ca Cb H. unfold calculate_wakefields. f_equal. extensionality bt.
  assert (E : the_setup sd A a bt = the_setup sd A b bt).
  { unfold the_setup. f_equal; apply inner_part_ext; [exact H|]. intros i j I J. apply (radial_gradient_ext _ _ _ _ _ (a_nr A)); auto. }
  rewrite E. reflexivity.
Qed.

Lemma fits_sizes x a : fits x a = true <-> Model_Laser.s_rows a = Z.to_nat (x_nxi x) /\ Model_Laser.s_cols a = Z.to_nat (x_nr x).
Proof. unfold fits. rewrite andb_true_iff, !Nat.eqb_eq. reflexivity. Qed.
Lemma fits_same x a a' : Model_Laser.s_rows a' = Model_Laser.s_rows a -> Model_Laser.s_cols a' = Model_Laser.s_cols a -> fits x a' = fits x a.
Proof. intros A B. unfold fits. rewrite A, B. reflexivity. Qed.

Lemma qs_light_ext argsort sd wb e c q x n z l l' bunches :
  match l with Some (a, _) => fits x a | None => true end = match l' with Some (a, _) => fits x a | None => true end ->
  (forall i j, (0 <= i < x_nxi x)%Z -> (0 <= j < x_nr x)%Z -> cell (a_env_2 x l) i j = cell (a_env_2 x l') i j) ->
  qs_solve argsort sd wb e c q x n z l bunches = qs_solve argsort sd wb e c q x n z l' bunches.
Proof.
  intros Hf H. unfold qs_solve. rewrite Hf. destruct (match l' with Some (a, _) => fits x a | None => true end); [|reflexivity].
  apply wakefields_laser_ext; [reflexivity|reflexivity|]. exact H.
Qed.
Lemma qs_linear argsort sd wb e c q x n z a a' p bunches : p <> "linear"%string -> modulus (sqrt 2) x a a' ->
  qs_solve argsort sd wb e c q x n z (Some (a', "linear"%string)) bunches = qs_solve argsort sd wb e c q x n z (Some (a, p)) bunches.
Proof.
  intros Np (Hr & Hc & H). apply qs_light_ext; [apply fits_same; assumption|]. intros i j I J. cbn [a_env_2 cell].
  apply String.eqb_neq in Np. rewrite Np. cbn [String.eqb Ascii.eqb Bool.eqb]. unfold value. rewrite H by lia.
  rewrite Rpow_mult_distr. replace (sqrt 2 ^ 2) with 2 by (cbn [pow]; rewrite Rmult_1_r, sqrt_sqrt; lra). field.
Qed.
Lemma qs_phase argsort sd wb e c q x n z a a' p bunches : modulus 1 x a a' ->
  qs_solve argsort sd wb e c q x n z (Some (a', p)) bunches = qs_solve argsort sd wb e c q x n z (Some (a, p)) bunches.
Proof.
  intros (Hr & Hc & H). apply qs_light_ext; [apply fits_same; assumption|]. intros i j I J. cbn [a_env_2 cell].
  unfold value. rewrite H by lia. rewrite Rmult_1_l. reflexivity.
Qed.
Lemma qs_dark argsort sd wb e c q x n z a p bunches : fits x a = true ->
  (forall i j, (i < Z.to_nat (x_nxi x))%nat -> (j < Z.to_nat (x_nr x))%nat -> Model_Laser.s_val a i j = RtoC 0) ->
  qs_solve argsort sd wb e c q x n z (Some (a, p)) bunches = qs_solve argsort sd wb e c q x n z None bunches.
Proof.
  intros Hf H. apply qs_light_ext; [exact Hf|]. intros i j I J. cbn [a_env_2 cell].
  unfold value. rewrite H by lia. rewrite Cmod_0. destruct (String.eqb p "linear"); [field|ring].
Qed.

(** ** Success *)
Lemma qs_valid sd q x n z : qs_domain sd q x -> 0 < sd (n / 1000000) -> Spec_QS.valid sd (qs_args q x n z).
Proof.
  intros (H1 & H2 & H3 & H4 & H5 & H6 & H7 & H8 & _) Hn. unfold Spec_QS.valid; cbn [qs_args a_np a_rmax a_ximin a_ximax a_nr a_nxi a_ppc a_rplasma a_shape a_pusher a_rfld a_xifld].
  assert (Hnr : 3 <= IZR (x_nr x)) by (apply IZR_le; assumption). assert (Hnx : 3 <= IZR (x_nxi x)) by (apply IZR_le; assumption).
  repeat split; try assumption.
  - apply map_ext. intros j. unfold linspace, Spec_QS.ring_width; cbn [a_rmax a_nr qs_args]. rewrite <- INR_IZR_INZ. field. lra.
Qed.
Lemma qs_ok argsort sd wb e c q x n z l bunches : qs_domain sd q x -> 0 < sd (n / 1000000) ->
  match l with Some (a, _) => fits x a | None => true end = true ->
  exists F, qs_solve argsort sd wb e c q x n z l bunches = Returned (Ok F) /\ sized x F.
Proof.
  intros D Hn Hf. unfold qs_solve. rewrite Hf.
  destruct (Properties_QS.C80_total argsort sd wb e c (qs_args q x n z) (a_env_2 x l) bunches (qs_valid sd q x n z D Hn)) as (F & E & A1 & A2 & A3 & A4 & A5).
  exists F. split; [exact E|]. unfold sized. repeat (apply List.Forall_cons; [assumption|]). constructor.
Qed.
Lemma fluid_ok sd wb e c sh beam x n z l bunches : fluid_domain sd sh x -> 0 < n -> 0 < sd (n / 1000000) -> c <> 0 ->
  match l with Some (a, _) => fits x a | None => true end = true ->
  exists F, fluid_solve sd wb e c sh beam x n z l bunches = Returned (Ok F) /\ sized x F.
Proof.
  intros (H1 & H2 & H3 & H4 & H5 & _) Hn Hs Hc Hf. unfold fluid_solve. rewrite Hf.
  assert (D : Spec_Fluid.domain 3 (fluid_of sh beam x n l)) by (unfold Spec_Fluid.domain; cbn; auto 10).
  destruct (Properties_Fluid.C85_solution sd wb e c (fluid_of sh beam x n l) bunches D Hs Hc) as (F & a & m & psi & E & S).
  exists F. split; [exact E|]. destruct (Spec_Fluid.sol_arrays _ _ _ _ _ _ _ _ _ _ S) as [A _]. exact A.
Qed.

Section Total.
  Variable env : R -> R -> C.
  Variable to_main : Model_Laser.sparams -> nat * nat -> Model_Laser.carr2 -> Model_Laser.carr2.
  Variable to_sub : Model_Laser.sparams -> nat * nat -> (nat -> nat -> R) -> (nat -> nat -> R).
  Variables e_ch m_e eps_0 : R.
  Variable solve : box -> solver.
  Notation upd := (updates env to_main to_sub e_ch m_e eps_0 solve).
  Notation upd1 := (update env to_main to_sub e_ch m_e eps_0 solve).

  (** A pulse on the grid of the box. *)
  Definition ready (x : box) (p : pulse) : Prop := exists sp sub en old a,
    Model_Laser.p_params p = Some sp /\ Model_Laser.p_sub p = Some sub /\ Model_Laser.p_env p = Some (en, old) /\
    Model_Laser.p_a_env p = Some a /\ fits x a = true /\
    (2 <= Model_Laser.sp_nz sp)%nat /\ (3 <= Model_Laser.sp_nr sp)%nat /\
    Model_Laser.s_rows en = (Model_Laser.sp_nz sp + 2)%nat /\ Model_Laser.s_cols en = Model_Laser.sp_nr sp /\
    (if sub then Model_Laser.p_main p = (Z.to_nat (x_nxi x), Z.to_nat (x_nr x))
     else Model_Laser.sp_nz sp = Z.to_nat (x_nxi x) /\ Model_Laser.sp_nr sp = Z.to_nat (x_nr x)).
  Definition ready_laser (x : box) (l : option pulse) : Prop := match l with None => True | Some p => ready x p end.

  Lemma prepared_ok x d l : fresh x l -> exists l', prepared env to_main x d l l' /\ ready_laser x l'.
  Proof.
    destruct l as [p|]; [|intros _; exists None; split; [reflexivity|exact I]]. intros ((l0 & pol & ->) & Ns & Hz & Hr).
    unfold prepared. destruct (x_substeps x) as [|ns] eqn:Es; [lia|].
    unfold Model_Laser.set_envelope_solver_params; cbn [Model_Laser.a_nt]. change (Nat.ltb (S ns) 1) with false.
    cbv iota. cbn [Model_Laser.p_params Model_Laser.new_pulse].
    destruct (Model_Laser.params_of _) as [sub sp] eqn:Ep. cbn [Model_Laser.p_n_steps Model_Laser.p_l0 Model_Laser.p_pol Model_Laser.p_a_env Model_Laser.p_main Model_Laser.p_env Model_Laser.a_nz Model_Laser.a_nr].
    assert (Hsp : (2 <= Model_Laser.sp_nz sp)%nat /\ (3 <= Model_Laser.sp_nr sp)%nat /\ (sub = false -> Model_Laser.sp_nz sp = Z.to_nat (x_nxi x) /\ Model_Laser.sp_nr sp = Z.to_nat (x_nr x))).
    { unfold Model_Laser.params_of in Ep; cbn [Model_Laser.a_subgrid_nz Model_Laser.a_subgrid_nr Model_Laser.a_nz Model_Laser.a_nr] in Ep.
      destruct (x_lnxi x) as [a|], (x_lnr x) as [b|]; cbn [Spec_Laser.default] in *; injection Ep as <- <-; cbn [Model_Laser.sp_nz Model_Laser.sp_nr]; (split; [exact Hz|]); (split; [exact Hr|]); intros ?; split; try reflexivity; try discriminate. }
    destruct Hsp as (S1 & S2 & S3).
    eexists. split; [eexists; eexists; split; [reflexivity|split; [|reflexivity]]|].
    - unfold Model_Laser.initialize_envelope; cbn [Model_Laser.p_params Model_Laser.p_sub Model_Laser.p_a_env Model_Laser.p_main Model_Laser.p_l0 Model_Laser.p_pol Model_Laser.p_n_steps]. reflexivity.
    - cbn [ready_laser]. unfold ready.
      do 5 eexists. cbn [Model_Laser.p_params Model_Laser.p_sub Model_Laser.p_env Model_Laser.p_a_env Model_Laser.p_main].
      split; [reflexivity|]. split; [reflexivity|]. split; [reflexivity|]. split; [reflexivity|].
      split; [|split; [exact S1|split; [exact S2|split; [reflexivity|split; [reflexivity|]]]]].
      + apply fits_sizes. unfold Model_Laser.output. destruct sub; cbn [Model_Laser.s_rows Model_Laser.s_cols fst snd]; [split; reflexivity|].
        destruct (S3 eq_refl). split; lia.
      + destruct sub; [reflexivity|exact (S3 eq_refl)].
  Qed.
  Lemma advanced_ok x F n l : ready_laser x l -> exists l', advanced to_main to_sub e_ch m_e eps_0 x F n l l' /\ ready_laser x l'.
  Proof.
    destruct l as [p|]; [|intros _; exists None; split; [reflexivity|exact I]]. cbn [ready_laser]. intros Hp. unfold advanced.
    destruct (x_evolution x); [|exists (Some p); split; [reflexivity|exact Hp]].
    destruct Hp as (sp & sub & en & old & a & P1 & P2 & P3 & P4 & Hf & S1 & S2 & R1 & R2 & M).
    set (chi := fun i k : nat => inner (h_chi F) (Z.of_nat i) (Z.of_nat k)). clearbody chi.
    apply fits_sizes in Hf as [F1 F2].
    assert (Hfit : andb (andb (Nat.eqb (Model_Laser.sp_nz sp + 2) (Model_Laser.s_rows en)) (Nat.eqb (Model_Laser.sp_nr sp) (Model_Laser.s_cols en)))
       (andb (Nat.eqb (Model_Laser.s_rows a) (if sub then fst (Model_Laser.p_main p) else Model_Laser.s_rows en - 2))
             (Nat.eqb (Model_Laser.s_cols a) (if sub then snd (Model_Laser.p_main p) else Model_Laser.s_cols en))) = true).
    { rewrite !andb_true_iff, !Nat.eqb_eq, R1, R2, F1, F2. destruct sub; [rewrite M; repeat split; reflexivity|]. destruct M. repeat split; lia. }
    unfold Model_Laser.evolve. rewrite P1, P2, P3, P4, Hfit.
    set (cen := negb (Nat.eqb (Model_Laser.p_n_steps p) 0)). set (ea := Model_Laser.eargs_of _ _ _). set (chi' := if sub then _ else _).
    destruct (Properties_Laser.C35_levels cen ea chi' (Model_Laser.sp_nt sp) (Model_Laser.s_val en) (Model_Laser.s_val old) S2 S1) as (b & b_old & _ & _ & E & _).
    rewrite E. eexists. split; [eexists; split; reflexivity|]. cbn [ready_laser]. unfold ready.
    do 5 eexists. cbn [Model_Laser.p_params Model_Laser.p_sub Model_Laser.p_env Model_Laser.p_a_env Model_Laser.p_main].
    split; [reflexivity|]. split; [reflexivity|]. split; [reflexivity|]. split; [reflexivity|].
    split; [|split; [exact S1|split; [exact S2|split; [exact R1|split; [exact R2|exact M]]]]].
    apply fits_sizes. unfold Model_Laser.output. destruct sub; cbn [Model_Laser.s_rows Model_Laser.s_cols fst snd]; [rewrite M; split; reflexivity|].
    destruct M. split; lia.
  Qed.

  (** The solver works for every density of the plasma and every pulse on the grid. *)
  Definition works (x : box) : Prop := forall z, exists n, x_density x z = Some n /\
    forall l bunches, match l with Some (a, _) => fits x a | None => true end = true ->
      exists F, solve x n z l bunches = Returned (Ok F) /\ sized x F.
  Lemma seen_ok x l : ready_laser x l -> exists v, seen l = Some v /\ match v with Some (a, _) => fits x a | None => true end = true.
  Proof.
    destruct l as [p|]; [|intros _; exists None; split; reflexivity].
    intros (sp & sub & en & old & a & _ & _ & _ & P4 & Hf & _). exists (Some (a, Model_Laser.p_pol p)). cbn [seen]. rewrite P4. split; [reflexivity|exact Hf].
  Qed.
  Lemma step_ok x d even k N l F b : works x -> ready_laser x l ->
    exists N' l' F', upd1 (state x d even k N l F) b = Some (state x d even (S k) N' l' F') /\ ready_laser x l' /\ sized x F'.
  Proof.
    intros W Hl. destruct (advanced_ok x F N l Hl) as (l' & A & Hl'). destruct (seen_ok x l' Hl') as (v & V & Hv).
    destruct (W (INR (S k) * d)) as (n & Hn & Hs). destruct (Hs v b Hv) as (F' & Es & Sz).
    exists n, l', F'. split; [|auto]. apply next_update. exists l', n, F', v. auto.
  Qed.
  Lemma run_ok x d even bs : works x -> forall k N l F, ready_laser x l -> sized x F ->
    exists N' l' F', upd (state x d even k N l F) bs = Some (state x d even (k + length bs) N' l' F') /\ sized x F' /\ ready_laser x l'.
  Proof.
    intros W. induction bs as [|b bs IH]; intros k N l F Hl HF.
    - exists N, l, F. cbn [updates length]. rewrite Nat.add_0_r. auto.
    - destruct (step_ok x d even k N l F b W Hl) as (N1 & l1 & F1 & E & Hl1 & S1). cbn [updates length]. rewrite E.
      replace (k + S (length bs))%nat with (S k + length bs)%nat by lia. apply IH; assumption.
  Qed.
  Lemma total_lemma x d l bs : works x -> fresh x l -> bs <> [] ->
    exists N' l' F', upd (begin x d l) bs = Some (state x d (has l) (length bs - 1) N' l' F') /\ sized x F' /\ ready_laser x l'.
  Proof.
    intros W Hl B. destruct bs as [|b bs]; [congruence|]. cbn [updates length].
    destruct (prepared_ok x d l Hl) as (l' & A & Hl'). destruct (seen_ok x l' Hl') as (v & V & Hv).
    destruct (W (INR 0 * d)) as (n & Hn & Hs). destruct (Hs v b Hv) as (F' & Es & Sz).
    assert (E : upd1 (begin x d l) b = Some (state x d (has l) 0 n l' F')) by (apply first_update; exists l', n, F', v; auto 10).
    rewrite E. replace (S (length bs) - 1)%nat with (0 + length bs)%nat by lia. apply run_ok; assumption.
  Qed.
End Total.
Lemma qs_works argsort sd wb e c q x : qs_domain sd q x -> works (qs_solve argsort sd wb e c q) x.
Proof.
  intros D z. pose proof D as (_ & _ & _ & _ & _ & _ & _ & _ & H). destruct (H z) as (n & E & P). exists n. split; [exact E|].
  intros l b Hf. apply qs_ok; assumption.
Qed.
Lemma fluid_works sd wb e c sh beam x : c <> 0 -> fluid_domain sd sh x -> works (fluid_solve sd wb e c sh beam) x.
Proof.
  intros Hc D z. pose proof D as (_ & _ & _ & _ & _ & H). destruct (H z) as (n & E & P & Q). exists n. split; [exact E|].
  intros l b Hf. apply fluid_ok; assumption.
Qed.
