(** Properties of wakefields as objects and of the files written about them (C90-C93). *)
From Coq Require Import Reals ZArith String List Bool Lia Lra.
From Coquelicot Require Import Coquelicot.
From Verif Require Model_Laser Spec_Laser Model_Bunch Spec_Bunch Properties_Laser Properties_Bunch Spec_Fluid Properties_Fluid.
From Verif Require Import Model_Push Model_Interp Spec_Interp Proofs_Interp Properties_Interp Model_Deposit Spec_Deposit
  Model_QS Model_Fluid Model_RZ Spec_RZ Proofs_RZ Proofs_RZ2 Proofs_RZ3.
Import ListNotations.
Open Scope R_scope.

(** ** C90: what a sequence of updates computes *)
Section C90.
  Variable env : R -> R -> C.
  Variable to_main : Model_Laser.sparams -> nat * nat -> Model_Laser.carr2 -> Model_Laser.carr2.
  Variable to_sub : Model_Laser.sparams -> nat * nat -> (nat -> nat -> R) -> (nat -> nat -> R).
  Variables e_ch m_e eps_0 : R.

  Lemma after_state x d l n N l' F o : after x d l n N l' F o <-> o = state x d (has l) n N l' F.
  Proof.
    assert (Hc : c_SI <> 0) by (unfold c_SI; lra). split.
    - intros [H1 H2 H3 H4 H5 H6 H7 H8 H9]. destruct o as [a b c f g h i j k]. cbn in *. subst. unfold state, zero_fields.
      f_equal.
      + field. exact Hc.
      + apply (Rmult_eq_reg_r c_SI); [|exact Hc]. rewrite H5. field. exact Hc.
    - intros ->. constructor; cbn; try reflexivity; try (destruct l; reflexivity); field; exact Hc.
  Qed.

  Theorem C90_updates : forall solve x l T, 0 < T -> 0 < stride x -> exists d, 0 < d /\ spacing x l (c_SI * T) d /\
    forall bs o, bs <> [] ->
      (updates env to_main to_sub e_ch m_e eps_0 solve (adjust_dt T (new_wake x l)) bs = Some o <->
       exists L N F, history env to_main to_sub e_ch m_e eps_0 solve x d l bs L N F /\
         let n := (length bs - 1)%nat in after x d l n (N n) (L n) (F n) o).
  Proof.
    intros solve x l T HT Hs. destruct (begin_lemma x l T HT Hs) as (d & Sp & Hd & E). exists d. split; [exact Hd|]. split; [exact Sp|].
    intros bs o Hb. rewrite E. rewrite (updates_lemma env to_main to_sub e_ch m_e eps_0 solve x d l bs Hb o).
    split; intros (L & N & F & H & A); exists L, N, F; (split; [exact H|]); apply after_state; exact A.
  Qed.

  (** Without evolution of a laser only the number of updates and the bunches of the last one matter. *)
  Theorem C90_memoryless : forall solve x l T bs bs' b o o', 0 < T -> 0 < stride x -> (l = None \/ x_evolution x = false) ->
    length bs = length bs' ->
    updates env to_main to_sub e_ch m_e eps_0 solve (adjust_dt T (new_wake x l)) (bs ++ [b]) = Some o ->
    updates env to_main to_sub e_ch m_e eps_0 solve (adjust_dt T (new_wake x l)) (bs' ++ [b]) = Some o' -> o = o'.
  Proof.
    intros solve x l T bs bs' b o o' HT Hs S El H H'. destruct (begin_lemma x l T HT Hs) as (d & _ & _ & E). rewrite E in H, H'.
    apply updates_lemma in H; [|destruct bs; discriminate]. apply updates_lemma in H'; [|destruct bs'; discriminate].
    destruct H as (L & N & F & A & ->). destruct H' as (L' & N' & F' & A' & ->).
    rewrite !app_length in *. cbn [length] in *. rewrite <- El in *. replace (length bs + 1 - 1)%nat with (length bs) in * by lia.
    pose proof (static_laser _ _ _ _ _ _ _ x d l _ L N F S A (length bs)) as B. pose proof (static_laser _ _ _ _ _ _ _ x d l _ L' N' F' S A' (length bs)) as B'.
    rewrite app_length in B, B'. cbn [length] in B, B'. specialize (B ltac:(lia)). specialize (B' ltac:(lia)).
    pose proof (prepared_unique _ _ _ _ _ _ _ (hi_first _ _ _ _ _ _ _ _ _ _ _ _ _ _ A) (hi_first _ _ _ _ _ _ _ _ _ _ _ _ _ _ A')) as P.
    assert (EL : L (length bs) = L' (length bs)) by congruence.
    pose proof (hi_density _ _ _ _ _ _ _ _ _ _ _ _ _ _ A (length bs)) as D. pose proof (hi_density _ _ _ _ _ _ _ _ _ _ _ _ _ _ A' (length bs)) as D'.
    rewrite app_length in D, D'. cbn [length] in D, D'. specialize (D ltac:(lia)). specialize (D' ltac:(lia)).
    assert (EN : N (length bs) = N' (length bs)) by congruence.
    destruct (hi_fields _ _ _ _ _ _ _ _ _ _ _ _ _ _ A (length bs)) as (v & V & Fv); [rewrite app_length; cbn; lia|].
    destruct (hi_fields _ _ _ _ _ _ _ _ _ _ _ _ _ _ A' (length bs)) as (v' & V' & Fv'); [rewrite app_length; cbn; lia|].
    rewrite app_nth2 in Fv, Fv' by lia. rewrite Nat.sub_diag in Fv. rewrite El, Nat.sub_diag in Fv'. cbn [nth] in Fv, Fv'. rewrite <- El in *.
    rewrite EL in *. rewrite EN in *. congruence.
  Qed.

  (** In a uniform plasma (and, for the quasi-static model, with a constant parabolic coefficient) the number
      of updates does not matter either. *)
  Lemma steady : forall solve x l T bs bs' b o o', 0 < T -> 0 < stride x -> (l = None \/ x_evolution x = false) -> uniform x ->
    (forall n z z' v c, solve x n z v c = solve x n z' v c) ->
    updates env to_main to_sub e_ch m_e eps_0 solve (adjust_dt T (new_wake x l)) (bs ++ [b]) = Some o ->
    updates env to_main to_sub e_ch m_e eps_0 solve (adjust_dt T (new_wake x l)) (bs' ++ [b]) = Some o' ->
    o_arrays o = o_arrays o' /\ o_np o = o_np o' /\ o_laser o = o_laser o'.
  Proof.
    intros solve x l T bs bs' b o o' HT Hs S U Z H H'. destruct (begin_lemma x l T HT Hs) as (d & _ & _ & E). rewrite E in H, H'.
    apply updates_lemma in H; [|destruct bs; discriminate]. apply updates_lemma in H'; [|destruct bs'; discriminate].
    destruct H as (L & N & F & A & ->). destruct H' as (L' & N' & F' & A' & ->). cbn [state o_arrays o_np o_laser].
    rewrite !app_length in *. cbn [length] in *.
    replace (length bs + 1 - 1)%nat with (length bs) in * by lia. replace (length bs' + 1 - 1)%nat with (length bs') in * by lia.
    pose proof (static_laser _ _ _ _ _ _ _ x d l _ L N F S A (length bs)) as B. pose proof (static_laser _ _ _ _ _ _ _ x d l _ L' N' F' S A' (length bs')) as B'.
    rewrite app_length in B, B'. cbn [length] in B, B'. specialize (B ltac:(lia)). specialize (B' ltac:(lia)).
    pose proof (prepared_unique _ _ _ _ _ _ _ (hi_first _ _ _ _ _ _ _ _ _ _ _ _ _ _ A) (hi_first _ _ _ _ _ _ _ _ _ _ _ _ _ _ A')) as P.
    assert (EL : L (length bs) = L' (length bs')) by congruence.
    pose proof (hi_density _ _ _ _ _ _ _ _ _ _ _ _ _ _ A (length bs)) as D. pose proof (hi_density _ _ _ _ _ _ _ _ _ _ _ _ _ _ A' (length bs')) as D'.
    rewrite app_length in D, D'. cbn [length] in D, D'. specialize (D ltac:(lia)). specialize (D' ltac:(lia)).
    rewrite (U _ (INR (length bs') * d)) in D.
    assert (EN : N (length bs) = N' (length bs')) by congruence.
    destruct (hi_fields _ _ _ _ _ _ _ _ _ _ _ _ _ _ A (length bs)) as (v & V & Fv); [rewrite app_length; cbn; lia|].
    destruct (hi_fields _ _ _ _ _ _ _ _ _ _ _ _ _ _ A' (length bs')) as (v' & V' & Fv'); [rewrite app_length; cbn; lia|].
    rewrite app_nth2 in Fv, Fv' by lia. rewrite Nat.sub_diag in Fv, Fv'. cbn [nth] in Fv, Fv'.
    rewrite (Z _ _ (INR (length bs') * d)) in Fv. rewrite EL in *. rewrite EN in *. repeat split; congruence.
  Qed.
  Theorem C90_steady_qs : forall argsort sd wb e c ppc rp v sh mg push q x l T bs bs' b o o', 0 < T -> 0 < stride x ->
    (l = None \/ x_evolution x = false) -> uniform x -> new_qs2d ppc rp (CFloat v) sh mg push = Some q ->
    let solve := qs_solve argsort sd wb e c q in
    updates env to_main to_sub e_ch m_e eps_0 solve (adjust_dt T (new_wake x l)) (bs ++ [b]) = Some o ->
    updates env to_main to_sub e_ch m_e eps_0 solve (adjust_dt T (new_wake x l)) (bs' ++ [b]) = Some o' ->
    o_arrays o = o_arrays o' /\ o_np o = o_np o' /\ o_laser o = o_laser o'.
  Proof. intros until o'. intros HT Hs S U Q solve. apply steady; try assumption. cbn in Q. injection Q as <-. reflexivity. Qed.
  Theorem C90_steady_fluid : forall sd wb e c sh beam x l T bs bs' b o o', 0 < T -> 0 < stride x ->
    (l = None \/ x_evolution x = false) -> uniform x ->
    let solve := fluid_solve sd wb e c sh beam in
    updates env to_main to_sub e_ch m_e eps_0 solve (adjust_dt T (new_wake x l)) (bs ++ [b]) = Some o ->
    updates env to_main to_sub e_ch m_e eps_0 solve (adjust_dt T (new_wake x l)) (bs' ++ [b]) = Some o' ->
    o_arrays o = o_arrays o' /\ o_np o = o_np o' /\ o_laser o = o_laser o'.
  Proof. intros until o'. intros HT Hs S U solve. apply steady; try assumption. reflexivity. Qed.

  (** Updates never fail, and afterwards the data can be written. *)
  Lemma total_display solve x l T bs : works solve x -> (let x' := x in x_ximin x' < x_ximax x' /\ 0 < x_rmax x' /\ (2 <= x_nxi x')%Z /\ (2 <= x_nr x')%Z) ->
    0 < T -> 0 < stride x -> fresh x l -> bs <> [] ->
    exists o, updates env to_main to_sub e_ch m_e eps_0 solve (adjust_dt T (new_wake x l)) bs = Some o /\ displayable o.
  Proof.
    intros W Bx HT Hs Hl Hb. destruct (begin_lemma x l T HT Hs) as (d & _ & _ & ->).
    destruct (total_lemma env to_main to_sub e_ch m_e eps_0 solve x d l bs W Hl Hb) as (N & l' & F & E & Sz & Rl).
    eexists. split; [exact E|]. constructor; cbn [state o_box o_arrays o_zero o_laser]; [exact Bx|exact Sz|reflexivity|].
    intros p ->. destruct Rl as (sp & sub & en & old & a & _ & _ & _ & P4 & Hf & _). exists a. split; [exact P4|].
    unfold fits in Hf. apply andb_prop in Hf. destruct Hf as [A B]. apply Nat.eqb_eq in A, B. split; assumption.
  Qed.
  Theorem C90_total_qs : forall argsort sd wb e c q x l T bs, qs_domain sd q x -> fresh x l -> 0 < T -> 0 < stride x -> bs <> [] ->
    exists o, updates env to_main to_sub e_ch m_e eps_0 (qs_solve argsort sd wb e c q) (adjust_dt T (new_wake x l)) bs = Some o /\ displayable o.
  Proof.
    intros until bs. intros D Hl HT Hs Hb. apply total_display; try assumption; [apply qs_works; exact D|].
    destruct D as (H1 & H2 & H3 & H4 & _). cbv zeta. repeat split; try assumption; lia.
  Qed.
  Theorem C90_total_fluid : forall sd wb e c sh beam x l T bs, c <> 0 -> fluid_domain sd sh x -> fresh x l -> 0 < T -> 0 < stride x -> bs <> [] ->
    exists o, updates env to_main to_sub e_ch m_e eps_0 (fluid_solve sd wb e c sh beam) (adjust_dt T (new_wake x l)) bs = Some o /\ displayable o.
  Proof.
    intros until bs. intros Hc D Hl HT Hs Hb. apply total_display; try assumption; [apply fluid_works; assumption|].
    destruct D as (H1 & H2 & H3 & H4 & _). cbv zeta. repeat split; try assumption; lia.
  Qed.
End C90.
Print Assumptions C90_updates.
Print Assumptions C90_memoryless.
Print Assumptions C90_steady_qs.
Print Assumptions C90_steady_fluid.
Print Assumptions C90_total_qs.
Print Assumptions C90_total_fluid.

Definition small : box := mkbox (fun _ => Some 1) 1 0 1 3 3 None true 1 None None false "cold_fluid_1d".
Definition flash : option pulse := Some (Model_Laser.new_pulse 1 "linear").
Definition column : qs2d := mkqs 2 None (fun _ => 0) "linear" 10 "ab5".
Example C90_example : fluid_domain (fun _ => 1) "cubic" small /\ qs_domain (fun _ => 1) column small /\ fresh small flash /\ fresh small None /\
  0 < stride small /\ uniform small.
Proof.
  split; [|split; [|split; [|split; [|split]]]].
  - unfold fluid_domain; cbn. repeat split; try lra; try lia; [right; reflexivity|]. intros _. exists 1. repeat split; lra.
  - unfold qs_domain; cbn. repeat split; try lra; try lia; [left; reflexivity|right; reflexivity|]. intros _. exists 1. split; [reflexivity|lra].
  - cbn. repeat split; try lia. exists 1, "linear"%string. reflexivity.
  - exact I.
  - unfold stride; cbn. lra.
  - intros z z'. reflexivity.
Qed.

(** ** C91: what drives the wake *)
Theorem C91_polarization : forall argsort sd wb e c q x n z a a' p bunches, p <> "linear"%string -> modulus (sqrt 2) x a a' ->
  qs_solve argsort sd wb e c q x n z (Some (a', "linear"%string)) bunches = qs_solve argsort sd wb e c q x n z (Some (a, p)) bunches.
Proof. exact qs_linear. Qed.
Theorem C91_phase : forall argsort sd wb e c q x n z a a' p bunches, modulus 1 x a a' ->
  qs_solve argsort sd wb e c q x n z (Some (a', p)) bunches = qs_solve argsort sd wb e c q x n z (Some (a, p)) bunches.
Proof. exact qs_phase. Qed.
Theorem C91_no_laser : forall argsort sd wb e c q x n z a p bunches,
  Model_Laser.s_rows a = Z.to_nat (x_nxi x) -> Model_Laser.s_cols a = Z.to_nat (x_nr x) ->
  (forall i j, (i < Z.to_nat (x_nxi x))%nat -> (j < Z.to_nat (x_nr x))%nat -> Model_Laser.s_val a i j = RtoC 0) ->
  qs_solve argsort sd wb e c q x n z (Some (a, p)) bunches = qs_solve argsort sd wb e c q x n z None bunches.
Proof. intros until bunches. intros H1 H2. apply qs_dark. unfold fits. rewrite H1, H2, !Nat.eqb_refl. reflexivity. Qed.
(** An envelope of another size is refused. *)
Theorem C91_size : forall argsort sd wb e c q sh beam x n z a p bunches,
  Model_Laser.s_rows a <> Z.to_nat (x_nxi x) \/ Model_Laser.s_cols a <> Z.to_nat (x_nr x) ->
  qs_solve argsort sd wb e c q x n z (Some (a, p)) bunches = ValueError /\
  fluid_solve sd wb e c sh beam x n z (Some (a, p)) bunches = ValueError.
Proof.
  intros until bunches. intros H. assert (E : fits x a = false).
  { unfold fits. destruct H as [H|H]; apply Nat.eqb_neq in H; rewrite H; [reflexivity|apply andb_false_r]. }
  unfold qs_solve, fluid_solve. rewrite E. split; reflexivity.
Qed.
(** A number as coefficient is the constant function, a function is used at the position of the update;
    anything else is refused. *)
Theorem C91_coefficient : forall ppc rp c sh mg push,
  (forall v, c = CFloat v -> new_qs2d ppc rp c sh mg push = new_qs2d ppc rp (CFunction (fun _ => v)) sh mg push) /\
  (forall f x n z, c = CFunction f -> exists q, new_qs2d ppc rp c sh mg push = Some q /\ a_pc (qs_args q x n z) = f z) /\
  (new_qs2d ppc rp c sh mg push = None <-> c = COther).
Proof.
  intros. split; [intros v ->; reflexivity|]. split; [intros f x n z ->; eexists; split; reflexivity|].
  destruct c; cbn; split; congruence.
Qed.
(** Without laser and with all particles off the box, the fluid wakefield acts on nothing. *)
Lemma off_outside s e sh beam x n pq : x_ximin x < x_ximax x -> 0 < x_rmax x -> (3 <= x_nxi x)%Z -> (3 <= x_nr x)%Z -> 0 < s ->
  off_box x (fst pq) -> ~ inside (Spec_Fluid.fluid_grid s (fluid_of sh beam x n None)) (fst (Spec_Fluid.counted s e pq)).
Proof.
  intros H1 H2 H3 H4 Hs Hp [[A B] C]. destruct pq as [[[px py] pxi] q]. unfold off_box in Hp. cbn [fst lon snd Spec_Fluid.counted] in *.
  assert (3 <= IZR (x_nxi x)) by (apply IZR_le; exact H3). assert (3 <= IZR (x_nr x)) by (apply IZR_le; exact H4).
  unfold z_last, r_edge, Spec_Fluid.fluid_grid, Spec_Fluid.step_xi, Spec_Fluid.step_r, fluid_of in A, B, C.
  cbn [dg_zmin dg_nz dg_nr dg_dz dg_dr c_ximin c_ximax c_rmax c_nxi c_nr radius] in A, B, C.
  replace (x_ximin x / s + (IZR (x_nxi x) - 1) * ((x_ximax x - x_ximin x) / (IZR (x_nxi x) - 1) / s)) with (x_ximax x / s) in B by (field; lra).
  replace (IZR (x_nr x) * (x_rmax x / IZR (x_nr x) / s)) with (x_rmax x / s) in C by (field; lra).
  assert (Hi : 0 < / s) by (apply Rinv_0_lt_compat; exact Hs).
  assert (E : sqrt (px / s * (px / s) + py / s * (py / s)) = radius (px, py, pxi) / s).
  { cbn [radius]. apply Rsqr_inj; [apply sqrt_pos| |].
    - apply Rmult_le_pos; [apply sqrt_pos|lra].
    - rewrite Rsqr_sqrt by nra. unfold Rdiv. rewrite Rsqr_mult, Rsqr_sqrt by nra. unfold Rsqr. ring. }
  rewrite E in C. unfold Rdiv in A, B, C.
  apply Rmult_le_reg_r in A; [|exact Hi]. apply Rmult_le_reg_r in B; [|exact Hi]. apply Rmult_le_reg_r in C; [|exact Hi]. lra.
Qed.
Theorem C91_no_driver : forall env to_main to_sub e_ch m_e eps_0 sd wb e c sh beam x T bs b, c <> 0 -> fluid_domain sd sh x -> 0 < T -> 0 < stride x ->
  List.Forall (fun pq => off_box x (fst pq)) (concat b) ->
  exists o, updates env to_main to_sub e_ch m_e eps_0 (fluid_solve sd wb e c sh beam) (adjust_dt T (new_wake x None)) (bs ++ [b]) = Some o /\
    forall p v, gets (as_rz o) p v -> feels_nothing p v.
Proof.
  intros until b. intros Hc D HT Hs Hb.
  destruct (C90_total_fluid env to_main to_sub e_ch m_e eps_0 sd wb e c sh beam x None T (bs ++ [b]) Hc D I HT Hs ltac:(destruct bs; discriminate)) as (o & E & Dy).
  exists o. split; [exact E|].
  destruct (C90_updates env to_main to_sub e_ch m_e eps_0 (fluid_solve sd wb e c sh beam) x None T HT Hs) as (d & _ & _ & U).
  apply U in E; [|destruct bs; discriminate]. destruct E as (L & N & F & H & A). rewrite app_length in A. cbn [length] in A.
  replace (length bs + 1 - 1)%nat with (length bs) in A by lia. cbv zeta in A.
  destruct (hi_fields _ _ _ _ _ _ _ _ _ _ _ _ _ _ H (length bs)) as (v0 & V & Fv); [rewrite app_length; cbn; lia|].
  pose proof (hi_density _ _ _ _ _ _ _ _ _ _ _ _ _ _ H (length bs)) as Dn. rewrite app_length in Dn. specialize (Dn ltac:(cbn; lia)).
  rewrite app_nth2, Nat.sub_diag in Fv by lia. cbn [nth] in Fv.
  assert (EL : L (length bs) = None).
  { rewrite (static_laser _ _ _ _ _ _ _ x d None _ L N F (or_introl eq_refl) H (length bs)); [exact (hi_first _ _ _ _ _ _ _ _ _ _ _ _ _ _ H)|rewrite app_length; cbn; lia]. }
  rewrite EL in V. cbn in V. injection V as <-. unfold fluid_solve in Fv.
  pose proof D as (D1 & D2 & D3 & D4 & D5 & D6). destruct (D6 (INR (length bs) * d)) as (n & En & Pn & Ps). rewrite Dn in En. injection En as En. rewrite En in *. clear En.
  set (W := fluid_of sh beam x n None) in *.
  assert (DW : Spec_Fluid.domain 3 W) by (unfold Spec_Fluid.domain; cbn; auto 10).
  destruct (Properties_Fluid.C85_solution sd wb e c W b DW Ps Hc) as (F' & a & m & psi & E' & So). rewrite E' in Fv. injection Fv as Fv.
  assert (Q := Properties_Fluid.C86_quiet _ _ _ _ W b F' a m psi DW Ps Hc So).
  assert (Ha : forall i j, Spec_Fluid.point W i j -> a i j = 0).
  { intros i j _. destruct (Spec_Fluid.sol_laser _ _ _ _ _ _ _ _ _ _ So i j) as [A1 A2]. cbn in A2. nra. }
  specialize (Q Ha). assert (Hb' : List.Forall (fun pq => ~ inside (Spec_Fluid.fluid_grid (sd (c_np W / 1000000)) W) (fst (Spec_Fluid.counted (sd (c_np W / 1000000)) e pq))) (concat b)).
  { eapply List.Forall_impl; [|exact Hb]. intros pq Hp. apply off_outside; assumption. }
  specialize (Q Hb'). rewrite Fv in Q.
  pose proof (dy_box _ Dy) as Bx. pose proof (dy_arrays _ Dy) as Sz. cbv zeta in Bx. rewrite (af_box _ _ _ _ _ _ _ _ A) in Bx, Sz.
  rewrite (af_fields _ _ _ _ _ _ _ _ A) in Sz.
  assert (G : as_rz o = mkrz (x_rmax x) (x_ximin x) (x_ximax x) (x_nr x) (x_nxi x) (h_er (F (length bs))) (h_ez (F (length bs))) (h_bt (F (length bs)))).
  { unfold as_rz. rewrite (af_box _ _ _ _ _ _ _ _ A), (af_fields _ _ _ _ _ _ _ _ A). reflexivity. }
  unfold sized in Sz. apply Forall_cons_iff in Sz. destruct Sz as [_ Sz]. apply Forall_cons_iff in Sz. destruct Sz as [_ Sz].
  apply Forall_cons_iff in Sz. destruct Sz as [S1 Sz]. apply Forall_cons_iff in Sz. destruct Sz as [S2 Sz]. apply Forall_cons_iff in Sz. destruct Sz as [S3 _].
  assert (Wf : well_formed (as_rz o)).
  { rewrite G. unfold well_formed, allocated. cbn. unfold box_array in S1, S2, S3. tauto. }
  intros p v Hv. destruct (Classical_Prop.classic (covered (grid_of (as_rz o)) (lon p) (radius p))) as [Hc'|Hn].
  - destruct (C26_inside _ p v Wf Hv Hc') as (_ & _ & _ & Z1 & Z2 & Z3).
    destruct (C26_between _ p v 0 0 Wf Hv Hc') as (B1 & B2 & B3).
    assert (Hz : forall i j, (0 <= i < x_nxi x)%Z -> (0 <= j < x_nr x)%Z ->
      inner (e_r (as_rz o)) i j = 0 /\ inner (e_z (as_rz o)) i j = 0 /\ inner (b_t (as_rz o)) i j = 0).
    { intros i j Hi Hj. rewrite G. cbn [Model_Interp.e_r Model_Interp.e_z Model_Interp.b_t]. destruct (Q i j (conj Hi Hj)) as (_ & _ & R1 & R2 & R3). auto. }
    unfold values_within, values_bounded in B1, B2, B3.
    assert (X1 : 0 <= ez v <= 0). { apply B1. intros i j Hi Hj. rewrite G in Hi, Hj. destruct (Hz i j Hi Hj) as (_ & -> & _). lra. }
    assert (X2 : Rabs (e_radial p v) <= 0). { apply B2. intros i j Hi Hj. rewrite G in Hi, Hj. destruct (Hz i j Hi Hj) as (-> & _). rewrite Rabs_R0. lra. }
    assert (X3 : Rabs (b_azimuthal p v) <= 0). { apply B3. intros i j Hi Hj. rewrite G in Hi, Hj. destruct (Hz i j Hi Hj) as (_ & _ & ->). rewrite Rabs_R0. lra. }
    assert (Y : forall r, Rabs r <= 0 -> r = 0). { intros r Hr. destruct (Req_dec r 0) as [|Nr]; [assumption|]. apply Rabs_pos_lt in Nr. lra. }
    unfold feels_nothing. rewrite (Y _ X2), (Y _ X3), Z1, Z2, Z3. repeat split; lra.
  - rewrite (C26_outside _ p v Wf Hv Hn). unfold feels_nothing, e_radial, e_azimuthal, b_radial, b_azimuthal, Rdiv. cbn. repeat split; ring.
Qed.
Print Assumptions C91_polarization.
Print Assumptions C91_phase.
Print Assumptions C91_no_laser.
Print Assumptions C91_no_driver.
Example C91_example :
  modulus (sqrt 2) small (Model_Laser.mksa 3 3 (fun _ _ => RtoC 1)) (Model_Laser.mksa 3 3 (fun _ _ => RtoC (sqrt 2))) /\
  modulus 1 small (Model_Laser.mksa 3 3 (fun _ _ => RtoC 1)) (Model_Laser.mksa 3 3 (fun _ _ => Ci)) /\
  off_box small (0, 0, 2) /\ ~ off_box small (0, 0, 1).
Proof.
  unfold modulus, off_box; cbn [lon snd small x_ximin x_ximax x_rmax Model_Laser.s_rows Model_Laser.s_cols Model_Laser.s_val radius].
  split; [|split; [|split; [lra|]]].
  - repeat split. intros. rewrite !Cmod_R, (Rabs_pos_eq (sqrt 2)) by apply sqrt_pos. rewrite Rabs_R1. ring.
  - repeat split. intros. rewrite Cmod_R, Rabs_R1. unfold Cmod, Ci. cbn. replace (0 * (0 * 1) + 1 * (1 * 1)) with 1 by ring. rewrite sqrt_1. ring.
  - replace (0 * 0 + 0 * 0) with 0 by ring. rewrite sqrt_0. lra.
Qed.

(** ** C92: meshes *)
(** The iteration [it] is completed by the meshes of [o], which replace meshes of the same names. *)
Theorem C92_meshes : forall e o time dt z_pos sp flds it, displayable o ->
  write_iteration time dt z_pos sp flds = Some it ->
  exists it', write_iteration time dt z_pos sp (flds ++ [get_openpmd_diagnostics_data e o]) = Some it' /\
    meshes_of e o (c_SI * time + z_pos) (i_meshes it') /\
    (forall k, ~ own_mesh o k -> get k (i_meshes it') = get k (i_meshes it)) /\
    i_time it' = i_time it /\ i_dt it' = i_dt it /\ i_species it' = i_species it /\
    exists c, i_common it' = Some c /\ m_params c = x_name (o_box o).
Proof.
  intros e o time dt z_pos sp flds it D H. assert (Hc : c_SI <> 0) by (unfold c_SI; lra).
  rewrite write_iteration_eq in *. cbv zeta in *. rewrite collected_app. set (t := time + z_pos / c_SI) in *.
  destruct (collected t flds) as [ds|]; [|discriminate].
  destruct (written_lemma e o t (dy_arrays _ D) (dy_zero _ D) (dy_box _ D) it) as (d & it' & Ed & Ew & T1 & T2 & T3 & T4 & Wr & Ot).
  { intros p Hp. destruct (dy_laser _ D p Hp) as (a & Ea & R1 & R2). exists a. split; [exact Ea|]. unfold fits. rewrite R1, R2, !Nat.eqb_refl. reflexivity. }
  rewrite Ed, write_all_app, H, Ew. exists it'. split; [reflexivity|].
  assert (Ez : t * c_SI = c_SI * time + z_pos) by (unfold t; field; exact Hc). rewrite <- Ez.
  split; [|split; [|repeat (split; [assumption|]); eexists; split; [exact T4|reflexivity]]].
  - destruct Wr as [(m1 & W1 & _ & W2 & W3) (m2 & V1 & _ & V2 & V3) (m3 & U1 & _ & U2 & U3) L]. constructor.
    + exists m1. split; [exact W1|]. split; [exact W2|exact W3].
    + exists m2. split; [exact V1|]. split; [exact V2|exact V3].
    + exists m3. split; [exact U1|]. split; [exact U2|exact U3].
    + intros p a El Ea env. destruct (L p a El Ea) as ((mm & A1 & A2 & A3) & (mp & B1 & B2) & (ma & C1 & C2 & _ & C3)).
      exists mm, mp, ma. do 3 eexists. split; [exact A1|]. split; [exact B1|]. split; [exact C1|]. split; [exact A3|]. split; [exact B2|]. split; [exact C3|].
      split; [|split; [exact A2|split; [exact C2|intros Nl; field; exact Nl]]].
      intros i j. split; [apply Cmod_ge_0|]. destruct (Properties_Laser.C36_angle (value a i j)) as [P1 P2]. split; [exact P2|exact P1].
  - intros k Hk. apply Ot. unfold mine. apply not_true_is_false. intros E. apply Hk. unfold own_mesh.
    apply existsb_exists in E. destruct E as (y & Hy & Ey). apply String.eqb_eq in Ey. subst y. apply in_app_or in Hy. destruct Hy as [Hy|Hy]; [left; exact Hy|].
    destruct (o_laser o); [right; split; [discriminate|exact Hy]|destruct Hy].
Qed.
(** A particle on a grid point feels what the file says there. *)
Theorem C92_felt : forall e o z ms p v i j, displayable o -> meshes_of e o z ms -> in_box (o_box o) i j ->
  gets (as_rz o) p v -> lon p = node_z (box_grid (o_box o)) i -> radius p = node_r (box_grid (o_box o)) j ->
  exists mE mB, get "E"%string ms = Some mE /\ get "B"%string ms = Some mB /\
    exists Er Ez Bt, holds (o_box o) z mE "r" Er /\ holds (o_box o) z mE "z" Ez /\ holds (o_box o) z mB "t" Bt /\
      e_radial p v = Er i j /\ ez v = Ez i j /\ b_azimuthal p v = Bt i j.
Proof.
  intros e o z ms p v i j D M [Hi Hj] Hv Hz Hr. destruct M as [(m1 & W1 & _ & W3 & _ & W5) (m2 & V1 & _ & _ & V4 & _) _ _].
  exists m1, m2. split; [exact W1|]. split; [exact V1|]. do 3 eexists. split; [exact W3|]. split; [exact W5|]. split; [exact V4|].
  pose proof (dy_box _ D) as Bx. pose proof (dy_arrays _ D) as Sz. unfold sized in Sz. rewrite !Forall_cons_iff in Sz. cbv zeta in Bx.
  apply (C26_grid_point (as_rz o) p v i j); try assumption. unfold well_formed, allocated. cbn. unfold box_array in Sz. tauto.
Qed.
(** Of two wakefields with fields in the file, only those of the second are there; the laser of the first
    stays if the second has none. *)
Theorem C92_last_wins : forall e o1 o2 time dt z_pos sp, displayable o1 -> displayable o2 ->
  exists it, write_iteration time dt z_pos sp [get_openpmd_diagnostics_data e o1; get_openpmd_diagnostics_data e o2] = Some it /\
    meshes_of e o2 (c_SI * time + z_pos) (i_meshes it) /\
    exists it1, write_iteration time dt z_pos sp [get_openpmd_diagnostics_data e o1] = Some it1 /\
      meshes_of e o1 (c_SI * time + z_pos) (i_meshes it1) /\
      (o_laser o2 = None -> forall k, In k ["a_mod"; "a_phase"; "a"]%string -> get k (i_meshes it) = get k (i_meshes it1)).
Proof.
  intros e o1 o2 time dt z_pos sp D1 D2.
  destruct (C92_meshes e o1 time dt z_pos sp [] _ D1 eq_refl) as (it1 & E1 & M1 & _).
  destruct (C92_meshes e o2 time dt z_pos sp _ it1 D2 E1) as (it & E2 & M2 & K & _).
  exists it. split; [exact E2|]. split; [exact M2|]. exists it1. split; [exact E1|]. split; [exact M1|].
  intros N k Hk. apply K. intros [O|[O _]]; [|congruence].
  destruct Hk as [<-|[<-|[<-|[]]]]; destruct O as [O|[O|[O|[]]]]; discriminate.
Qed.
(** The envelope is a normalized vector potential, but the file gives it the units of a vector potential. *)
Theorem C92_envelope_units_refuted : forall n m, write_mesh "a" n m = None \/
  exists m', write_mesh "a" n m = Some m' /\ e_units m' <> Some pure_number /\
    e_units m' = Some (times (over newton (times ampere metre)) metre).
Proof.
  intros n m. destruct (write_mesh "a" n m) as [m'|] eqn:E; [right|left; reflexivity]. exists m'. split; [reflexivity|].
  unfold write_mesh in E. destruct (match n_comps n with Some _ => _ | None => _ end); [|discriminate]. injection E as <-. cbn. split; [discriminate|reflexivity].
Qed.
Print Assumptions C92_meshes.
Print Assumptions C92_felt.
Print Assumptions C92_last_wins.
Example C92_example : exists o, displayable o /\ o_laser o <> None.
Proof.
  destruct C90_example as (Hf & _ & Hl & _ & Hs & _).
  destruct (C90_total_fluid (fun _ _ => RtoC 1) (fun _ _ a => a) (fun _ _ f => f) 1 1 1 (fun _ => 1) (fun _ => 1) 1 1 "cubic" true small flash 1 [[]]
    ltac:(lra) Hf Hl ltac:(lra) Hs ltac:(discriminate)) as (o & E & D). exists o. split; [exact D|].
  destruct (C90_updates (fun _ _ => RtoC 1) (fun _ _ a => a) (fun _ _ f => f) 1 1 1 (fluid_solve (fun _ => 1) (fun _ => 1) 1 1 "cubic" true) small flash 1 ltac:(lra) Hs) as (d & _ & _ & U).
  apply U in E; [|discriminate]. destruct E as (L & N & F & H & A). rewrite (af_laser _ _ _ _ _ _ _ _ A).
  destruct (hi_first _ _ _ _ _ _ _ _ _ _ _ _ _ _ H) as (p1 & p2 & _ & _ & Ep). cbn [length Nat.sub]. rewrite Ep. discriminate.
Qed.

(** ** C93: species *)
Theorem C93_species : forall h bunches time dt z_pos flds it,
  NoDup (map Model_Bunch.b_name bunches) ->
  write_iteration time dt z_pos (map (fun b => Model_Bunch.get_openpmd_diagnostics_data h b) bunches) flds = Some it ->
  i_time it = time + z_pos / c_SI /\ i_dt it = dt /\
  (forall b, In b bunches -> Spec_Bunch.valid h b -> let l := Model_Bunch.particles h b in
     exists s, get (Model_Bunch.b_name b) (i_species it) = Some s /\
       absolute s = (map x l, map y l, map (fun p => xi p + (c_SI * time + z_pos)) l) /\
       s_momentum s = (map (fun p => px p * (Model_Bunch.m_species b * c_SI)) l, map (fun p => py p * (Model_Bunch.m_species b * c_SI)) l,
                       map (fun p => pz p * (Model_Bunch.m_species b * c_SI)) l) /\
       s_weighting s = Model_Bunch.rd h (Model_Bunch.b_w b) /\ s_charge s = Model_Bunch.q_species b /\ s_mass s = Model_Bunch.m_species b) /\
  (forall k, ~ In k (map Model_Bunch.b_name bunches) -> get k (i_species it) = None).
Proof.
  intros h bunches time dt z_pos flds it Hn H. assert (Hc : c_SI <> 0) by (unfold c_SI; lra).
  rewrite write_iteration_eq in H. cbv zeta in H. set (t := time + z_pos / c_SI) in *.
  destruct (collected t flds) as [ds|]; [|discriminate]. apply write_all_keeps in H. cbn [i_time i_dt i_species] in H.
  destruct H as (-> & -> & Es). split; [reflexivity|]. split; [reflexivity|]. rewrite Es. clear Es ds.
  rewrite fold_map.
  destruct (species_lookup Model_Bunch.b_name (fun b => write_species (Model_Bunch.get_openpmd_diagnostics_data h b t)) bunches [] Hn) as [I1 I2].
  split; [|exact I2].
  intros b Hb V l. exists (write_species (Model_Bunch.get_openpmd_diagnostics_data h b t)). split; [exact (I1 b Hb)|].
  destruct (Properties_Bunch.C59_openpmd_data h b t V) as (A1 & A2 & A3 & A4 & A5 & A6 & A7 & A8 & A9 & _ & A11). fold l in A1, A2, A3, A4, A5, A6.
  unfold write_species, absolute. cbn [s_position s_offset s_momentum s_weighting s_charge s_mass]. rewrite A1, A2, A3, A4, A5, A6, A7, A8, A9, A11.
  rewrite !map_map. split; [|repeat split]. replace (c_SI * t) with (c_SI * time + z_pos) by (unfold t; field; exact Hc).
  assert (Ex : forall g : part -> R, map (fun p => g p + 0) l = map g l) by (intros g; apply map_ext; intros; ring).
  rewrite (Ex x), (Ex y). reflexivity.
Qed.
(** Of bunches with the same name only the last is in the file. *)
Theorem C93_same_name : forall h bunches b1 b2 time dt z_pos flds it, Model_Bunch.b_name b1 = Model_Bunch.b_name b2 ->
  write_iteration time dt z_pos (map (fun b => Model_Bunch.get_openpmd_diagnostics_data h b) (bunches ++ [b1; b2])) flds = Some it ->
  write_iteration time dt z_pos (map (fun b => Model_Bunch.get_openpmd_diagnostics_data h b) (bunches ++ [b2])) flds = Some it.
Proof.
  intros h bunches b1 b2 time dt z_pos flds it E H. rewrite write_iteration_eq in *. cbv zeta in *. rewrite !fold_map in *.
  rewrite !fold_left_app in *. cbn [fold_left] in *.
  assert (Eo : Model_Bunch.od_name (Model_Bunch.get_openpmd_diagnostics_data h b1 (time + z_pos / c_SI))
             = Model_Bunch.od_name (Model_Bunch.get_openpmd_diagnostics_data h b2 (time + z_pos / c_SI))) by exact E.
  rewrite Eo, put_put in H. exact H.
Qed.
(** Units, and how a quantity of one particle becomes that of a macroparticle of weight w: times w to the power given. *)
Theorem C93_units :
  get "position" species_units = Some metre /\ get "positionOffset" species_units = Some metre /\
  get "momentum" species_units = Some (over (times kilogram metre) second) /\
  get "charge" species_units = Some coulomb /\ get "mass" species_units = Some kilogram.
Proof. repeat split. Qed.
Theorem C93_weighting :
  get "position" species_weighting = Some (0%Z, 0) /\ get "positionOffset" species_weighting = Some (0%Z, 0) /\
  get "momentum" species_weighting = Some (0%Z, 1) /\ get "charge" species_weighting = Some (0%Z, 1) /\
  get "mass" species_weighting = Some (0%Z, 1) /\ get "weighting" species_weighting = Some (1%Z, 1).
Proof. repeat split. Qed.
Print Assumptions C93_species.
Print Assumptions C93_same_name.
Example C93_example : exists o it, displayable o /\ Spec_Bunch.valid Properties_Bunch.ex_h Properties_Bunch.ex_b /\
  NoDup (map Model_Bunch.b_name [Properties_Bunch.ex_b]) /\
  write_iteration 1 1 2 (map (fun b => Model_Bunch.get_openpmd_diagnostics_data Properties_Bunch.ex_h b) [Properties_Bunch.ex_b])
    [get_openpmd_diagnostics_data 1 o] = Some it.
Proof.
  destruct C92_example as (o & D & _).
  destruct (C92_meshes 1 o 1 1 2 (map (fun b => Model_Bunch.get_openpmd_diagnostics_data Properties_Bunch.ex_h b) [Properties_Bunch.ex_b]) [] _ D eq_refl) as (it & E & _).
  exists o, it. split; [exact D|]. split; [exact (proj1 Properties_Bunch.ex_valid)|]. split; [|exact E]. cbn. constructor; [intros []|constructor].
Qed.
