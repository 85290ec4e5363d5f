(** The solvers with sources that agree ahead of a position. *)
From Coq Require Import Reals ZArith String List Bool Lia Lra.
From Coquelicot Require Import Coquelicot.
From Verif Require Model_Laser Proofs_Causal.
From Verif Require Import Model_Push Model_Interp Spec_Interp Model_Deposit Spec_Deposit Proofs_Deposit Model_QS Spec_QS Proofs_QS4 Proofs_QS6 Proofs_QS7
  Model_Fluid Spec_Fluid Proofs_Fluid Proofs_Fluid3 Model_RZ Spec_RZ Proofs_RZ2.
Import ListNotations.
Open Scope R_scope.

(** ** Bunches that agree from a position on *)
Definition at_least (z : R) (pq : pos * R) : bool := if Rle_dec z (lon (fst pq)) then true else false.
Definition front (z : R) (l l' : list (pos * R)) : Prop := filter (at_least z) l = filter (at_least z) l'.
Lemma filter_sub {A} (P Q : A -> bool) l : (forall a, Q a = true -> P a = true) -> filter Q l = filter Q (filter P l).
Proof.
  intros H. induction l as [|a l IH]; [reflexivity|]. cbn [filter]. destruct (P a) eqn:Ep; cbn [filter]; destruct (Q a) eqn:Eq; rewrite ?IH; try reflexivity.
  rewrite (H a Eq) in Ep. discriminate.
Qed.
Lemma front_ahead z t l l' : z <= t -> front z l l' -> filter (ahead t) l = filter (ahead t) l'.
Proof.
  intros Hz H. assert (S : forall a, ahead t a = true -> at_least z a = true).
  { intros a. unfold ahead, at_least. destruct (Rle_dec (lon (fst a)) t); [discriminate|]. intros _. destruct (Rle_dec z (lon (fst a))); [reflexivity|lra]. }
  rewrite (filter_sub _ _ l S), (filter_sub _ _ l' S), H. reflexivity.
Qed.
Lemma front_mono z t l l' : z <= t -> front z l l' -> front t l l'.
Proof.
  intros Hz H. assert (S : forall a, at_least t a = true -> at_least z a = true).
  { intros a. unfold at_least. destruct (Rle_dec t (lon (fst a))); [|discriminate]. intros _. destruct (Rle_dec z (lon (fst a))); [reflexivity|lra]. }
  unfold front in *. rewrite (filter_sub _ _ l S), (filter_sub _ _ l' S), H. reflexivity.
Qed.

(** Particles behind the grid are skipped. *)
Lemma deposit_loop_front body g : forall l a, deposit_loop body g l a = deposit_loop body g (filter (at_least (dg_zmin g)) l) a.
Proof.
  unfold deposit_loop. induction l as [|[[[x y] z] w] l IH]; intros a; [reflexivity|]. cbn [filter]. unfold at_least at 1. cbn [fst lon snd].
  cbn [foldM]. destruct (Rle_dec (dg_zmin g) z) as [H|H].
  - cbn [foldM]. destruct (Rle_dec (dg_zmin g) z); [|lra].
    destruct (Rle_dec z _); [destruct (Rle_dec _ _); [destruct (body _ _ _ a); cbn [bind]; [apply IH|reflexivity]|]|]; cbn [bind]; apply IH.
  - cbn [bind]. apply IH.
Qed.
Lemma deposit_front g sh ru l l' a : filter (at_least (dg_zmin g)) l = filter (at_least (dg_zmin g)) l' ->
  deposit_3d_distribution g sh ru l a = deposit_3d_distribution g sh ru l' a.
Proof.
  intros H. unfold deposit_3d_distribution. rewrite !(deposit_loop_front _ g l), !(deposit_loop_front _ g l'), H. reflexivity.
Qed.
Lemma filter_map_comm {A B} (f : A -> B) P l : filter P (map f l) = map f (filter (fun a => P (f a)) l).
Proof. induction l as [|a l IH]; [reflexivity|]. cbn. destruct (P (f a)); cbn; rewrite IH; reflexivity. Qed.
Lemma sources_front sd e np g sh ximin : 0 < sd (np / 1e6) -> dg_zmin g = ximin / sd (np / 1e6) ->
  forall bunches bunches', List.Forall2 (front ximin) bunches bunches' -> forall a,
  beam_sources sd e np g sh bunches a = beam_sources sd e np g sh bunches' a.
Proof.
  intros Hs Hz bunches bunches' H. induction H as [|l l' bs bs' Hl H IH]; intros a; [reflexivity|]. cbn [beam_sources].
  assert (E : calculate_beam_source sd e np g sh l a = calculate_beam_source sd e np g sh l' a).
  { unfold calculate_beam_source. f_equal. apply deposit_front. rewrite !filter_map_comm.
    match goal with |- map ?f (filter ?P l) = _ =>
      assert (Q : forall pq, P pq = at_least ximin pq) end.
    { intros [[[x y] z] q]. unfold at_least. cbn [fst lon snd]. rewrite Hz. unfold Rdiv.
      pose proof (Rinv_0_lt_compat _ Hs) as Hi.
      destruct (Rle_dec ximin z) as [A|A]; destruct (Rle_dec _ _) as [A'|A']; try reflexivity.
      - exfalso. apply A'. apply Rmult_le_compat_r; [lra|exact A].
      - exfalso. apply A. apply Rmult_le_reg_r in A'; assumption. }
    rewrite !(filter_ext _ _ Q). exact (f_equal _ Hl). }
  rewrite E. destruct (calculate_beam_source sd e np g sh l' a) as [[b|]|]; cbn [cbind]; try reflexivity. apply IH.
Qed.

(** ** The slices in question: [k] and those ahead *)
Definition from_slice (k : Z) (x : box) (F F' : fields) : Prop :=
  forall i j, in_box x i j -> (k <= i)%Z ->
    inner (h_rho F) i j = inner (h_rho F') i j /\ inner (h_chi F) i j = inner (h_chi F') i j /\
    inner (h_er F) i j = inner (h_er F') i j /\ inner (h_ez F) i j = inner (h_ez F') i j /\
    inner (h_bt F) i j = inner (h_bt F') i j.
Definition light_rel (k : Z) (x : box) (l l' : light_field) : Prop :=
  match l, l' with
  | None, None => True
  | Some (a, p), Some (a', p') => p = p' /\ fits x a = fits x a' /\
      forall i j, in_box x i j -> (k <= i)%Z -> value a i j = value a' i j
  | _, _ => False
  end.
Lemma light_fits k x l l' : light_rel k x l l' ->
  match l with Some (a, _) => fits x a | None => true end = match l' with Some (a, _) => fits x a | None => true end.
Proof. destruct l as [[a p]|], l' as [[a' p']|]; cbn; try tauto. Qed.
Lemma light_env k x l l' i j : light_rel k x l l' -> in_box x i j -> (k <= i)%Z -> cell (a_env_2 x l) i j = cell (a_env_2 x l') i j.
Proof.
  intros H Hi Hk. destruct l as [[a p]|], l' as [[a' p']|]; cbn in H |- *; try tauto. destruct H as (-> & _ & H). rewrite (H i j Hi Hk). reflexivity.
Qed.

Section QS.
  Variables (argsort : list R -> list nat) (sd wb : R -> R) (e c : R) (q : qs2d) (x : box).
  Hypothesis D : qs_domain sd q x.
  Lemma slice_node i n z : slice_at (qs_args q x n z) i = node_z (box_grid x) i.
  Proof. reflexivity. Qed.
  Lemma qs_rel k y n z l l' bs bs' F F' : 0 < sd (n / 1000000) -> (forall i, (k <= i)%Z -> y <= node_z (box_grid x) (i + 1)) ->
    light_rel k x l l' -> List.Forall2 (front y) bs bs' ->
    qs_solve argsort sd wb e c q x n z l bs = Returned (Ok F) -> qs_solve argsort sd wb e c q x n z l' bs' = Returned (Ok F') ->
    from_slice (k + 5) x F F'.
  Proof.
    intros Hn Hk HL HB E E'.
    destruct (Z_le_gt_dec k (-5)) as [Kl|Kl].
    - assert (F = F') as ->; [|intros i j _ _; repeat split; reflexivity].
      assert (X : qs_solve argsort sd wb e c q x n z l bs = qs_solve argsort sd wb e c q x n z l' bs).
      { apply qs_light_ext; [apply (light_fits k), HL|]. intros i j I J. apply (light_env k); [exact HL|split; assumption|lia]. }
      assert (X' : qs_solve argsort sd wb e c q x n z l' bs = qs_solve argsort sd wb e c q x n z l' bs').
      { unfold qs_solve. destruct (match l' with Some (a, _) => fits x a | None => true end); [|reflexivity].
        unfold calculate_wakefields. f_equal.
        assert (V := qs_valid sd q x n z D Hn). destruct (beam_grid_ok sd (qs_args q x n z) V) as [_ Bz].
        apply (sources_front sd e _ _ _ (x_ximin x)).
        - cbn [qs_args a_np]. replace 1e6 with 1000000 by lra. exact Hn.
        - rewrite Bz. cbn [qs_args a_np a_ximin]. unfold s_d. cbn [a_np]. rewrite ?micro. f_equal. f_equal. replace 1e6 with 1000000 by lra. reflexivity.
        - eapply Proofs_Causal.forall2_impl; [|exact HB]. intros u v. apply front_mono.
          pose proof (Hk (-1)%Z ltac:(lia)) as Y. unfold node_z in Y. cbn in Y. lra. }
      congruence.
    - unfold qs_solve in E, E'.
      destruct (match l with Some (a, _) => fits x a | None => true end); [|discriminate].
      destruct (match l' with Some (a, _) => fits x a | None => true end); [|discriminate].
      set (m := Z.max 0 (k + 3)).
      destruct (Z_le_gt_dec (x_nxi x) (k + 5)) as [Kh|Kh]; [intros i j [I _] Hi; lia|].
      assert (V := qs_valid sd q x n z D Hn).
      assert (G : y <= slice_at (qs_args q x n z) m - 2 * slice_width (qs_args q x n z)).
      { pose proof (Hk (m - 3)%Z ltac:(lia)) as Y. unfold node_z in Y. rewrite !plus_IZR, minus_IZR in Y. cbn [box_grid gz0 gdz] in Y.
        unfold slice_at, slice_width. cbn [qs_args a_ximin a_ximax a_nxi]. lra. }
      assert (Hnx : (3 <= x_nxi x)%Z) by apply D.
      destruct (causal_lemma argsort sd wb e c (qs_args q x n z) V (a_env_2 x l) (a_env_2 x l') bs bs' m F F') as (A1 & A2 & A3 & A4 & A5); try assumption.
      + split; reflexivity.
      + split; reflexivity.
      + cbn [qs_args a_nxi]. lia.
      + cbn [qs_args a_nxi a_nr]. intros i j I J. apply (light_env k); [exact HL|split; [lia|exact J]|lia].
      + eapply Proofs_Causal.forall2_impl; [|exact HB]. intros u v. apply front_ahead, G.
      + specialize (A3 ltac:(cbn [qs_args a_nxi]; lia)). unfold agree_from in *. cbn [qs_args a_nxi a_nr a_shape] in *.
        assert (Rc : (0 <= reach (q_shape q) <= 1)%Z) by (unfold reach; destruct (is_cubic _); lia).
        intros i j [I J] Hi. repeat split; [apply A4|apply A5|apply A1|apply A3|apply A2]; lia.
  Qed.
End QS.

(** ** The fluid *)
Lemma cumsum_ext f g j : (forall k, (k <= j)%nat -> f k = g k) -> cumsum f j = cumsum g j.
Proof. induction j as [|j IH]; intros H; cbn [cumsum]; [apply H; lia|]. rewrite (H (S j)) by lia. rewrite IH; [reflexivity|]. intros k Hk. apply H. lia. Qed.
Lemma gradient_rows f h N d m i : (3 <= N)%Z -> (m <= N - 3)%Z -> (m + 1 <= i < N \/ m = 0 /\ 0 <= i < N)%Z -> (0 <= m)%Z ->
  (forall k, (m <= k < N)%Z -> f k = h k) -> gradient2 f N d i = gradient2 h N d i.
Proof.
  intros HN HM I M0 Hf. unfold gradient2. destruct (Z.eqb_spec i 0); [rewrite !Hf by lia; reflexivity|].
  destruct (Z.eqb_spec i (N - 1)); rewrite !Hf by lia; reflexivity.
Qed.
Section Fluid.
  Variables (sd wb : R -> R) (e c : R) (sh : string) (beam : bool) (x : box).
  Hypothesis D : fluid_domain sd sh x.
  Lemma fields_rows np l l' nb nb' psi psi' F F' m i j : (0 <= m)%Z -> in_box x i j ->
    ((m <= x_nxi x - 4)%Z /\ (m + 2 <= i)%Z \/ m = 0%Z) ->
    (forall i j, in_box x i j -> (m <= i)%Z -> psi i j = psi' i j) ->
    (forall j, (0 <= j < x_nr x)%Z -> nb i j = nb' i j) ->
    (forall j, (0 <= j < x_nr x)%Z -> a_env (fluid_of sh beam x np l) i j = a_env (fluid_of sh beam x np l') i j) ->
    fluid_fields sd wb c (fluid_of sh beam x np l) nb psi = Returned (Ok F) ->
    fluid_fields sd wb c (fluid_of sh beam x np l') nb' psi' = Returned (Ok F') ->
    inner (h_rho F) i j = inner (h_rho F') i j /\ inner (h_chi F) i j = inner (h_chi F') i j /\
    inner (h_er F) i j = inner (h_er F') i j /\ inner (h_ez F) i j = inner (h_ez F') i j /\
    inner (h_bt F) i j = inner (h_bt F') i j.
  Proof.
    intros M0 [I J] HM Hp Hn Ha. unfold fluid_fields.
    change (c_nxi (fluid_of sh beam x np l)) with (x_nxi x). change (c_nr (fluid_of sh beam x np l)) with (x_nr x).
    change (c_nxi (fluid_of sh beam x np l')) with (x_nxi x). change (c_nr (fluid_of sh beam x np l')) with (x_nr x).
    change (c_np (fluid_of sh beam x np l')) with (c_np (fluid_of sh beam x np l)).
    change (p_dz sd (fluid_of sh beam x np l')) with (p_dz sd (fluid_of sh beam x np l)).
    change (p_dr sd (fluid_of sh beam x np l')) with (p_dr sd (fluid_of sh beam x np l)).
    change (p_r sd (fluid_of sh beam x np l')) with (p_r sd (fluid_of sh beam x np l)).
    set (W := fluid_of sh beam x np l) in *. set (W' := fluid_of sh beam x np l') in *.
    destruct D as (_ & _ & Nx & Nr & _).
    destruct (orb _ _); [discriminate|]. cbv zeta. intros E E'. injection E as <-. injection E' as <-.
    cbn [h_rho h_chi h_er h_ez h_bt]. rewrite !inner_part_inner by assumption.
    assert (Pi : forall j, (0 <= j < x_nr x)%Z -> psi i j = psi' i j) by (intros k Hk; apply Hp; [split; assumption|lia]).
    assert (G : forall k j, (0 <= j < x_nr x)%Z -> (m + 1 <= k < x_nxi x \/ m = 0 /\ 0 <= k < x_nxi x)%Z ->
      gradient2 (fun i => psi i j) (x_nxi x) (p_dz sd W) k = gradient2 (fun i => psi' i j) (x_nxi x) (p_dz sd W) k).
    { intros k u Hu Hk. apply (gradient_rows _ _ _ _ m); [lia|lia|exact Hk|lia|]. intros v Hv. apply Hp; [split; lia|lia]. }
    assert (G2 : forall j, (0 <= j < x_nr x)%Z ->
      gradient2 (fun i => - gradient2 (fun i => psi i j) (x_nxi x) (p_dz sd W) i) (x_nxi x) (p_dz sd W) i =
      gradient2 (fun i => - gradient2 (fun i => psi' i j) (x_nxi x) (p_dz sd W) i) (x_nxi x) (p_dz sd W) i).
    { intros u Hu. destruct HM as [[HM1 HM2]|HM].
      - apply (gradient_rows _ _ _ _ (m + 1)); [lia|lia|lia|lia|]. intros v Hv. f_equal. apply G; [exact Hu|lia].
      - apply (gradient_rows _ _ _ _ 0); [lia|lia|lia|lia|]. intros v Hv. f_equal. apply G; [exact Hu|lia]. }
    assert (T : forall k, (0 <= k < x_nr x)%Z -> forall w, 
      (gradient2 (fun i => - gradient2 (fun i => psi i k) (x_nxi x) (p_dz sd W) i) (x_nxi x) (p_dz sd W) i
       - fluid_gamma (a_env W i k) (psi i k) / (1 + psi i k) * (fluid_uz (a_env W i k) (psi i k) / fluid_gamma (a_env W i k) (psi i k)) + nb i k) * w =
      (gradient2 (fun i => - gradient2 (fun i => psi' i k) (x_nxi x) (p_dz sd W) i) (x_nxi x) (p_dz sd W) i
       - fluid_gamma (a_env W' i k) (psi' i k) / (1 + psi' i k) * (fluid_uz (a_env W' i k) (psi' i k) / fluid_gamma (a_env W' i k) (psi' i k)) + nb' i k) * w).
    { intros k Hk w. rewrite (G2 k Hk), (Ha k Hk), (Pi k Hk), (Hn k Hk). reflexivity. }
    rewrite (T j J).
    rewrite (cumsum_ext _ (fun k => (gradient2 (fun i => - gradient2 (fun i => psi' i (Z.of_nat k)) (x_nxi x) (p_dz sd W) i) (x_nxi x) (p_dz sd W) i
       - fluid_gamma (a_env W' i (Z.of_nat k)) (psi' i (Z.of_nat k)) / (1 + psi' i (Z.of_nat k)) * (fluid_uz (a_env W' i (Z.of_nat k)) (psi' i (Z.of_nat k)) / fluid_gamma (a_env W' i (Z.of_nat k)) (psi' i (Z.of_nat k))) + nb' i (Z.of_nat k)) * p_r sd W (Z.of_nat k)) (Z.to_nat j))
      by (intros k Hk; apply T; lia).
    rewrite (gradient2_ext (fun j => psi i j) (fun j => psi' i j)) by (try assumption; lia).
    rewrite (G i j J) by lia. rewrite (Pi j J), (Ha j J). repeat split; reflexivity.
  Qed.
  Lemma fluid_rel k y n z l l' bs bs' F F' : 0 < n -> 0 < sd (n / 1000000) -> (forall i, (k <= i)%Z -> y <= node_z (box_grid x) (i + 1)) ->
    light_rel k x l l' -> List.Forall2 (front y) bs bs' ->
    fluid_solve sd wb e c sh beam x n z l bs = Returned (Ok F) -> fluid_solve sd wb e c sh beam x n z l' bs' = Returned (Ok F') ->
    sized x F /\ sized x F' /\ from_slice (k + 5) x F F'.
  Proof.
    intros Hn Hs Hk HL HB E E'. unfold fluid_solve in E, E'.
    destruct (match l with Some (a, _) => fits x a | None => true end); [|discriminate].
    destruct (match l' with Some (a, _) => fits x a | None => true end); [|discriminate].
    unfold fluid_wakefield in E, E'.
    assert (D2 : forall l, domain 2 (fluid_of sh beam x n l)).
    { intros u. destruct D as (D1 & D2 & D3 & D4 & D5 & _). unfold domain. cbn. repeat (split; [first [assumption|lia]|]). assumption. }
    destruct (bunches_lemma sd e (fluid_of sh beam x n l) (D2 l) Hs bs) as (N & EN & Hb). rewrite EN in E. cbn [cbind] in E.
    destruct (bunches_lemma sd e (fluid_of sh beam x n l') (D2 l') Hs bs') as (N' & EN' & Hb'). rewrite EN' in E'. cbn [cbind] in E'.
    destruct (potential_lemma sd (fluid_of sh beam x n l) (D2 l) Hs (beam_hist sd (fluid_of sh beam x n l) N)) as (u & Eu & Hp). rewrite Eu in E. cbn [cbind] in E.
    destruct (potential_lemma sd (fluid_of sh beam x n l') (D2 l') Hs (beam_hist sd (fluid_of sh beam x n l') N')) as (u' & Eu' & Hp'). rewrite Eu' in E'. cbn [cbind] in E'.
    set (nb := beam_hist sd (fluid_of sh beam x n l) N) in *. set (nb' := beam_hist sd (fluid_of sh beam x n l') N') in *.
    set (psi := u_1 (fluid_of sh beam x n l) u) in *. set (psi' := u_1 (fluid_of sh beam x n l') u') in *.
    clearbody nb nb' psi psi'. clear Eu Eu' EN EN'.
    assert (Sz : forall l nb psi F, fluid_fields sd wb c (fluid_of sh beam x n l) nb psi = Returned (Ok F) -> sized x F).
    { clear. intros l nb psi F. unfold fluid_fields. destruct (orb _ _); [discriminate|]. cbv zeta. intros E. injection E as <-.
      repeat (apply List.Forall_cons; [split; reflexivity|]). constructor. }
    split; [apply (Sz _ _ _ _ E)|]. split; [apply (Sz _ _ _ _ E')|]. clear Sz.
    assert (Ha : forall i j, in_box x i j -> (k <= i)%Z -> a_env (fluid_of sh beam x n l) i j = a_env (fluid_of sh beam x n l') i j).
    { intros i j Hi Hki. unfold a_env, fluid_of; cbn [c_laser]. destruct l as [[a p]|], l' as [[a' p']|]; cbn in HL; try tauto.
      destruct HL as (-> & _ & HL). rewrite (HL i j Hi Hki). reflexivity. }
    assert (Hd : forall i j, in_box x i j -> (k + 3 <= i)%Z -> nb i j = nb' i j).
    { intros i j Hi Hki. change (bunch_density (sd (n / 1000000)) e (fluid_of sh beam x n l) bs' nb') in Hb'.
      apply (density_ahead (sd (n / 1000000)) e (fluid_of sh beam x n l) (D2 l) Hs (k + 3) (node_z (box_grid x) (k + 1)) bs bs' nb nb' i j Hb Hb'); [| |exact Hki|exact Hi].
      - unfold node_z, step_xi. cbn [box_grid gz0 gdz fluid_of c_ximin c_ximax c_nxi]. rewrite !plus_IZR. lra.
      - eapply Proofs_Causal.forall2_impl; [|exact HB]. intros v w. apply front_ahead, Hk. lia. }
    set (m := Z.max 0 (k + 2)).
    destruct (Z_le_gt_dec (x_nxi x) (k + 5)) as [Kh|Kh]; [intros i j [I _] Hi; lia|].
    assert (Ps : forall i j, in_box x i j -> (m <= i)%Z -> psi i j = psi' i j).
    { intros i j [I J] Hm.
      apply (column_lemma (sd (n / 1000000)) (fluid_of sh beam x n l) (c_laser (fluid_of sh beam x n l')) (a_env (fluid_of sh beam x n l)) nb psi
        (a_env (fluid_of sh beam x n l')) nb' psi' m j J ltac:(lia) Hp Hp').
      - intros v Hv. apply Ha; [split; [cbn in Hv; lia|exact J]|lia].
      - intros _ v Hv. apply Hd; [split; [cbn in Hv; lia|exact J]|lia].
      - cbn. lia. }
    intros i j Hi Hki. pose proof Hi as [I J]. apply (fields_rows n l l' nb nb' psi psi' F F' m i j); auto; try lia.
    - intros v Hv. apply Hd; [split; assumption|lia].
    - intros v Hv. apply Ha; [split; assumption|lia].
  Qed.
End Fluid.
