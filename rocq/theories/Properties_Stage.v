(** Properties C39 (plasma elements), C40, C41, C76: plasma elements and the clock of their fields. *)
From Coq Require Import QArith Qround Reals String List Bool Arith ZArith Lqa Lia Lra.
From Verif Require Import Model_Tracker Spec_Tracker Proofs_Tracker Model_Element Model_Stage Spec_Stage
  Proofs_Stage Proofs_Stage2.
From Verif Require Model_CSR.
Import ListNotations.
Open Scope R_scope.

(** ** C40: ramps *)
(** Down-ramp given by two densities: the top density at its start, the lower one at the requested
    position (the end of the ramp unless given), decreasing and positive everywhere. *)
Theorem C40_downramp L s top down po : built_in s -> 0 < down < top ->
  let p := match po with Some p => p | None => L end in
  0 < p ->
  exists f, ramp L (PName s) "downramp" None (Some top) (Some down) po = Some f /\
    f 0 = Some top /\ f p = Some down /\
    forall z1 z2, 0 <= z1 < z2 -> exists v1 v2, f z1 = Some v1 /\ f z2 = Some v2 /\ 0 < v2 < v1.
Proof. intros Hs Hd p Hp. exact (down_spec L s top down po Hs Hd Hp). Qed.
Print Assumptions C40_downramp.

(** Given by a decay length: the shape of the documentation; lower density and its position are
    not used. *)
Theorem C40_decay_length L s top l down po : built_in s -> 0 < top -> 0 < l ->
  exists f, ramp L (PName s) "downramp" (Some l) (Some top) down po = Some f /\
    (forall z, f z = Some (top * ramp_shape s (z / l))) /\ f 0 = Some top /\
    forall z1 z2, 0 <= z1 < z2 -> exists v1 v2, f z1 = Some v1 /\ f z2 = Some v2 /\ 0 < v2 < v1.
Proof. exact (decay_spec L s top l down po). Qed.
Print Assumptions C40_decay_length.

(** The ramp given by two densities has the same shape, for the one decay length that fits. *)
Theorem C40_shape L s top down po : built_in s -> 0 < down < top ->
  let p := match po with Some p => p | None => L end in
  0 < p ->
  exists l, 0 < l /\ top * ramp_shape s (p / l) = down /\
  forall ty, match ramp L (PName s) ty None (Some top) (Some down) po,
                   ramp L (PName s) ty (Some l) (Some top) (Some down) po with
             | Some f, Some g => forall z, f z = g z
             | _, _ => False
             end.
Proof.
  intros Hs Hd p Hp. destruct (scale_eq s top down p Hs Hd Hp) as (l & El & Hl & Hv).
  exists l. split; [exact Hl|]. split; [exact Hv|]. intros ty.
  destruct (ramp_eq L s ty None (Some top) (Some down) po Hs) as (f & -> & F).
  destruct (ramp_eq L s ty (Some l) (Some top) (Some down) po Hs) as (g & -> & G).
  intros z. rewrite F, G. unfold decay. cbn [ra_decay ra_top ra_down ra_position]. fold p. rewrite El. reflexivity.
Qed.
Print Assumptions C40_shape.

(** Equal densities: uniform plasma. *)
Theorem C40_flat L s ty top po : built_in s -> 0 < top ->
  exists f, ramp L (PName s) ty None (Some top) (Some top) po = Some f /\ forall z, f z = Some top.
Proof. exact (flat_spec L s ty top po). Qed.
Print Assumptions C40_flat.

(** An up-ramp is the mirror image of the down-ramp with the same arguments, for built-in and
    user-defined profiles. *)
Theorem C40_mirror L p de top down po :
  match ramp L p "upramp" de top down po, ramp L p "downramp" de top down po with
  | Some up, Some dn => forall z, up z = dn (L - z)
  | None, None => True
  | _, _ => False
  end.
Proof. apply mirror_spec. discriminate. Qed.
Print Assumptions C40_mirror.

(** User-defined profiles are called with the position along the ramp and the arguments. *)
Theorem C40_custom L f ty de top down po :
  exists g, ramp L (PFunction f) ty de top down po = Some g /\
  forall z, g z = f (if String.eqb ty "upramp" then L - z else z)
                    {| ra_decay := de; ra_top := top; ra_down := down;
                       ra_position := Some (match po with Some x => x | None => L end) |}.
Proof. exact (custom_spec L f ty de top down po). Qed.
Print Assumptions C40_custom.

(** Names: exactly the three built-in ones. *)
Theorem C40_unknown_name L s ty de top down po :
  ramp L (PName s) ty de top down po = None <->
  s <> "inverse_square"%string /\ s <> "exponential"%string /\ s <> "gaussian"%string.
Proof. rewrite unknown_spec. unfold built_in. tauto. Qed.
Print Assumptions C40_unknown_name.

(** The name given in the documentation is not accepted. *)
Theorem C40_documented_name_refuted L ty de top down po :
  ramp L (PName "inverse square") ty de top down po = None.
Proof. apply C40_unknown_name. repeat split; discriminate. Qed.
Print Assumptions C40_documented_name_refuted.

(** Missing densities are not detected when the ramp is created: evaluating it fails. *)
Theorem C40_missing L s ty de top down po : built_in s -> top = None \/ (de = None /\ down = None) ->
  exists f, ramp L (PName s) ty de top down po = Some f /\ forall z, f z = None.
Proof. exact (missing_spec L s ty de top down po). Qed.
Print Assumptions C40_missing.

(** Nor is an unknown ramp type: it gives a down-ramp. *)
Theorem C40_ramp_type_refuted : exists ty, ty <> "upramp"%string /\ ty <> "downramp"%string /\
  forall L s de top down po, ramp L (PName s) ty de top down po = ramp L (PName s) "downramp" de top down po.
Proof. exists "Upramp"%string. split; [discriminate|]. split; [discriminate|]. reflexivity. Qed.
Print Assumptions C40_ramp_type_refuted.

Example C40_nonvacuous : exists f, ramp 2 (PName "gaussian") "downramp" None (Some 8) (Some 3) None = Some f /\
  f 0 = Some 8 /\ f 2 = Some 3 /\ exists v, f 1 = Some v /\ 3 < v < 8.
Proof.
  destruct (C40_downramp 2 "gaussian" 8 3 None) as (f & E & F0 & F2 & F); [right; right; reflexivity|lra|cbn; lra|].
  exists f. split; [exact E|]. split; [exact F0|]. split; [exact F2|].
  destruct (F 0 1) as (a & b & A & B & H); [lra|]. destruct (F 1 2) as (a' & b' & A' & B' & H'); [lra|].
  exists b. split; [exact B|]. rewrite F0 in A. rewrite F2 in B'. injection A as <-. injection B' as <-.
  rewrite B in A'. injection A' as <-. lra.
Qed.

(** ** C41: what the elements are made of *)
Section C41.
  Variable fld : Type.
  Variable wake : string -> density -> fld.
  Variables lens quad : R -> fld.
  Variables e m_e c eps0 : R.
  Let plasma_stage' := plasma_stage fld wake e m_e c eps0.
  Let lens' := active_plasma_lens fld wake lens e m_e c eps0.

  Definition known_model (s : string) : Prop :=
    s = "simple_blowout"%string \/ s = "custom_blowout"%string \/ s = "focusing_blowout"%string \/
    s = "cold_fluid_1d"%string \/ s = "quasistatic_2d"%string.
  Lemma known_iff s : existsb (String.eqb s) wakefield_models = true <-> known_model s.
  Proof.
    unfold known_model, wakefield_models. cbn [existsb]. rewrite !orb_true_iff, !String.eqb_eq.
    split; [intros H; repeat destruct H as [H|H]; auto; discriminate|tauto].
  Qed.

  (** The stage is created exactly if density and model are supported. *)
  Theorem C41_supported L d m ext :
    (exists s, plasma_stage' L d m ext = Some s) <->
    d <> DOther /\ (forall s, m = MName s -> known_model s).
  Proof.
    unfold plasma_stage', plasma_stage. split.
    - intros (st & H). destruct d; cbn in H; [| |discriminate]; (split; [discriminate|]); intros s ->; cbn in H;
        (destruct (existsb (String.eqb s) wakefield_models) eqn:E;
         [apply known_iff, E|cbn in E; unfold wakefield_models in H; cbn [existsb] in H; rewrite E in H; discriminate]).
    - intros [Hd Hm]. destruct d as [v|f|]; [| |congruence]; cbn [get_density_profile];
        (destruct m as [|g|s]; unfold get_wakefield; [eauto|eauto|]);
        rewrite (proj2 (known_iff s) (Hm s eq_refl)); eauto.
  Qed.

  (** Then the fields are those of the model, followed by the external ones in their order, and
      the density is the given function or number. *)
  Theorem C41_fields L d m ext s : plasma_stage' L d m ext = Some s ->
    exists f, s_density s = Some f /\ s_length s = L /\
      match d with DFloat v => forall z, f z = Some v | DFunction g => f = g | DOther => False end /\
      s_fields s = match m with
                   | MNone => ext
                   | MField w => w :: ext
                   | MName n => wake n f :: ext
                   end.
  Proof.
    unfold plasma_stage', plasma_stage. destruct (get_density_profile d) as [f|] eqn:E; [|discriminate].
    destruct (get_wakefield fld wake f m) as [w|] eqn:W; [|discriminate]. intros [= <-]. exists f.
    split; [reflexivity|]. split; [reflexivity|]. split.
    - destruct d; [injection E as <-; reflexivity|injection E as <-; reflexivity|discriminate].
    - cbn [s_fields]. destruct m as [|g|n]; cbn [get_wakefield] in W.
      + injection W as <-. reflexivity.
      + injection W as <-. reflexivity.
      + unfold get_wakefield in W. destruct (existsb _ _); [|discriminate]. injection W as <-. reflexivity.
  Qed.

  (** Ramps: a stage with the density of the ramp and no external fields. *)
  Theorem C41_ramp L p ty m de top down po :
    match ramp L p ty de top down po with
    | None => plasma_ramp fld wake e m_e c eps0 L p ty m de top down po = None
    | Some f => plasma_ramp fld wake e m_e c eps0 L p ty m de top down po = plasma_stage' L (DFunction f) m []
    end.
  Proof. unfold plasma_ramp. destruct (ramp L p ty de top down po); reflexivity. Qed.

  (** Active lens: the lens field is present in any case, the wakefields (before it) on request only. *)
  Theorem C41_lens_alone L k d m : d <> Some DOther ->
    exists s, lens' L k false d m = Some s /\ s_fields s = [lens (- k)] /\ s_length s = L /\
      s_auto s = linear_dt c k /\ (d = None -> forall z, option_map (fun n => n z) (s_density s) = Some (Some 0)).
  Proof.
    intros Hd. unfold lens', active_plasma_lens, plasma_stage.
    destruct d as [[v|f|]|]; [| |congruence|]; cbn; eexists; repeat split; discriminate.
  Qed.
  Theorem C41_lens_wakefields L k d m s : lens' L k true d m = Some s <->
    exists d', d = Some d' /\ plasma_stage' L d' m [lens (- k)] = Some s.
  Proof.
    unfold lens', active_plasma_lens. split.
    - destruct d as [d|]; [|discriminate]. unfold plasma_stage'. destruct (plasma_stage _ _ _ _ _ _ _ _ _ _) as [s'|] eqn:E; [|discriminate].
      intros [= <-]. exists d. split; [reflexivity|]. rewrite E. destruct s'; reflexivity.
    - intros (d' & -> & H). unfold plasma_stage' in H. rewrite H. destruct s; reflexivity.
  Qed.
  Theorem C41_lens_no_density L k m : lens' L k true None m = None.
  Proof. reflexivity. Qed.
  Theorem C41_quadrupole L k : let s := field_quadrupole fld quad c L k in
    s_length s = L /\ s_density s = None /\ s_fields s = [quad k] /\ s_auto s = linear_dt c k.
  Proof. repeat split. Qed.

  (** ** Automatic time steps: a tenth of the inverse frequency of the fastest oscillation *)
  Hypothesis He : 0 < e. Hypothesis Hm : 0 < m_e. Hypothesis Hc : 0 < c. Hypothesis Heps : 0 < eps0.

  (** Active lens and quadrupole. *)
  Theorem C41_linear_dt k q m pz dt : 0 < m -> 0 <= list_min pz -> pz <> [] ->
    linear_dt c k q m pz = Dt dt ->
    0 < dt /\
    (forall px py p, In p pz -> dt * oscillation q m (c * k) (lorentz (px, py, p)) <= 0.1) /\
    exists p, In p pz /\ dt * oscillation q m (c * k) (lorentz (0, 0, p)) = 0.1.
  Proof.
    intros Hq H0 Hz H. destruct (linear_spec c k q m pz dt Hq H) as (P & A & B).
    split; [exact P|]. split; [intros px py p; exact (A H0 px py p)|].
    exists (list_min pz). split; [apply list_min_in, Hz|]. rewrite <- B. f_equal. f_equal.
    unfold lorentz, min_gamma. f_equal. ring.
  Qed.
  Theorem C41_linear_dt_infinite k q m pz : 0 < m ->
    (linear_dt c k q m pz = Infinite <-> q = 0 \/ k = 0) /\ linear_dt c k q m pz <> Fails.
  Proof.
    intros Hq. unfold linear_dt, tenth_of_inverse.
    assert (G : 0 < min_gamma pz) by (unfold min_gamma; apply sqrt_lt_R0; pose proof (pow2_ge_0 (list_min pz)); lra).
    split; [|destruct (Req_EM_T _ _); discriminate].
    assert (E : sqrt (Rabs (q / m * c * k / min_gamma pz)) = 0 <-> q = 0 \/ k = 0).
    { split.
      - intros S. apply sqrt_eq_0 in S; [|apply Rabs_pos]. destruct (Req_EM_T (q / m * c * k / min_gamma pz) 0) as [Z|N]; [|exfalso; exact (Rabs_no_R0 _ N S)].
        destruct (Req_EM_T q 0) as [|Nq]; [left; assumption|]. destruct (Req_EM_T k 0) as [|Nk]; [right; assumption|].
        exfalso. revert Z. unfold Rdiv. repeat apply Rmult_integral_contrapositive_currified; auto using Rinv_neq_0_compat with real;
          try (apply Rinv_neq_0_compat); lra.
      - intros [->| ->]; [replace (0 / m * c * k / min_gamma pz) with 0 by (field; split; lra)|
                          replace (q / m * c * 0 / min_gamma pz) with 0 by (field; split; lra)]; rewrite Rabs_R0; apply sqrt_0. }
    destruct (Req_EM_T _ 0) as [Z|N]; split; intros H; try discriminate; try reflexivity.
    - apply E, Z. - exfalso. apply N, E, H.
  Qed.

  (** Plasma stages: for every particle and every one of the hundred sampled positions, with equality
      for the slowest particle at the highest sampled density. *)
  Theorem C41_stage_dt L d q m pz dt : 0 < m -> 0 <= list_min pz -> pz <> [] ->
    (forall z n, d z = Some n -> 0 < n) ->
    stage_dt e m_e c eps0 L d q m pz = Dt dt ->
    0 < dt /\
    (forall px py p i, In p pz -> (i <= 99)%nat -> exists n, d (INR i * (L / 99)) = Some n /\
       dt * oscillation q m (ion_gradient e eps0 n) (lorentz (px, py, p)) <= 0.1) /\
    exists p i n, In p pz /\ (i <= 99)%nat /\ d (INR i * (L / 99)) = Some n /\
       dt * oscillation q m (ion_gradient e eps0 n) (lorentz (0, 0, p)) = 0.1.
  Proof.
    intros Hq H0 Hz Hd H. destruct (stage_spec e m_e c eps0 He Hm Hc Heps L d q m pz dt Hq H) as (P & n_p & A & (i0 & I0 & B) & C).
    specialize (C (Hd _ _ B)). split; [exact P|]. split.
    - intros px py p i Hp Hi. destruct (A i Hi) as (n & En & Hn). exists n. split; [exact En|].
      rewrite <- C. apply Rmult_le_compat_l; [lra|]. apply oscillation_mono; auto.
      + apply lorentz_min; auto.
      + pose proof (Hd _ _ En). lra.
    - exists (list_min pz), i0, n_p. split; [apply list_min_in, Hz|]. split; [exact I0|]. split; [exact B|].
      rewrite <- C. f_equal. f_equal. unfold lorentz, min_gamma. f_equal. ring.
  Qed.

  (** Along the whole stage if the density is monotone, as in the ramps. *)
  Theorem C41_stage_dt_monotone L d q m pz dt : 0 < L -> 0 < m -> 0 <= list_min pz ->
    (forall z n, d z = Some n -> 0 < n) ->
    (forall z1 z2 n1 n2, 0 <= z1 <= z2 -> z2 <= L -> d z1 = Some n1 -> d z2 = Some n2 -> n1 <= n2) \/
    (forall z1 z2 n1 n2, 0 <= z1 <= z2 -> z2 <= L -> d z1 = Some n1 -> d z2 = Some n2 -> n2 <= n1) ->
    stage_dt e m_e c eps0 L d q m pz = Dt dt ->
    forall px py p z n, In p pz -> 0 <= z <= L -> d z = Some n ->
      dt * oscillation q m (ion_gradient e eps0 n) (lorentz (px, py, p)) <= 0.1.
  Proof.
    intros HL Hq H0 Hd Hmono H px py p z n Hp Hz Hn.
    destruct (stage_spec e m_e c eps0 He Hm Hc Heps L d q m pz dt Hq H) as (P & n_p & A & (i0 & I0 & B) & C).
    specialize (C (Hd _ _ B)). rewrite <- C. apply Rmult_le_compat_l; [lra|]. apply oscillation_mono; auto; [apply lorentz_min; auto|].
    split; [pose proof (Hd _ _ Hn); lra|]. destruct Hmono as [M|M].
    - destruct (A 99%nat ltac:(lia)) as (n9 & E9 & L9). 
      replace (INR 99 * (L / 99)) with L in E9 by (replace (INR 99) with 99 by (rewrite INR_IZR_INZ; reflexivity); field).
      pose proof (M z L n n9 ltac:(lra) ltac:(lra) Hn E9). lra.
    - destruct (A 0%nat ltac:(lia)) as (n9 & E9 & L9). replace (INR 0 * (L / 99)) with 0 in E9 by (cbn; ring).
      pose proof (M 0 z n9 n ltac:(lra) ltac:(lra) E9 Hn). lra.
  Qed.

  (** But not in general: a peak of density between the samples is missed. *)
  Theorem C41_stage_dt_refuted q : q <> 0 -> exists L d m pz dt z n p,
    0 < L /\ 0 < m /\ In p pz /\ 0 <= list_min pz /\ 0 <= z <= L /\ d z = Some n /\
    (forall z n, d z = Some n -> 0 < n) /\
    stage_dt e m_e c eps0 L d q m pz = Dt dt /\
    0.1 < dt * oscillation q m (ion_gradient e eps0 n) (lorentz (0, 0, p)).
  Proof.
    intros Nq. set (d := fun z => if Req_EM_T z (/ 2) then Some 4 else Some 1).
    assert (D1 : all_some (map d (samples 1)) = Some (repeat 1 100)).
    { unfold samples. rewrite map_map. replace (map _ (seq 0 100)) with (map (fun _ : nat => Some 1) (seq 0 100)); [cbn; reflexivity|].
      apply map_ext_in. intros i Hi. apply in_seq in Hi. unfold d. destruct (Req_EM_T _ _) as [E|]; [|reflexivity]. exfalso.
      assert (F : (2 * INR i = 99)%R) by lra. 
      replace 2%R with (INR 2) in F by (cbn; lra). rewrite <- mult_INR in F.
      replace 99%R with (INR 99) in F by (rewrite INR_IZR_INZ; reflexivity). apply INR_eq in F. lia. }
    assert (M1 : list_max (repeat 1 100) = 1).
    { assert (X : In (list_max (repeat 1 100)) (repeat 1 100)) by (apply list_max_in; discriminate). apply repeat_spec in X. exact X. }
    assert (DN : d (/ 2) = Some 4) by (unfold d; destruct (Req_EM_T (/ 2) (/ 2)); [reflexivity|congruence]).
    assert (DP : forall z n, d z = Some n -> 0 < n) by (intros z n; unfold d; destruct (Req_EM_T _ _); intros [= <-]; lra).
    assert (S : exists dt, stage_dt e m_e c eps0 1 d q 1 [1] = Dt dt).
    { unfold stage_dt. rewrite D1. unfold tenth_of_inverse. destruct (Req_EM_T _ 0) as [Z|N]; [exfalso|eauto].
      apply sqrt_eq_0 in Z; [|apply Rabs_pos]. revert Z. apply Rabs_no_R0. rewrite M1.
      assert (G : 0 < min_gamma [1]) by (unfold min_gamma; apply sqrt_lt_R0; pose proof (pow2_ge_0 (list_min [1])); lra).
      assert (W : 0 < e ^ 2 / (m_e * eps0)) by (apply Rdiv_lt_0_compat; [apply pow_lt, He|apply Rmult_lt_0_compat; lra]).
      rewrite Rmult_1_l, pow2_sqrt by lra.
      assert (W2 : 0 < m_e / (2 * e * c)) by (apply Rdiv_lt_0_compat; [lra|repeat apply Rmult_lt_0_compat; lra]).
      set (W3 := m_e / (2 * e * c)) in *. set (W4 := e ^ 2 / (m_e * eps0)) in *.
      replace (q / 1 * c * (W3 * W4) / min_gamma [1]) with (q * (c * (W3 * W4) / min_gamma [1])) by (field; lra).
      apply Rmult_integral_contrapositive_currified; [exact Nq|]. apply Rgt_not_eq, Rdiv_lt_0_compat; [|exact G].
      apply Rmult_lt_0_compat; [exact Hc|apply Rmult_lt_0_compat; assumption]. }
    destruct S as (dt & S). exists 1, d, 1, [1], dt, (/ 2), 4, 1.
    split; [lra|]. split; [lra|]. split; [left; reflexivity|]. split; [cbn; lra|]. split; [lra|]. split; [exact DN|]. split; [exact DP|].
    split; [exact S|].
    destruct (stage_spec e m_e c eps0 He Hm Hc Heps 1 d q 1 [1] dt Rlt_0_1 S) as (P & n_p & _ & (i & Hi & Ei) & C).
    assert (n_p = 1).
    { pose proof (in_map d _ _ (sample_in 1 i Hi)) as X. apply all_some_eq in D1. rewrite D1, Ei in X.
      apply in_map_iff in X as (v & Ev & Hv). apply repeat_spec in Hv. congruence. }
    subst n_p. specialize (C Rlt_0_1).
    replace (oscillation q 1 (ion_gradient e eps0 4) (lorentz (0, 0, 1))) with (2 * oscillation q 1 (ion_gradient e eps0 1) (min_gamma [1])); [lra|].
    unfold oscillation. rewrite <- (sqrt_square 2) at 1 by lra. rewrite <- sqrt_mult_alt by lra. f_equal.
    replace (lorentz (0, 0, 1)) with (min_gamma [1]) by (unfold lorentz, min_gamma; cbn [list_min fold_left]; f_equal; ring).
    assert (G : 0 < min_gamma [1]) by (unfold min_gamma; apply sqrt_lt_R0; pose proof (pow2_ge_0 (list_min [1])); lra).
    replace (q * ion_gradient e eps0 4) with ((2 * 2) * (q * ion_gradient e eps0 1)) by (unfold ion_gradient; field; lra).
    rewrite (Rabs_mult (2 * 2)), (Rabs_right (2 * 2)) by lra. field. lra.
  Qed.
End C41.
Print Assumptions C41_supported. Print Assumptions C41_fields. Print Assumptions C41_ramp.
Print Assumptions C41_lens_alone. Print Assumptions C41_lens_wakefields. Print Assumptions C41_lens_no_density.
Print Assumptions C41_quadrupole. Print Assumptions C41_linear_dt. Print Assumptions C41_linear_dt_infinite.
Print Assumptions C41_stage_dt. Print Assumptions C41_stage_dt_monotone. Print Assumptions C41_stage_dt_refuted.

Example C41_nonvacuous : exists s, plasma_stage nat (fun _ _ => 7%nat) 1 1 1 1 2 (DFloat 3) (MName "quasistatic_2d") [8%nat] = Some s /\
  s_fields s = [7; 8]%nat /\ exists dt, s_auto s 1 1 [1] = Dt dt.
Proof.
  eexists. split; [reflexivity|]. split; [reflexivity|]. cbn [s_auto]. unfold stage_dt.
  replace (all_some (map (fun _ : R => Some 3) (samples 2))) with (Some (repeat 3 100)) by (unfold samples; cbn; reflexivity).
  assert (M1 : list_max (repeat 3 100) = 3).
  { assert (X : In (list_max (repeat 3 100)) (repeat 3 100)) by (apply list_max_in; discriminate). apply repeat_spec in X. exact X. }
  rewrite M1. unfold tenth_of_inverse. destruct (Req_EM_T _ 0) as [Z|N]; [exfalso|eauto].
  apply sqrt_eq_0 in Z; [|apply Rabs_pos]. revert Z. apply Rabs_no_R0.
  rewrite pow2_sqrt by lra. unfold min_gamma. cbn [list_min fold_left].
  assert (G : 0 < sqrt (1 ^ 2 + 1)) by (apply sqrt_lt_R0; lra).
  apply Rgt_not_eq. apply Rdiv_lt_0_compat; lra.
Qed.

(** ** C76: the clock of numerical fields *)
Open Scope Q_scope.

(** The time step of a new field: the length of the box unless given, over c. Even number of updates
    exactly if there is a laser. *)
Theorem C76_created xi_min xi_max dz laser ev : let f := rz_new xi_min xi_max dz laser ev in
  rz_dt f == match dz with Some d => d | None => xi_max - xi_min end / 299792458 /\
  (rz_even f = true <-> laser <> None) /\ rz_init f = false /\ rz_t f == 0 /\ rz_z f == 0 /\
  rz_laser f = laser /\ rz_evolution f = ev.
Proof. cbv zeta. destruct dz, laser; cbn; repeat split; try reflexivity; try discriminate; congruence. Qed.
Print Assumptions C76_created.

Section C76.
  Variable B : Type.
  Variable evolve : list rzfield -> B -> Q -> Q -> B.
  Variable auto_dt : B -> Q.
  Variable copy : B -> B.
  Let run := do_tracking B (list rzfield) evolve update_at auto_dt copy exact.
  Let replay := replay B (list rzfield) evolve update_at.
  Let after (T : Q) (fs : list rzfield) (bs : list B) (l : list (event B)) : list rzfield :=
    fst (replay l (map (rz_adjust T) fs, bs)).

  (** Whenever field j of an element that has not been used before is updated at tracking time t,
      it is computed for time t with the density at t c, and its laser has been evolved up to t
      in steps of the (adjusted) field step. *)
  Theorem C76_synchronous (c : config) (bs0 : list B) fs0 m fuel s j t l1 l2 f :
    good_config c bs0 -> bounded_below auto_dt m ->
    c_fields c = declared fs0 -> nth_error fs0 j = Some f -> rz_init f = false ->
    run fuel c bs0 (map (rz_adjust (c_tfinal c)) fs0) = Done s ->
    log s = (l1 ++ EField j t :: l2)%list ->
    exists g, nth_error (after (c_tfinal c) fs0 bs0 (l1 ++ [EField j t])) j = Some g /\
      rz_t g == t /\ rz_z g == t * 299792458 /\
      match rz_laser f with
      | None => rz_laser g = None
      | Some _ => exists l, rz_laser g = Some l /\
          lc_dt l = adjust_dt (rz_even f) (c_tfinal c) (rz_dt f) /\
          lc_time l == if rz_evolution f then t else 0
      end.
  Proof.
    intros Hg Ha Hc Hf Hi Hr Hl.
    destruct (clock_spec B evolve auto_dt copy c bs0 fs0 m fuel s j t l1 l2 f Hg Ha Hc Hf Hr Hl) as [R1 R2].
    set (k := length (field_times j l1)) in *. eexists. split; [exact R1|].
    destruct (updated_fresh k (rz_adjust (c_tfinal c) f) Hi) as (U1 & U2 & U3).
    cbn [rz_adjust rz_dt rz_laser rz_evolution] in U1, U2, U3.
    split; [rewrite U1, R2; reflexivity|]. split; [rewrite U2, R2; reflexivity|].
    destruct (rz_laser f) as [l0|]; [|exact U3]. destruct U3 as (l & E & L1 & L2). exists l.
    split; [exact E|]. split; [exact L1|]. rewrite L2. destruct (rz_evolution f); [rewrite R2|]; reflexivity.
  Qed.

  (** For the k-th of its steps the laser is given the density at the beginning of that step. *)
  Theorem C76_laser_density (c : config) (bs0 : list B) fs0 m fuel s j t l1 l2 f l0 :
    good_config c bs0 -> bounded_below auto_dt m ->
    c_fields c = declared fs0 -> nth_error fs0 j = Some f -> rz_init f = false ->
    rz_laser f = Some l0 -> rz_evolution f = true ->
    run fuel c bs0 (map (rz_adjust (c_tfinal c)) fs0) = Done s ->
    log s = (l1 ++ EField j t :: l2)%list ->
    exists g l, nth_error (after (c_tfinal c) fs0 bs0 (l1 ++ [EField j t])) j = Some g /\
      rz_laser g = Some l /\
      nQ (length (lc_z l)) * lc_dt l == t /\
      forall k, (k < length (lc_z l))%nat -> nth k (lc_z l) 0 == nQ k * lc_dt l * 299792458.
  Proof.
    intros Hg Ha Hc Hf Hi Hl0 He Hr Hl.
    destruct (clock_spec B evolve auto_dt copy c bs0 fs0 m fuel s j t l1 l2 f Hg Ha Hc Hf Hr Hl) as [R1 R2].
    set (k := length (field_times j l1)) in *.
    destruct (updated_seen k (rz_adjust (c_tfinal c) f) l0 Hi Hl0 He) as (l & E & L1 & L2).
    destruct (updated_fresh k (rz_adjust (c_tfinal c) f) Hi) as (_ & _ & U3). cbn [rz_adjust rz_laser] in U3.
    rewrite Hl0 in U3. destruct U3 as (l' & E' & D & _). rewrite E in E'. injection E' as <-.
    eexists. exists l. split; [exact R1|]. split; [exact E|]. rewrite D, L1. cbn [rz_adjust rz_dt] in *.
    split; [rewrite R2; reflexivity|exact L2].
  Qed.

  (** In exact arithmetic the number of updates is that of [adjust_dt]: the adjusted step divides the
      length of the element. *)
  Theorem C76_last_update (c : config) (bs0 : list B) fs0 m fuel s j f :
    good_config c bs0 -> bounded_below auto_dt m ->
    c_fields c = declared fs0 -> nth_error fs0 j = Some f -> rz_init f = false ->
    run fuel c bs0 (map (rz_adjust (c_tfinal c)) fs0) = Done s ->
    exists g, nth_error (fs s) j = Some g /\
      rz_t g <= c_tfinal c /\ c_tfinal c < rz_t g + adjust_dt (rz_even f) (c_tfinal c) (rz_dt f) /\
      (rz_even f = true -> rz_t g == c_tfinal c).
  Proof.
    intros Hg Ha Hc Hf Hi Hr.
    destruct (end_of_run B evolve auto_dt copy c bs0 fs0 m fuel s j f Hg Ha Hc Hf Hr) as (n & E & N1 & N2). cbv zeta in *.
    eexists. split; [exact E|].
    destruct (updated_fresh n (rz_adjust (c_tfinal c) f) Hi) as (U1 & _). cbn [rz_adjust rz_dt] in U1. rewrite U1.
    set (d := adjust_dt (rz_even f) (c_tfinal c) (rz_dt f)) in *.
    split; [exact N1|]. rewrite nQ_S in N2. split; [Lqa.lra|].
    intros Hev. unfold d in *. rewrite Hev in *.
    assert (T0 : 0 < c_tfinal c) by (destruct Hg as (G1 & _); exact G1).
    assert (P0 : 0 < rz_dt f).
    { destruct Hg as (_ & _ & _ & G4). apply (G4 _ (rz_even f)). rewrite Hc. unfold declared.
      apply (in_map (fun f => (rz_dt f, rz_even f))). eapply nth_error_In. exact Hf. }
    destruct (adjust_lemma (c_tfinal c) (rz_dt f) T0 P0) as (kk & K1 & K2 & _).
    clear d. set (d := adjust_dt true (c_tfinal c) (rz_dt f)) in *.
    assert (D : 0 < d) by (unfold d; apply adjust_pos; assumption).
    assert (KN : kk = n \/ kk <> n) by (destruct (Nat.eq_dec kk n); auto). destruct KN as [->|KN]; [exact K2|]. exfalso.
    assert (A : nQ n * d < nQ (S kk) * d) by (rewrite nQ_S; unfold nQ in *; Lqa.lra).
    assert (A2 : nQ kk * d < nQ (S n) * d) by (rewrite (nQ_S n); unfold nQ in *; Lqa.lra).
    apply Qmult_lt_r in A; [|exact D]. apply Qmult_lt_r in A2; [|exact D].
    unfold nQ in A, A2. rewrite <- Zlt_Qlt in A, A2. lia.
  Qed.

  (** C39: an element that has been used before continues from where it stopped: in every update
      of the second run the density is taken beyond the end of the element, and the field at
      time t is not that of time t. *)
  Theorem C39_plasma_refuted (c c' : config) (bs0 bs1 : list B) fs0 m fuel fuel' s s' j f t l1 l2 :
    good_config c bs0 -> good_config c' bs1 -> bounded_below auto_dt m ->
    c_tfinal c' = c_tfinal c ->
    c_fields c = declared fs0 -> nth_error fs0 j = Some f -> rz_init f = false ->
    run fuel c bs0 (map (rz_adjust (c_tfinal c)) fs0) = Done s ->
    c_fields c' = declared (fs s) ->
    run fuel' c' bs1 (map (rz_adjust (c_tfinal c')) (fs s)) = Done s' ->
    log s' = (l1 ++ EField j t :: l2)%list ->
    exists g, nth_error (after (c_tfinal c') (fs s) bs1 (l1 ++ [EField j t])) j = Some g /\
      t < rz_t g /\ c_tfinal c * 299792458 < rz_z g.
  Proof.
    intros Hg Hg' Ha HT Hc Hf Hi Hr Hc' Hr' Hl.
    destruct (second_run B evolve auto_dt copy c c' bs0 bs1 fs0 m fuel fuel' s s' j f t l1 l2 Hg Hg' Ha HT Hc Hf Hi Hr Hc' Hr' Hl) as (g & E & T1 & Z).
    assert (T0 : 0 < c_tfinal c) by (destruct Hg as (G1 & _); exact G1).
    destruct (clock_spec B evolve auto_dt copy c' bs1 (fs s) m fuel' s' j t l1 l2) with (f := nth j (fs s) f) as [_ R2]; auto.
    { destruct (end_of_run B evolve auto_dt copy c bs0 fs0 m fuel s j f Hg Ha Hc Hf Hr) as (n & E0 & _).
      apply nth_error_nth' . apply nth_error_Some. congruence. }
    assert (T2 : 0 <= t).
    { rewrite R2. apply Qmult_le_0_compat; [|].
      - unfold nQ. change 0 with (inject_Z 0). rewrite <- Zle_Qle. lia.
      - destruct (end_of_run B evolve auto_dt copy c bs0 fs0 m fuel s j f Hg Ha Hc Hf Hr) as (n & E0 & _).
        apply Qlt_le_weak. apply adjust_pos; [rewrite HT; exact T0|].
        destruct Hg' as (_ & _ & _ & G4). apply (G4 _ (rz_even (nth j (fs s) f))). rewrite Hc'. unfold declared.
        apply (in_map (fun f => (rz_dt f, rz_even f))). apply nth_In. apply nth_error_Some. congruence. }
    exists g. split; [exact E|]. split; [Lqa.lra|]. rewrite Z. unfold c_light. Lqa.lra.
  Qed.
End C76.
Print Assumptions C76_synchronous. Print Assumptions C76_laser_density. Print Assumptions C76_last_update.
Print Assumptions C39_plasma_refuted.

(** In binary64 adjusting the step twice can change it: a second use of the same element has one
    update more. *)
Theorem C76_rounding_refuted : exists T d, 0 < T /\ 0 < d /\ T == Model_CSR.f64 T /\
  let d1 := adjust_dt_rnd Model_CSR.f64 T d in
  let d2 := adjust_dt_rnd Model_CSR.f64 T d1 in
  Qceiling (Model_CSR.f64 (T / d)) = 49%Z /\ Qceiling (Model_CSR.f64 (T / d1)) = 50%Z /\ d2 < d1.
Proof. exact adjust_rounding. Qed.
Print Assumptions C76_rounding_refuted.

(** A run with one bunch and one field with laser, and a second run with the same field. *)
Definition ex_field : rzfield := rz_new (- 40) 0 (Some (299792458 * 3)) (Some (mklc 0 0 [])) true.
Definition ex_config (fs : list rzfield) : config :=
  Build_config 10 [Some 4] (declared fs) 1%nat true.
Definition ex_run (fs : list rzfield) :=
  do_tracking Q (list rzfield) (fun _ b _ d => b + d) update_at (fun _ => 1) (fun b => b) exact 100 (ex_config fs) [0]
    (map (rz_adjust 10) fs).
Example C76_nonvacuous : exists s s', ex_run [ex_field] = Done s /\ ex_run (fs s) = Done s' /\
  length (field_times 0 (log s)) = 5%nat /\ length (field_times 0 (log s')) = 5%nat.
Proof.
  destruct (ex_run [ex_field]) as [s|s|e s] eqn:E; [vm_compute in E; discriminate| |vm_compute in E; discriminate].
  exists s. destruct (ex_run (fs s)) as [s'|s'|e s'] eqn:E'; [| |]; vm_compute in E; injection E as <-; vm_compute in E'; try discriminate.
  exists s'. injection E' as <-. repeat split.
Qed.
