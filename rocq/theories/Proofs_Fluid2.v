(** Proofs: the fields of the cold fluid model. *)
From Coq Require Import Reals ZArith String List Bool Arith Lia Lra.
From Coquelicot Require Import Coquelicot.
From Verif Require Import Model_Push Model_Interp Spec_Interp Proofs_Interp Model_Deposit Spec_Deposit Proofs_Deposit
  Model_QS Spec_QS Proofs_QS4 Proofs_QS6 Proofs_QS7 Model_Fluid Spec_Fluid Proofs_Fluid.
Import ListNotations.
Open Scope R_scope.

Lemma gradient_unit f M w s k : 0 < s -> 0 < w -> gradient2 f M (w / s) k = s * gradient2 f M w k.
Proof.
  intros S P. unfold gradient2. destruct (Z.eqb k 0); [field; lra|]. destruct (Z.eqb k (M - 1)); field; lra.
Qed.
Lemma gradient_scale f c M w k : gradient2 (fun i => c * f i) M w k = c * gradient2 f M w k.
Proof. unfold gradient2. destruct (Z.eqb k 0); [unfold Rdiv; ring|]. destruct (Z.eqb k (M - 1)); unfold Rdiv; ring. Qed.
Lemma inner_outer n m v (g : dgrid) i j : n = dg_nz g -> m = dg_nr g -> ~ inner_cell g i j -> cell (inner_part n m v) i j = 0.
Proof.
  intros -> -> H. unfold inner_part; cbn [cell].
  destruct (Z.leb_spec 2 i), (Z.ltb_spec i (dg_nz g + 2)), (Z.leb_spec 2 j), (Z.ltb_spec j (dg_nr g + 2)); cbn [andb]; try reflexivity.
  exfalso. apply H. unfold inner_cell. lia.
Qed.
(** The electrons. *)
Lemma electron_values a psi u gamma : 1 + psi <> 0 -> electron a psi u gamma ->
  gamma = fluid_gamma a psi /\ u = fluid_uz a psi /\ gamma <> 0.
Proof.
  intros P [E1 E2]. assert (E3 : (gamma + u) * (1 + psi) = 1 + a ^ 2) by (rewrite <- E2; nra).
  assert (E4 : gamma + u = (1 + a ^ 2) / (1 + psi)) by (rewrite <- E3; field; exact P).
  assert (Q : gamma = ((1 + a ^ 2) / (1 + psi) + (1 + psi)) / 2) by lra.
  assert (Q' : u = ((1 + a ^ 2) / (1 + psi) - (1 + psi)) / 2) by lra.
  repeat split.
  - rewrite Q. unfold fluid_gamma. field. exact P.
  - rewrite Q'. unfold fluid_uz. field. exact P.
  - intros ->. nra.
Qed.
Lemma electron_exists a psi : 1 + psi <> 0 -> electron a psi (fluid_uz a psi) (fluid_gamma a psi).
Proof. intros P. unfold electron, fluid_gamma, fluid_uz. split; field; exact P. Qed.

Section Run.
  Variables (skin_depth wave_breaking : R -> R) (e light : R) (W : fluid).
  Hypothesis D3 : domain 3 W.
  Let D : domain 2 W.
  Proof. unfold domain in *. intuition lia. Qed.
  Let s := skin_depth (c_np W / 1000000).
  Let E0 := wave_breaking (c_np W / 1000000).
  Hypothesis S : 0 < s.
  Hypothesis L : light <> 0.

  Lemma fields_lemma nb psi :
    exists F, fluid_fields skin_depth wave_breaking light W nb psi = Returned (Ok F) /\
      (forall bunches, bunch_density s e W bunches nb -> potential s W (a_env W) nb psi ->
         solution s E0 e light W bunches F (a_env W) nb psi).
  Proof.
    pose proof (steps_pos W D) as [P1 P2]. assert (N : (3 <= c_nxi W /\ 3 <= c_nr W)%Z) by (destruct D3 as (_ & _ & X & Y & _); lia).
    unfold fluid_fields. destruct (Z.ltb_spec (c_nxi W) 3); [lia|]. destruct (Z.ltb_spec (c_nr W) 3); [lia|]. cbn [orb].
    cbv zeta. rewrite micro. eexists. split; [reflexivity|]. intros bunches Hb Hp.
    rewrite (dz_eq skin_depth W), (dr_eq skin_depth W). fold s. fold E0.
    assert (Gz : forall f k, gradient2 f (c_nxi W) (step_xi W / s) k = s * gradient2 f (c_nxi W) (step_xi W) k) by (intros; apply gradient_unit; assumption).
    assert (Gr : forall f k, gradient2 f (c_nr W) (step_r W / s) k = s * gradient2 f (c_nr W) (step_r W) k) by (intros; apply gradient_unit; assumption).
    assert (G : forall a p, 1 + p <> 0 -> fluid_gamma a p <> 0).
    { intros a p H'. unfold fluid_gamma, Rdiv. intros Q. apply Rmult_integral in Q as [Q|Q]; [nra|]. revert Q. apply Rinv_neq_0_compat. lra. }
    constructor.
    - apply strength_lemma.
    - exact Hb.
    - exact Hp.
    - cbn [h_rho h_chi h_er h_ez h_bt]. split; [repeat constructor|]; intros i' j' H'.
      repeat (apply List.Forall_cons; [apply (inner_outer _ _ _ (fluid_grid s W)); [reflexivity|reflexivity|exact H']|]). constructor.
    - cbn [h_chi]. intros i j [I J] H'. rewrite inner_part_inner by assumption. specialize (G (a_env W i j) (psi i j) H'). field. split; assumption.
    - cbn [h_chi h_rho]. intros i j u gamma [I J] H' El. destruct (electron_values _ _ _ _ H' El) as (-> & -> & G'). rewrite !inner_part_inner by assumption.
      specialize (G (a_env W i j) (psi i j) H'). split; [|field; split; assumption].
      assert (Q : fluid_uz (a_env W i j) (psi i j) = fluid_gamma (a_env W i j) (psi i j) - (1 + psi i j)) by (unfold fluid_uz, fluid_gamma; field; exact H').
      rewrite Q. field. split; assumption.
    - cbn [h_ez]. intros i j [I J]. rewrite inner_part_inner by assumption. rewrite Gz. unfold d_xi. ring.
    - cbn [h_er h_bt]. intros i j [I J]. rewrite !inner_part_inner by assumption. rewrite Gr. unfold d_r.
      match goal with |- (_ + ?B) * E0 - light * (?B * E0 / light) = _ => generalize B end. intros B. field. exact L.
    - cbn [h_ez h_rho h_bt]. intros i j u gamma [I J] El. rewrite !inner_part_inner by assumption.
      set (cur k := E0 / s * (gradient2 (fun i => - gradient2 (fun i => psi i k) (c_nxi W) (step_xi W / s) i) (c_nxi W) (step_xi W / s) i
                     - fluid_gamma (a_env W i k) (psi i k) / (1 + psi i k) * (fluid_uz (a_env W i k) (psi i k) / fluid_gamma (a_env W i k) (psi i k)) + nb i k)).
      assert (Hc : forall k, (0 <= k < c_nr W)%Z ->
         d_xi W (inner (inner_part (c_nxi W) (c_nr W) (fun i j => - gradient2 (fun i => psi i j) (c_nxi W) (step_xi W / s) i * E0))) i k
         + E0 / s * (nb i k - inner (inner_part (c_nxi W) (c_nr W) (fun i j => fluid_gamma (a_env W i j) (psi i j) / (1 + psi i j))) i k * (u k / gamma k)) = cur k).
      { intros k K. unfold d_xi. rewrite (gradient2_ext _ (fun i => E0 * - gradient2 (fun i => psi i k) (c_nxi W) (step_xi W / s) i)); [|lia|exact I|].
        2:{ intros m M. rewrite inner_part_inner by assumption. ring. }
        rewrite gradient_scale, inner_part_inner by assumption. destruct (El k K) as [H' El']. destruct (electron_values _ _ _ _ H' El') as (-> & -> & _).
        unfold cur. rewrite (Gz (fun i => - gradient2 (fun i => psi i k) (c_nxi W) (step_xi W / s) i)). field. repeat split; try lra; try exact H'; apply G; exact H'. }
      unfold disk. rewrite Hc by lia. rewrite (sum_range_ext j _ (fun k => cur k * ((IZR k + / 2) * step_r W) * step_r W)).
      2:{ intros k K. rewrite Hc by lia. reflexivity. }
      set (h k := (gradient2 (fun i => - gradient2 (fun i => psi i k) (c_nxi W) (step_xi W / s) i) (c_nxi W) (step_xi W / s) i
                     - fluid_gamma (a_env W i k) (psi i k) / (1 + psi i k) * (fluid_uz (a_env W i k) (psi i k) / fluid_gamma (a_env W i k) (psi i k)) + nb i k) * p_r skin_depth W k).
      change (light * ((cumsum (fun k => h (Z.of_nat k)) (Z.to_nat j) - h j / 2) * (step_r W / s) / Rabs (p_r skin_depth W j) * E0 / light) *
        ((IZR j + / 2) * step_r W) = sum_range j (fun k => cur k * ((IZR k + / 2) * step_r W) * step_r W) + cur j * ((IZR j + / 2) * step_r W) * step_r W / 2).
      rewrite (cumsum_sum h), Z2Nat.id by lia.
      assert (Hh : forall k, cur k * ((IZR k + / 2) * step_r W) * step_r W = E0 * step_r W * h k).
      { intros k. unfold cur, h. rewrite (r_eq skin_depth W D S). fold s.
        match goal with |- E0 / s * ?X * _ * _ = E0 * _ * (?X * _) => generalize X end. intros X. field. lra. }
      rewrite (sum_range_ext j (fun k => cur k * ((IZR k + / 2) * step_r W) * step_r W) (fun k => E0 * step_r W * h k)) by (intros; apply Hh). rewrite sum_range_scal, Hh.
      rewrite (r_eq skin_depth W D S). fold s. assert (0 <= IZR j) by (apply IZR_le; lia). assert (0 < step_r W / s) by (apply Rdiv_lt_0_compat; assumption).
      rewrite Rabs_right by (apply Rle_ge, Rmult_le_pos; lra). field. repeat split; lra.
  Qed.
  Lemma solution_lemma bunches : exists F n psi,
    fluid_wakefield skin_depth wave_breaking e light W bunches = Returned (Ok F) /\
    solution s E0 e light W bunches F (a_env W) n psi.
  Proof.
    unfold fluid_wakefield. destruct (bunches_lemma skin_depth e W D S bunches) as (N & -> & Hb). cbn [cbind].
    destruct (potential_lemma skin_depth W D S (beam_hist skin_depth W N)) as (l & -> & Hp). cbn [cbind].
    destruct (fields_lemma (beam_hist skin_depth W N) (u_1 W l)) as (F & EF & HF).
    exists F, (beam_hist skin_depth W N), (u_1 W l). split; [exact EF|]. apply HF; assumption.
  Qed.
End Run.
