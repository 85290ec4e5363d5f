(** Proofs: the field of bunches outside of their charge; the calculation of wakefields. *)
From Coq Require Import Reals ZArith String List Bool Arith Lia Lra Permutation.
From Verif Require Import Model_Push Model_Interp Spec_Interp Proofs_Interp Model_Deposit Spec_Deposit Proofs_Deposit
  Model_Psi Proofs_Psi5 Model_BTheta Model_QS Spec_QS Proofs_QS Proofs_QS2 Proofs_QS3 Proofs_QS4.
Import ListNotations.
Open Scope R_scope.

Lemma sum_range_split n m f : (0 <= m <= n)%Z -> (forall i, (m <= i < n)%Z -> f i = 0) -> sum_range n f = sum_range m f.
Proof.
  intros [M0 Mn]. revert n Mn. apply (Zlt_lower_bound_ind (fun n => (forall i, (m <= i < n)%Z -> f i = 0) -> sum_range n f = sum_range m f)).
  intros n IH N H. destruct (Z.eq_dec n m) as [->|E]; [reflexivity|].
  replace n with (n - 1 + 1)%Z by lia. rewrite sum_range_S by lia. rewrite IH, H by (lia || (intros; apply H; lia)). ring.
Qed.
Lemma sum_range_front n f : (0 <= n)%Z -> sum_range (n + 1) f = f 0%Z + sum_range n (fun i => f (i + 1)%Z).
Proof.
  intros N. revert n N. apply natlike_ind.
  - rewrite (sum_range_S 0) by lia. rewrite !sum_range_0. ring.
  - intros n N IH. unfold Z.succ. rewrite sum_range_S by lia. rewrite IH. rewrite sum_range_S by lia. ring.
Qed.
Lemma sum_range_inner n f : (0 <= n)%Z -> (forall i, (i < 2 \/ n + 2 <= i)%Z -> f i = 0) ->
  sum_range (n + 4) f = sum_range n (fun i => f (i + 2)%Z).
Proof.
  intros N H. rewrite (sum_range_split (n + 4) (n + 2)) by (lia || (intros; apply H; lia)).
  replace (n + 2)%Z with (n + 1 + 1)%Z by lia. rewrite sum_range_front by lia.
  rewrite sum_range_front by lia. rewrite (H 0%Z), (H (0 + 1)%Z) by lia. rewrite !Rplus_0_l. apply sum_range_ext.
  intros i _. f_equal. lia.
Qed.

Section Outside.
  Variables (skin_depth : R -> R) (charge_e n_p : R) (g : dgrid) (shape : string).
  Hypothesis Hs : shape_name shape.
  Hypothesis Hg : dgrid_ok g.
  Let units := normalized (skin_depth (n_p / 1000000)) n_p charge_e g.
  Lemma outside_lemma bunches b b' : darray g b -> 
    beam_sources skin_depth charge_e n_p g shape bunches b = Returned (Ok b') ->
    exists rho, deposit_3d_distribution g shape true (map units (concat bunches)) (zeros g) = Returned (Ok rho) /\
    (forall i j, in_grid g i j -> inner b' i j = inner b i j + enclosed rho i j * dg_dr g / cell_radius g j) /\
    forall j, (0 <= j < dg_nr g)%Z ->
    (forall p w, In (p, w) (map units (concat bunches)) -> radius p + 2 * dg_dr g <= cell_radius g j) ->
    (forall i, (0 <= i < dg_nz g)%Z ->
       inner b' i j - inner b i j = sum_range (dg_nr g) (inner rho i) * dg_dr g / cell_radius g j) /\
    (guarded_grid g shape ->
     sum_range (dg_nz g) (fun i => inner b' i j - inner b i j) =
     charge_inside g (map units (concat bunches)) * dg_dr g / cell_radius g j).
  Proof.
    intros B E. destruct (source_lemma skin_depth charge_e n_p g shape Hs Hg (concat bunches) b B) as (rho & _ & Er & _ & _ & Dr & _).
    fold units in Er. exists rho. split; [exact Er|].
    destruct (sources_lemma skin_depth charge_e n_p g shape Hs Hg bunches b B) as (c & Ec & _ & V & _).
    rewrite E in Ec. injection Ec as <-. 
    assert (V' : forall i j, in_grid g i j -> inner b' i j = inner b i j + enclosed rho i j * dg_dr g / cell_radius g j).
    { intros i j I. rewrite V by exact I. do 3 f_equal. apply enclosed_ext. intros k. symmetry. apply Dr. }
    split; [exact V'|]. intros j J H.
    assert (Z : forall i k, (j <= k)%Z -> inner rho i k = 0).
    { intros i k K. rewrite Dr. apply (D_beyond skin_depth charge_e n_p g shape Hg j); assumption. }
    assert (S : forall i, (0 <= i < dg_nz g)%Z -> inner b' i j - inner b i j = sum_range (dg_nr g) (inner rho i) * dg_dr g / cell_radius g j).
    { intros i I. rewrite V' by (split; assumption). unfold enclosed. rewrite (Z i j) by lia.
      rewrite (sum_range_split (dg_nr g) j) by (lia || (intros; apply Z; lia)). unfold Rdiv. ring. }
    split; [exact S|]. intros Gd.
    destruct (conserve_lemma g shape true (map units (concat bunches)) (zeros g) Hs Hg (zeros_ok g)) as (rho' & E' & (A1 & A2) & T).
    rewrite Er in E'. injection E' as <-.
    pose proof (guards_lemma g shape true _ _ _ Hs Hg Gd (zeros_ok g) Er) as N.
    rewrite (sum_range_ext _ _ (fun i => (dg_dr g / cell_radius g j) * sum_range (dg_nr g) (inner rho i)))
      by (intros i I; rewrite S by exact I; unfold Rdiv; ring).
    rewrite sum_range_scal.
    assert (T0 : total_charge (zeros g) = 0).
    { unfold total_charge. apply sum_range_zero. intros. apply sum_range_zero. intros. reflexivity. }
    rewrite T0, Rplus_0_l in T. rewrite <- T. unfold total_charge. rewrite A1, A2.
    destruct Hg as (_ & _ & _ & Nz & Nr).
    assert (Q : sum_range (dg_nz g + 4) (fun i => sum_range (dg_nr g + 4) (fun j => cell rho i j)) =
                sum_range (dg_nz g) (fun i => sum_range (dg_nr g) (inner rho i))).
    { rewrite sum_range_inner; [|lia|].
      - apply sum_range_ext. intros i I. rewrite sum_range_inner; [reflexivity|lia|]. intros k K. rewrite N by (unfold inner_cell; lia). reflexivity.
      - intros i I. apply sum_range_zero. intros k K. rewrite N by (unfold inner_cell; lia). reflexivity. }
    rewrite Q. unfold Rdiv. ring.
  Qed.
End Outside.
