(** The initial plasma column. *)
From Coq Require Import Reals Lra ZArith Lia List Bool Arith Permutation.
From Coquelicot Require Import Coquelicot.
From Verif Require Import Model_Push Model_Interp Model_Psi Spec_Psi Proofs_Psi Proofs_Psi2 Proofs_Psi3 Proofs_Psi4.
Import ListNotations.
Open Scope R_scope.

Lemma round_even_near x : Rabs (IZR (round_even x) - x) <= / 2 /\
  (Rabs (IZR (round_even x) - x) = / 2 -> Z.even (round_even x) = true).
Proof.
  pose proof (base_fp x) as [F0 F1]. unfold round_even.
  assert (X : x = IZR (Int_part x) + frac_part x) by (unfold frac_part; ring).
  set (f := Int_part x) in *. set (y := frac_part x) in *.
  destruct (Rlt_dec y (/ 2)).
  - split; [|intros E; exfalso; revert E]; rewrite X; replace (IZR f - (IZR f + y)) with (- y) by ring;
      rewrite Rabs_Ropp, Rabs_right by lra; lra.
  - destruct (Rlt_dec (/ 2) y).
    + rewrite plus_IZR. split; [|intros E; exfalso; revert E]; rewrite X; replace (IZR f + 1 - (IZR f + y)) with (1 - y) by ring;
        rewrite Rabs_right by lra; lra.
    + assert (y = / 2) by lra. destruct (Z.even f) eqn:EV.
      * split; auto. rewrite X. replace (IZR f - (IZR f + y)) with (- y) by ring. rewrite Rabs_Ropp, Rabs_right by lra. lra.
      * split. rewrite plus_IZR, X. replace (IZR f + 1 - (IZR f + y)) with (1 - y) by ring. rewrite Rabs_right by lra. lra.
        intros _. rewrite Z.even_add, EV. reflexivity.
Qed.

Section Column.
  Variables r_max_plasma pc dr ppc : R.
  Hypotheses (RP : 0 <= r_max_plasma) (DR : 0 < dr) (PP : 0 < ppc).
  Let n := n_part r_max_plasma dr ppc.
  Let dr_p := dr / ppc.
  Let col := initialize r_max_plasma pc dr ppc.
  Let R0 := adjusted_radius r_max_plasma dr ppc.

  Lemma dr_p_pos : 0 < dr_p.
  Proof. apply Rdiv_lt_0_compat; assumption. Qed.
  Lemma n_part_near : Rabs (INR n - r_max_plasma / dr_p) <= / 2 /\
    (Rabs (INR n - r_max_plasma / dr_p) = / 2 -> Nat.Even n).
  Proof.
    pose proof dr_p_pos as D. assert (E : r_max_plasma / dr_p = r_max_plasma / dr * ppc) by (unfold dr_p; field; lra).
    rewrite E. set (x := r_max_plasma / dr * ppc).
    assert (X0 : 0 <= x). { unfold x. apply Rmult_le_pos; [|lra]. apply Rdiv_le_0_compat; lra. }
    destruct (round_even_near x) as [A B].
    assert (Z0 : (0 <= round_even x)%Z).
    { apply Z.lt_pred_le. apply lt_IZR. simpl. assert (IZR (round_even x) >= x - / 2) by (apply Rabs_le_between in A; lra). lra. }
    assert (IN : INR n = IZR (round_even x)).
    { unfold n, n_part. fold x. rewrite INR_IZR_INZ, Z2Nat.id by assumption. reflexivity. }
    rewrite IN. split; [exact A|]. intros T. apply B in T. unfold n, n_part. fold x.
    apply Z.even_spec in T. destruct T as [m M]. exists (Z.to_nat m). lia.
  Qed.
  Lemma radius_near : Rabs (R0 - r_max_plasma) <= dr_p / 2 /\
    (Rabs (R0 - r_max_plasma) = dr_p / 2 -> Nat.Even n).
  Proof.
    pose proof dr_p_pos as D. destruct n_part_near as [A B].
    assert (E : Rabs (R0 - r_max_plasma) = Rabs (INR n - r_max_plasma / dr_p) * dr_p).
    { rewrite <- (Rabs_right dr_p) at 2 by lra. rewrite <- Rabs_mult. f_equal. unfold R0, adjusted_radius. fold n dr_p. field. lra. }
    rewrite E. split.
    - apply Rle_trans with (/ 2 * dr_p); [apply Rmult_le_compat_r; lra|lra].
    - intros T. apply B. apply (Rmult_eq_reg_r dr_p); lra.
  Qed.
  Lemma col_length : length (p_r col) = n /\ length (p_pr col) = n /\ length (p_pz col) = n /\
    length (p_gamma col) = n /\ length (p_q col) = n.
  Proof. unfold col, initialize. cbn [p_r p_pr p_pz p_gamma p_q]. rewrite !map_length, !repeat_length, seq_length. auto. Qed.
  Lemma col_r i : (i < n)%nat -> nth i (p_r col) 0 = (INR i + / 2) * dr_p.
  Proof.
    intros I. unfold col, initialize. cbn [p_r]. fold n dr_p R0.
    match goal with |- nth i (map ?f _) 0 = _ => rewrite (nth_indep _ 0 (f 0%nat)) by (rewrite map_length, seq_length; auto);
      rewrite (map_nth f), seq_nth by auto end.
    rewrite Nat.add_0_l. unfold linspace. rewrite <- INR_IZR_INZ.
    rewrite ?minus_IZR, <- ?INR_IZR_INZ.
    unfold R0, adjusted_radius. fold n dr_p.
    destruct (Nat.eq_dec n 1) as [E|E].
    - assert (i = 0%nat) as -> by lia. simpl. lra.
    - assert (INR n - 1 <> 0). { replace 1 with (INR 1) by reflexivity. rewrite <- minus_INR by lia. apply not_0_INR. lia. }
      field. assumption.
  Qed.
  Lemma col_q i : (i < n)%nat -> nth i (p_q col) 0 =
    dr_p * nth i (p_r col) 0 * (1 + pc * nth i (p_r col) 0 ^ 2).
  Proof.
    intros I. pose proof col_length as (L & _).
    change (p_q col) with (map (fun r_i => dr_p * r_i + dr_p * pc * r_i ^ 3) (p_r col)).
    match goal with |- nth i (map ?f ?l) 0 = _ => rewrite (nth_indep _ 0 (f 0)) by (rewrite map_length; rewrite L; auto);
      rewrite (map_nth f) end.
    ring.
  Qed.
  Lemma col_rest i : (i < n)%nat -> nth i (p_pr col) 0 = 0 /\ nth i (p_pz col) 0 = 0 /\ nth i (p_gamma col) 0 = 1.
  Proof.
    intros I. unfold col, initialize. cbn [p_pr p_pz p_gamma]. fold n.
    rewrite !(nth_indep (repeat 1 n) 0 1) by (rewrite repeat_length; auto).
    rewrite !nth_repeat. auto.
  Qed.
  Lemma sumR_seq f m : sumR (map f (seq 0 (S m))) = sumR (map f (seq 0 m)) + f m.
  Proof. rewrite seq_S, map_app, sumR_app. simpl. ring. Qed.
  Lemma col_sum m : (m <= n)%nat -> sumR (map (fun i => nth i (p_q col) 0) (seq 0 m)) =
    (INR m * dr_p) ^ 2 / 2 + pc * ((INR m * dr_p) ^ 4 / 4 - (INR m * dr_p) ^ 2 * dr_p ^ 2 / 8).
  Proof.
    induction m as [|m IH]; intros M.
    - simpl. field.
    - rewrite sumR_seq, IH by lia. rewrite col_q, col_r by lia. rewrite S_INR. field.
  Qed.
  Lemma col_increasing i j : (i < j < n)%nat -> nth i (p_r col) 0 < nth j (p_r col) 0.
  Proof.
    intros IJ. rewrite !col_r by lia. apply Rmult_lt_compat_r. apply dr_p_pos. assert (INR i < INR j) by (apply lt_INR; lia). lra.
  Qed.
  Lemma col_positive : positive (p_r col).
  Proof.
    intros x X. destruct (In_nth _ _ 0 X) as (i & I & <-). rewrite (proj1 col_length) in I. rewrite col_r by assumption.
    apply Rmult_lt_0_compat. pose proof (pos_INR i). lra. apply dr_p_pos.
  Qed.
  Lemma col_nodup : NoDup (p_r col).
  Proof.
    rewrite NoDup_nth with (d := 0). rewrite (proj1 col_length). intros i j I J E.
    destruct (lt_eq_lt_dec i j) as [[L|L]|L]; auto; [pose proof (col_increasing i j ltac:(lia))|pose proof (col_increasing j i ltac:(lia))]; lra.
  Qed.
  Lemma increasing_seq idx : orders idx (p_r col) -> forall k, (k < n)%nat -> nth k idx 0%nat = k.
  Proof.
    intros H. pose proof (proj1 col_length) as L.
    assert (SI : forall i j, (i < j < n)%nat -> (nth i idx 0 < nth j idx 0)%nat).
    { intros i j IJ. pose proof (rs_strict (p_r col) (p_pr col) (p_q col) idx H col_nodup) as S.
      rewrite L in S. destruct col_length as (_ & L2 & _ & _ & L5). specialize (S ltac:(congruence) ltac:(congruence) i j IJ).
      rewrite !(rs_nth (p_r col) idx H) in S by (rewrite L; lia).
      assert (A : (nth i idx 0 < n)%nat) by (rewrite <- L; apply orders_nth_lt; auto; rewrite L; lia).
      assert (B : (nth j idx 0 < n)%nat) by (rewrite <- L; apply orders_nth_lt; auto; rewrite L; lia).
      destruct (lt_eq_lt_dec (nth i idx 0%nat) (nth j idx 0%nat)) as [[E|E]|E]; auto.
      - rewrite E in S. lra.
      - pose proof (col_increasing _ _ (conj E A)). lra. }
    assert (LO : forall k, (k < n)%nat -> (k <= nth k idx 0)%nat).
    { induction k as [|k IH]; intros K; [lia|]. pose proof (SI k (S k) ltac:(lia)). specialize (IH ltac:(lia)). lia. }
    assert (HI : forall d, (d < n)%nat -> (nth (n - 1 - d) idx 0 <= n - 1 - d)%nat).
    { induction d as [|d IH]; intros D.
      - pose proof (orders_nth_lt idx (p_r col) (n - 1 - 0) H ltac:(rewrite L; lia)). rewrite L in H0. lia.
      - pose proof (SI (n - 1 - S d)%nat (n - 1 - d)%nat ltac:(lia)). specialize (IH ltac:(lia)). lia. }
    intros k K. specialize (LO k K). specialize (HI (n - 1 - k)%nat ltac:(lia)).
    replace (n - 1 - (n - 1 - k))%nat with k in HI by lia. lia.
  Qed.
  Lemma col_mid_left idx k : orders idx (p_r col) -> (k < n)%nat -> mid_left idx (p_r col) k = INR k * dr_p.
  Proof.
    intros H K. destruct k as [|k]; [simpl; ring|]. unfold mid_left. rewrite !(increasing_seq idx H) by lia.
    rewrite !col_r by lia. rewrite S_INR. field.
  Qed.
  Lemma col_mid_right idx k : orders idx (p_r col) -> (k < n)%nat -> mid_right dr_p idx (p_r col) k = INR (S k) * dr_p.
  Proof.
    intros H K. unfold mid_right. rewrite (proj1 col_length). rewrite (increasing_seq idx H k K).
    destruct (Nat.ltb_spec (S k) n).
    - rewrite (increasing_seq idx H) by lia. rewrite !col_r by lia. rewrite S_INR. field.
    - rewrite !col_r by lia. rewrite S_INR. field.
  Qed.
  Lemma col_charge m : (m <= n)%nat -> electron_charge (p_r col) (p_q col) (INR m * dr_p) =
    (INR m * dr_p) ^ 2 / 2 + pc * ((INR m * dr_p) ^ 4 / 4 - (INR m * dr_p) ^ 2 * dr_p ^ 2 / 8).
  Proof.
    intros M. rewrite <- col_sum by assumption. pose proof dr_p_pos.
    unfold electron_charge, sum_below. rewrite (proj1 col_length).
    replace n with (m + (n - m))%nat by lia. rewrite seq_app, map_app, sumR_app. rewrite Nat.add_0_l.
    transitivity (sumR (map (fun i => nth i (p_q col) 0) (seq 0 m)) + sumR (map (fun _ => 0) (seq m (n - m)))).
    - f_equal; f_equal; apply map_ext_in; intros i I; apply in_seq in I.
      + destruct (Rlt_dec (nth i (p_r col) 0) (INR m * dr_p)) as [|N]; auto. destruct N. rewrite col_r by lia.
        apply Rmult_lt_compat_r; auto. assert (INR (S i) <= INR m) by (apply le_INR; lia). rewrite S_INR in *. lra.
      + destruct (Rlt_dec (nth i (p_r col) 0) (INR m * dr_p)) as [A|]; auto. exfalso. rewrite col_r in A by lia.
        apply Rmult_lt_reg_r in A; auto. assert (INR m <= INR i) by (apply le_INR; lia). lra.
    - replace (sumR (map (fun _ => 0) (seq m (n - m)))) with 0; [ring|].
      generalize (seq m (n - m)). induction l; simpl; lra.
  Qed.
  Lemma col_slope m : (m <= n)%nat -> (0 < n)%nat -> pc = 0 ->
    slope (p_r col) (p_q col) R0 pc (INR m * dr_p) = 0.
  Proof.
    intros M N C. pose proof dr_p_pos. unfold slope. rewrite col_charge by assumption.
    assert (0 < R0). { unfold R0, adjusted_radius. fold n dr_p. apply Rmult_lt_0_compat; auto. apply lt_0_INR; auto. }
    assert (INR m * dr_p <= R0). { unfold R0, adjusted_radius. fold n dr_p. apply Rmult_le_compat_r; [lra|]. apply le_INR; auto. }
    assert (0 <= INR m * dr_p) by (apply Rmult_le_pos; [apply pos_INR|lra]).
    rewrite ion_charge_closed by assumption. unfold charge_in. rewrite Rmin_left by assumption. rewrite C.
    unfold Rdiv. ring.
  Qed.
  Lemma col_quiet idx k : orders idx (p_r col) -> pc = 0 -> (k < n)%nat ->
    nth k (snd (fst (psi_at_particles (p_r col) (p_pr col) (p_q col) idx R0 dr_p pc))) 0 = 0.
  Proof.
    intros H C K. pose proof dr_p_pos. pose proof col_length as (L1 & L2 & _ & _ & L5).
    assert (0 < R0). { unfold R0, adjusted_radius. fold n dr_p. apply Rmult_lt_0_compat; auto. apply lt_0_INR; lia. }
    rewrite <- (increasing_seq idx H k K) at 1.
    rewrite (dr_psi_value (p_r col) (p_pr col) (p_q col) idx R0 dr_p pc); auto using col_nodup, col_positive; try congruence.
    rewrite col_mid_left, col_mid_right by assumption. unfold chord.
    rewrite !col_slope by (auto; lia). unfold Rdiv. ring.
  Qed.
End Column.

(** The boundary term of the longitudinal derivative is wrong for parabolic profiles. *)
Lemma longitudinal_counterexample :
  let r := [3] in let pr := [/ 1000] in let q := [1] in let idx := [0%nat] in
  let psi := fst (fst (psi_at_particles r pr q idx 2 2 1)) in
  orders idx r /\ NoDup r /\ positive r /\ mid_right 2 idx r 0 <> 2 /\
  ~ exists D,
      (forall x, 0 <= x -> ~ In x r ->
         is_derive (fun s => relative_potential (moved r pr psi s) q 2 2 1 0 x) 0 (D x)) /\
      nth 0 (snd (psi_at_particles r pr q idx 2 2 1)) 0 =
      Rmax (-3) (Rmin 3 (chord D (mid_left idx r 0) (mid_right 2 idx r 0) 3)).
Proof.
  intros r pr q idx psi.
  assert (H : orders idx r). { split; [apply Permutation_refl|]. simpl. intros; lia. }
  assert (ND : NoDup r) by (repeat constructor; simpl; tauto).
  assert (P : positive r) by (intros x [<-|[]]; lra).
  assert (MR : mid_right 2 idx r 0 = 4) by (unfold mid_right; simpl; lra).
  split; [exact H|]. split; [exact ND|]. split; [exact P|]. split; [rewrite MR; lra|].
  intros (D & DD & E).
  assert (NE : r <> []) by discriminate.
  assert (U : forall x, 0 <= x -> ~ In x r -> D x = - flow r pr q psi x - true_shift r pr q idx 2 2 1).
  { intros x X N. specialize (DD x X N).
    pose proof (relative_derive r pr q idx 2 2 1 H ND P eq_refl eq_refl ltac:(lra) ltac:(lra) NE x ltac:(left; simpl; rewrite MR; lra) X N) as D2.
    apply is_derive_unique in DD. apply is_derive_unique in D2. rewrite <- DD. exact D2. }
  pose proof (dxi_psi_value r pr q idx 2 2 1 H ND P eq_refl eq_refl ltac:(lra) 0%nat ltac:(simpl; lia)) as V.
  fold psi in V. cbn [nth idx] in V. rewrite E in V. clear E. rewrite MR in V.
  change (mid_left idx r 0) with 0 in V. change (nth 0 r 0) with 3 in V.
  unfold chord in V. rewrite !U in V by (simpl; lra).
  assert (PS : nth 0 psi 0 >= -0.90).
  { pose proof (psi_value r pr q idx 2 2 1 H ND P eq_refl eq_refl ltac:(lra) ltac:(lra) 0%nat ltac:(simpl; lia)) as W.
    cbn [nth idx] in W. fold psi in W. rewrite W. apply Rle_ge, Rmax_l. }
  set (v := velocity pr psi 0).
  assert (VV : 0 < v <= / 100).
  { unfold v, velocity. cbn [nth pr]. split. apply Rdiv_lt_0_compat; lra.
    apply Rmult_le_reg_r with (1 + nth 0 psi 0); [lra|]. unfold Rdiv. rewrite Rmult_assoc, Rinv_l by lra. lra. }
  assert (F0 : flow r pr q psi 0 = 0).
  { unfold flow, sum_below. simpl. destruct (Rlt_dec 3 0); lra. }
  assert (F4 : flow r pr q psi 4 = v / 3).
  { unfold flow, sum_below. simpl. fold v. destruct (Rlt_dec 3 4); lra. }
  assert (TS : true_shift r pr q idx 2 2 1 = v * (-5 / 4) - v / 3).
  { unfold true_shift. fold psi. cbn [length r]. change (1 - 1)%nat with 0%nat. rewrite MR.
    change (nth 0 idx 0%nat) with 0%nat. fold v.
    destruct (Rle_dec 4 2); [lra|]. rewrite F4. unfold slope. rewrite ion_charge_far by lra.
    replace (electron_charge r q 4) with 1. field. unfold electron_charge, sum_below. simpl.
    destruct (Rlt_dec 3 4); lra. }
  assert (CS : code_shift r pr q idx 2 2 1 = v / 3 + v * (3 / 8)).
  { unfold code_shift. fold psi. cbn [length r]. change (1 - 1)%nat with 0%nat. rewrite MR.
    change (nth 0 idx 0%nat) with 0%nat. fold v.
    destruct (Rle_dec 4 2); [lra|]. rewrite F4. cbn [sumR q]. field. }
  rewrite TS, CS, F0, F4 in V. revert V.
  match goal with |- Rmax _ (Rmin _ ?a) = Rmax _ (Rmin _ ?b) -> _ =>
    replace a with (v * (4 / 3)) by field; replace b with (v * (11 / 24)) by field end.
  rewrite !(Rmin_right 3), !(Rmax_right (-3)) by lra. lra.
Qed.
