(** The derivative of the potential along the motion of the particles. *)
From Coq Require Import Reals Lra ZArith Lia List Bool Arith Permutation.
From Coquelicot Require Import Coquelicot.
From Verif Require Import Model_Push Model_Interp Model_Psi Spec_Psi Proofs_Psi Proofs_Psi2 Proofs_Psi3.
Import ListNotations.
Open Scope R_scope.

Lemma lin_pos a b : 0 < a -> locally 0 (fun s => 0 < a + s * b).
Proof.
  intros A. assert (C : continuous (fun s => a + s * b) 0) by (apply (ex_derive_continuous (fun s => a + s * b)); auto_derive; auto).
  assert (G : 0 < a + 0 * b) by lra.
  exact (C (fun y => 0 < y) (open_gt 0 (a + 0 * b) G)).
Qed.
Lemma moved_length r pr psi s : length (moved r pr psi s) = length r.
Proof. unfold moved. rewrite map_length, seq_length. reflexivity. Qed.
Lemma moved_nth r pr psi s i : (i < length r)%nat -> nth i (moved r pr psi s) 0 = nth i r 0 + s * velocity pr psi i.
Proof.
  intros I. unfold moved.
  rewrite (nth_indep _ 0 ((fun i => nth i r 0 + s * velocity pr psi i) 0%nat)) by (rewrite map_length, seq_length; auto).
  rewrite (map_nth (fun i => nth i r 0 + s * velocity pr psi i)), seq_nth by auto. reflexivity.
Qed.

Section Motion.
  Variables (r pr q psi : list R) (r_max pc : R).
  Hypotheses (P : positive r) (RM : 0 < r_max).
  Let v := velocity pr psi.

  Lemma electron_moves x w : 0 <= x -> ~ In x r ->
    is_derive (fun s => electron_potential (moved r pr psi s) q (x + s * w)) 0
      (w * (electron_charge r q x / x) - flow r pr q psi x).
  Proof.
    intros X N.
    assert (G : forall l, (forall i, In i l -> (i < length r)%nat) ->
      is_derive (fun s => sumR (map (fun i => if Rlt_dec (nth i r 0 + s * v i) (x + s * w)
          then nth i q 0 * ln ((x + s * w) / (nth i r 0 + s * v i)) else 0) l)) 0
        (w * (sumR (map (fun i => if Rlt_dec (nth i r 0) x then nth i q 0 else 0) l) / x)
         - sumR (map (fun i => if Rlt_dec (nth i r 0) x then nth i q 0 * v i / nth i r 0 else 0) l))).
    { induction l as [|i l IH]; intros A; simpl.
      - replace (w * (0 / x) - 0) with 0 by (unfold Rdiv; ring). apply @is_derive_const.
      - match goal with |- is_derive _ _ (w * ((?a + ?b) / x) - (?c + ?d)) =>
          replace (w * ((a + b) / x) - (c + d)) with ((w * (a / x) - c) + (w * (b / x) - d)) by (unfold Rdiv; ring) end.
        apply (is_derive_plus (fun s => if Rlt_dec (nth i r 0 + s * v i) (x + s * w)
          then nth i q 0 * ln ((x + s * w) / (nth i r 0 + s * v i)) else 0)).
        2: apply IH; intros; apply A; simpl; auto.
        assert (IL : (i < length r)%nat) by (apply A; simpl; auto).
        assert (Y : 0 < nth i r 0) by (apply positive_nth; auto).
        assert (D : nth i r 0 <> x) by (intros E; apply N; rewrite <- E; apply nth_In, IL).
        set (y := nth i r 0) in *. set (u := v i). set (k := nth i q 0). destruct (Rlt_dec y x) as [L|L].
        + apply (is_derive_ext_loc (fun s => k * ln ((x + s * w) / (y + s * u)))).
          * apply (filter_imp (fun s => 0 < (x - y) + s * (w - u))); [|apply lin_pos; lra]. intros s S.
            destruct (Rlt_dec (y + s * u) (x + s * w)); [reflexivity|lra].
          * auto_derive.
            { split; [lra|]. split; [|exact I]. apply Rmult_lt_0_compat; [lra|]. apply Rinv_0_lt_compat. lra. }
            field. lra.
        + apply (is_derive_ext_loc (fun t => 0)).
          * apply (filter_imp (fun s => 0 < (y - x) + s * (u - w))); [|apply lin_pos; lra]. intros s S.
            destruct (Rlt_dec (y + s * u) (x + s * w)); [lra|reflexivity].
          * replace (w * (0 / x) - 0) with 0 by (unfold Rdiv; ring). apply @is_derive_const. }
    specialize (G (seq 0 (length r)) ltac:(intros i I; apply in_seq in I; lia)).
    revert G. unfold electron_charge, flow, sum_below. fold v. apply is_derive_ext. intros s.
    unfold electron_potential, sum_below. rewrite moved_length. eqR. f_equal. apply map_ext_in. intros i I. apply in_seq in I.
    rewrite !moved_nth by lia. reflexivity.
  Qed.
  Lemma potential_fixed x : 0 <= x -> ~ In x r ->
    is_derive (fun s => potential (moved r pr psi s) q r_max pc x) 0 (- flow r pr q psi x).
  Proof.
    intros X N. pose proof (electron_moves x 0 X N) as E. rewrite Rmult_0_l, Rminus_0_l in E.
    unfold potential. rewrite <- (Rminus_0_r (- flow r pr q psi x)).
    apply (is_derive_minus (fun s => electron_potential (moved r pr psi s) q x) (fun _ => ion_potential r_max pc x)).
    - apply (is_derive_ext (fun s => electron_potential (moved r pr psi s) q (x + s * 0))); [|exact E].
      intros s. rewrite Rmult_0_r, Rplus_0_r. reflexivity.
    - apply @is_derive_const.
  Qed.
  Lemma potential_moving x w : 0 < x -> ~ In x r ->
    is_derive (fun s => potential (moved r pr psi s) q r_max pc (x + s * w)) 0
      (w * slope r q r_max pc x - flow r pr q psi x).
  Proof.
    intros X N. pose proof (electron_moves x w (Rlt_le _ _ X) N) as E.
    unfold potential, slope.
    replace (w * ((electron_charge r q x - ion_charge r_max pc x) / x) - flow r pr q psi x) with
      ((w * (electron_charge r q x / x) - flow r pr q psi x) - w * (ion_charge r_max pc x / x)) by (field; lra).
    apply (is_derive_minus (fun s => electron_potential (moved r pr psi s) q (x + s * w))
             (fun s => ion_potential r_max pc (x + s * w))). exact E.
    apply (is_derive_comp (ion_potential r_max pc) (fun s => x + s * w) 0).
    - replace (x + 0 * w) with x by ring. apply ion_potential_derive; auto.
    - auto_derive; auto. ring.
  Qed.
End Motion.

Section Edge.
  Variables (r pr q : list R) (idx : list nat) (r_max dr_p pc : R).
  Hypotheses (H : orders idx r) (ND : NoDup r) (P : positive r) (LQ : length q = length r)
    (LP : length pr = length r) (RM : 0 < r_max) (DP : 0 < dr_p) (NE : r <> []).
  Let n := length r.
  Let psi := fst (fst (psi_at_particles r pr q idx r_max dr_p pc)).
  Let last := nth (n - 1) idx 0%nat.
  Let edge := mid_right dr_p idx r (n - 1).
  Lemma n_pos : (0 < n)%nat.
  Proof. unfold n. destruct r; simpl; [congruence|lia]. Qed.
  Lemma edge_eq : edge = nth last r 0 + dr_p / 2.
  Proof. pose proof n_pos. unfold edge, mid_right. fold n last. destruct (Nat.ltb_spec (S (n - 1)) n); [lia|reflexivity]. Qed.
  Lemma below_edge y : In y r -> y < edge.
  Proof.
    intros Y. pose proof n_pos. destruct (largest_last idx r H NE) as [_ M]. apply M in Y.
    rewrite edge_eq. rewrite last_nth, take_length, (orders_length _ _ H) in Y. fold n in Y.
    rewrite take_nth in Y by (rewrite (orders_length _ _ H); fold n; lia). fold last in Y. lra.
  Qed.
  Lemma edge_pos : 0 < edge.
  Proof. rewrite edge_eq. pose proof (positive_nth r last P (orders_nth_lt idx r (n - 1) H ltac:(pose proof n_pos; fold n; lia))). lra. Qed.
  Lemma flow_far x y : edge <= x -> edge <= y -> flow r pr q psi x = flow r pr q psi y.
  Proof. intros X Y. unfold flow. rewrite !sum_below_all; auto; intros z Z; pose proof (below_edge z Z); lra. Qed.
  Lemma charge_far : electron_charge r q edge = sumR q.
  Proof.
    unfold electron_charge. rewrite sum_below_all by apply below_edge. rewrite <- LQ. rewrite map_nth_seq. reflexivity.
  Qed.
  (** The derivative of the boundary value. *)
  Definition true_shift : R :=
    if Rle_dec edge r_max then - flow r pr q psi edge
    else velocity pr psi last * slope r q r_max pc edge - flow r pr q psi edge.
  Lemma edge_derive : edge <> r_max \/ velocity pr psi last = 0 ->
    is_derive (fun s => potential (moved r pr psi s) q r_max pc (Rmax (nth last (moved r pr psi s) 0 + dr_p / 2) r_max))
      0 true_shift.
  Proof.
    intros C. pose proof n_pos as NP. assert (LL : (last < length r)%nat) by (apply orders_nth_lt; auto; fold n; lia).
    assert (EQ : forall s, nth last (moved r pr psi s) 0 + dr_p / 2 = edge + s * velocity pr psi last).
    { intros s. rewrite moved_nth by assumption. rewrite edge_eq. ring. }
    unfold true_shift. destruct (Rle_dec edge r_max) as [L|L].
    - apply (is_derive_ext_loc (fun s => potential (moved r pr psi s) q r_max pc r_max)).
      + destruct C as [C|C].
        * apply (filter_imp (fun s => 0 < (r_max - edge) + s * (- velocity pr psi last))); [|apply lin_pos; lra].
          intros s S. rewrite EQ, Rmax_right by lra. reflexivity.
        * apply filter_forall. intros s. rewrite EQ, C, Rmult_0_r, Rplus_0_r, Rmax_right by lra. reflexivity.
      + rewrite (flow_far edge r_max) by lra. apply potential_fixed; auto; [lra|].
        intros I. pose proof (below_edge _ I). lra.
    - apply (is_derive_ext_loc (fun s => potential (moved r pr psi s) q r_max pc (edge + s * velocity pr psi last))).
      + apply (filter_imp (fun s => 0 < (edge - r_max) + s * velocity pr psi last)); [|apply lin_pos; lra].
        intros s S. rewrite EQ, Rmax_left by lra. reflexivity.
      + apply potential_moving; auto. apply edge_pos. intros I. pose proof (below_edge _ I). lra.
  Qed.
  Lemma relative_derive x : edge <> r_max \/ velocity pr psi last = 0 -> 0 <= x -> ~ In x r ->
    is_derive (fun s => relative_potential (moved r pr psi s) q r_max dr_p pc last x) 0
      (- flow r pr q psi x - true_shift).
  Proof.
    intros C X N. unfold relative_potential.
    apply (is_derive_minus (fun s => potential (moved r pr psi s) q r_max pc x)
      (fun s => potential (moved r pr psi s) q r_max pc (Rmax (nth last (moved r pr psi s) 0 + dr_p / 2) r_max))).
    apply potential_fixed; auto. apply edge_derive, C.
  Qed.
  Lemma shift_agrees : pc = 0 \/ edge <= r_max ->
    code_shift r pr q idx r_max dr_p pc = - true_shift.
  Proof.
    intros C. unfold code_shift, true_shift. fold psi n last edge.
    destruct (Rle_dec edge r_max); [lra|]. destruct C as [C|C]; [|lra].
    unfold slope. rewrite charge_far, ion_charge_far by lra. pose proof edge_pos. rewrite C. field. lra.
  Qed.
  Lemma mid_points_free k : (k < n)%nat ->
    (0 <= mid_left idx r k /\ ~ In (mid_left idx r k) r) /\ (0 <= mid_right dr_p idx r k /\ ~ In (mid_right dr_p idx r k) r).
  Proof.
    intros K.
    assert (F : forall x m, count (take idx r) x = m -> (forall j, (m <= j < n)%nat -> nth j (take idx r) 0 <> x) -> ~ In x r).
    { intros x m CN A I. destruct (In_nth _ _ 0 I) as (i & IL & E). destruct (orders_hit idx r i H IL) as (j & J & E2).
      destruct (lt_dec j m) as [B|B].
      - rewrite <- CN in B. apply count_below in B. rewrite take_nth in B by (rewrite (orders_length _ _ H); auto).
        rewrite E2, E in B. lra.
      - apply (A j). fold n in J. lia. rewrite take_nth by (rewrite (orders_length _ _ H); auto). rewrite E2. exact E. }
    assert (MR : forall k, (k < n)%nat -> ~ In (mid_right dr_p idx r k) r).
    { intros j J. apply (F _ (S j)). apply (mid_right_count r pr q idx dr_p); auto.
      intros i I E. unfold mid_right in E. fold n in E.
      destruct (Nat.ltb_spec (S j) n); [|lia].
      rewrite <- !(rs_nth r idx H) in E by (fold n; lia).
      pose proof (rs_strict r pr q idx H ND LQ LP j (S j) ltac:(fold n; lia)).
      destruct (Nat.eq_dec i (S j)) as [->|]; [lra|].
      pose proof (rs_strict r pr q idx H ND LQ LP (S j) i ltac:(fold n; lia)). lra. }
    split.
    - destruct k as [|k].
      + simpl. split; [lra|]. intros I. pose proof (P _ I). lra.
      + split. left. apply (mid_left_pos r pr q idx H P LQ LP). exact K.
        assert (mid_left idx r (S k) = mid_right dr_p idx r k) as ->.
        { unfold mid_left, mid_right. fold n. destruct (Nat.ltb_spec (S k) n); [reflexivity|lia]. }
        apply MR. lia.
    - split. left. apply (mid_right_pos r pr q idx dr_p); auto. apply MR, K.
  Qed.
  Lemma longitudinal k : pc = 0 \/ edge <= r_max -> edge <> r_max \/ velocity pr psi last = 0 -> (k < n)%nat ->
    exists D,
      (forall x, 0 <= x -> ~ In x r ->
         is_derive (fun s => relative_potential (moved r pr psi s) q r_max dr_p pc last x) 0 (D x)) /\
      nth (nth k idx 0%nat) (snd (psi_at_particles r pr q idx r_max dr_p pc)) 0 =
      Rmax (-3) (Rmin 3 (chord D (mid_left idx r k) (mid_right dr_p idx r k) (nth (nth k idx 0%nat) r 0))).
  Proof.
    intros C1 C2 K. exists (fun x => - flow r pr q psi x - true_shift). split.
    - intros x X N. apply relative_derive; auto.
    - rewrite (dxi_psi_value r pr q idx r_max dr_p pc) by auto. fold psi n. rewrite shift_agrees by assumption.
      f_equal. f_equal. unfold chord, Rdiv. ring.
  Qed.
End Edge.
