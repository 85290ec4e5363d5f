(** The potential of ions and electrons. *)
From Coq Require Import Reals Lra ZArith Lia List Bool Arith Permutation.
From Coquelicot Require Import Coquelicot.
From Verif Require Import Model_Push Model_Interp Model_Psi Spec_Psi Proofs_Psi.
Import ListNotations.
Open Scope R_scope.

Ltac eqR := match goal with |- @eq _ ?a ?b => change (@eq R a b) end.

Lemma chasles (f : R -> R) a b c u v : is_RInt f a b u -> is_RInt f b c v -> is_RInt f a c (u + v).
Proof. apply (@is_RInt_Chasles R_NormedModule). Qed.

Section Ions.
  Variables r_max pc : R.
  Hypothesis RM : 0 < r_max.
  Let Qm := r_max ^ 2 / 2 + pc * r_max ^ 4 / 4.
  Definition charge_in (x : R) : R :=
    let m := Rmin x r_max in m ^ 2 / 2 + pc * m ^ 4 / 4.

  Lemma ion_charge_inside a : 0 <= a <= r_max ->
    is_RInt (fun t => ion_density r_max pc t * t) 0 a (a ^ 2 / 2 + pc * a ^ 4 / 4).
  Proof.
    intros A. apply (is_RInt_ext (fun t => t + pc * t ^ 3)).
    - rewrite Rmin_left, Rmax_right by lra. intros t T. eqR. unfold ion_density.
      destruct (Rle_dec t r_max); [ring|lra].
    - replace (a ^ 2 / 2 + pc * a ^ 4 / 4) with
        (minus ((fun t => t ^ 2 / 2 + pc * t ^ 4 / 4) a) ((fun t => t ^ 2 / 2 + pc * t ^ 4 / 4) 0))
        by (unfold minus, plus, opp; simpl; field).
      apply (is_RInt_derive (fun t => t ^ 2 / 2 + pc * t ^ 4 / 4)).
      + intros t _. auto_derive; auto. field.
      + intros t _. apply (ex_derive_continuous (fun t => t + pc * t ^ 3)). auto_derive. auto.
  Qed.
  Lemma ion_charge_outside x : r_max <= x ->
    is_RInt (fun t => ion_density r_max pc t * t) r_max x 0.
  Proof.
    intros A. apply (is_RInt_ext (fun t => 0)).
    - rewrite Rmin_left, Rmax_right by lra. intros t T. eqR. unfold ion_density.
      destruct (Rle_dec t r_max); [lra|ring].
    - pose proof (is_RInt_const r_max x (0 : R)) as K. unfold scal in K. simpl in K. unfold mult in K. simpl in K.
      rewrite Rmult_0_r in K. exact K.
  Qed.
  Lemma ion_charge_closed x : 0 <= x -> ion_charge r_max pc x = charge_in x.
  Proof.
    intros X. unfold ion_charge, charge_in. apply is_RInt_unique.
    destruct (Rle_dec x r_max) as [L|L].
    - rewrite Rmin_left by assumption. apply ion_charge_inside. lra.
    - rewrite Rmin_right by lra.
      rewrite <- (Rplus_0_r (r_max ^ 2 / 2 + pc * r_max ^ 4 / 4)).
      apply (chasles _ 0 r_max x).
      apply ion_charge_inside; lra. apply ion_charge_outside; lra.
  Qed.

  Lemma ion_potential_inside a : 0 <= a <= r_max ->
    is_RInt (fun t => ion_charge r_max pc t / t) 0 a (a ^ 2 / 4 + pc * a ^ 4 / 16).
  Proof.
    intros A. apply (is_RInt_ext (fun t => t / 2 + pc * t ^ 3 / 4)).
    - rewrite Rmin_left, Rmax_right by lra. intros t T. eqR. rewrite ion_charge_closed by lra.
      unfold charge_in. rewrite Rmin_left by lra. field. lra.
    - replace (a ^ 2 / 4 + pc * a ^ 4 / 16) with
        (minus ((fun t => t ^ 2 / 4 + pc * t ^ 4 / 16) a) ((fun t => t ^ 2 / 4 + pc * t ^ 4 / 16) 0))
        by (unfold minus, plus, opp; simpl; field).
      apply (is_RInt_derive (fun t => t ^ 2 / 4 + pc * t ^ 4 / 16)).
      + intros t _. auto_derive; auto. field.
      + intros t _. apply (ex_derive_continuous (fun t => t / 2 + pc * t ^ 3 / 4)). auto_derive. auto.
  Qed.
  Lemma ion_potential_outside x : r_max <= x ->
    is_RInt (fun t => ion_charge r_max pc t / t) r_max x (Qm * (ln x - ln r_max)).
  Proof.
    intros A. apply (is_RInt_ext (fun t => Qm / t)).
    - rewrite Rmin_left, Rmax_right by lra. intros t T. eqR. rewrite ion_charge_closed by lra.
      unfold charge_in. rewrite Rmin_right by lra. reflexivity.
    - replace (Qm * (ln x - ln r_max)) with
        (minus ((fun t => Qm * ln t) x) ((fun t => Qm * ln t) r_max))
        by (unfold minus, plus, opp; simpl; ring).
      apply (is_RInt_derive (fun t => Qm * ln t)).
      + rewrite Rmin_left by assumption. intros t T. auto_derive; [lra|]. field. lra.
      + rewrite Rmin_left by assumption. intros t T. apply (ex_derive_continuous (fun t => Qm / t)).
        auto_derive. lra.
  Qed.
  Lemma ion_potential_closed x : 0 <= x -> ion_potential r_max pc x =
    if Rle_dec x r_max then x ^ 2 / 4 + pc * x ^ 4 / 16
    else r_max ^ 2 / 4 + pc * r_max ^ 4 / 16 + Qm * (ln x - ln r_max).
  Proof.
    intros X. unfold ion_potential. apply is_RInt_unique. destruct (Rle_dec x r_max) as [L|L].
    - apply ion_potential_inside. lra.
    - apply (chasles _ 0 r_max x (r_max ^ 2 / 4 + pc * r_max ^ 4 / 16)).
      apply ion_potential_inside; lra. apply ion_potential_outside; lra.
  Qed.

  Lemma charge_in_continuous x : continuous charge_in x.
  Proof.
    apply (continuous_ext (fun x => ((x + r_max - Rabs (x - r_max)) / 2) ^ 2 / 2
             + pc * ((x + r_max - Rabs (x - r_max)) / 2) ^ 4 / 4)).
    { intros t. unfold charge_in. replace (Rmin t r_max) with ((t + r_max - Rabs (t - r_max)) / 2); [reflexivity|].
      destruct (Rle_dec t r_max); [rewrite Rmin_left, Rabs_left1 by lra|rewrite Rmin_right, Rabs_right by lra]; lra. }
    assert (K : continuous (fun x => (x + r_max - Rabs (x - r_max)) / 2) x).
    { apply (continuous_mult (fun x => x + r_max - Rabs (x - r_max)) (fun _ => / 2)).
      - apply (continuous_minus (fun x => x + r_max) (fun x => Rabs (x - r_max))).
        + apply (ex_derive_continuous (fun x => x + r_max)). auto_derive. auto.
        + apply (continuous_comp (fun x => x - r_max) Rabs).
          apply (ex_derive_continuous (fun x => x - r_max)). auto_derive. auto. apply continuous_Rabs.
      - apply continuous_const. }
    apply (continuous_comp (fun x => (x + r_max - Rabs (x - r_max)) / 2) (fun m => m ^ 2 / 2 + pc * m ^ 4 / 4)).
    exact K. apply (ex_derive_continuous (fun m => m ^ 2 / 2 + pc * m ^ 4 / 4)). auto_derive. auto.
  Qed.
  Lemma pos_near x : 0 < x -> locally x (fun y => 0 < y).
  Proof. intros X. apply (open_gt 0 x X). Qed.
  Lemma ion_potential_derive x : 0 < x ->
    is_derive (ion_potential r_max pc) x (ion_charge r_max pc x / x).
  Proof.
    intros X.
    apply (is_derive_RInt (fun t => ion_charge r_max pc t / t) (ion_potential r_max pc) 0 x).
    - apply (filter_imp (fun y => 0 < y)); [|apply pos_near, X]. intros y Y.
      unfold ion_potential. apply (@RInt_correct R_CompleteNormedModule).
      destruct (Rle_dec y r_max) as [L|L].
      + eexists. apply ion_potential_inside. lra.
      + eexists. apply (chasles _ 0 r_max y). apply ion_potential_inside; lra.
        apply ion_potential_outside; lra.
    - apply (continuous_ext_loc _ (fun t => charge_in t * / t)).
      + apply (filter_imp (fun y => 0 < y)); [|apply pos_near, X]. intros y Y.
        rewrite ion_charge_closed by lra. reflexivity.
      + apply (continuous_mult charge_in Rinv). apply charge_in_continuous.
        apply (ex_derive_continuous Rinv). auto_derive. lra.
  Qed.

  (** The model's expressions. *)
  Lemma delta_psi_eq_ions x s1 s2 : 0 < x ->
    delta_psi_eq x s1 s2 r_max pc = s1 * ln x - s2 - ion_potential r_max pc x.
  Proof.
    intros X. rewrite ion_potential_closed by lra. unfold delta_psi_eq, Qm.
    replace 0.25 with (/ 4) by lra. replace 0.5 with (/ 2) by lra.
    destruct (Rle_dec x r_max); field.
  Qed.
  Lemma dr_psi_eq_ions x s1 : 0 < x -> dr_psi_eq x s1 r_max pc = (s1 - ion_charge r_max pc x) / x.
  Proof.
    intros X. rewrite ion_charge_closed by lra. unfold dr_psi_eq, charge_in.
    replace 0.25 with (/ 4) by lra. replace 0.5 with (/ 2) by lra.
    destruct (Rle_dec x r_max); [rewrite Rmin_left by lra|rewrite Rmin_right by lra]; field; lra.
  Qed.
  Lemma ion_potential_0 : ion_potential r_max pc 0 = 0.
  Proof. unfold ion_potential. rewrite RInt_point. reflexivity. Qed.
  Lemma ion_charge_0 : ion_charge r_max pc 0 = 0.
  Proof. unfold ion_charge. rewrite RInt_point. reflexivity. Qed.
  Lemma ion_charge_far x : r_max <= x -> ion_charge r_max pc x = Qm.
  Proof. intros X. rewrite ion_charge_closed by lra. unfold charge_in. rewrite Rmin_right by lra. reflexivity. Qed.
  Lemma ion_potential_far x y : r_max <= y -> r_max <= x ->
    ion_potential r_max pc x - ion_potential r_max pc y = Qm * (ln x - ln y).
  Proof.
    intros Y X. rewrite !ion_potential_closed by lra.
    assert (E : forall z, r_max <= z -> (if Rle_dec z r_max then z ^ 2 / 4 + pc * z ^ 4 / 16
      else r_max ^ 2 / 4 + pc * r_max ^ 4 / 16 + Qm * (ln z - ln r_max))
      = r_max ^ 2 / 4 + pc * r_max ^ 4 / 16 + Qm * (ln z - ln r_max)).
    { intros z Z. destruct (Rle_dec z r_max); auto. replace z with r_max by lra. ring. }
    rewrite !E by assumption. ring.
  Qed.
End Ions.

(** ** Electrons *)
Definition positive (r : list R) : Prop := forall x, In x r -> 0 < x.
Lemma positive_nth r i : positive r -> (i < length r)%nat -> 0 < nth i r 0.
Proof. intros P I. apply P, nth_In, I. Qed.
Lemma electron_split r q x : positive r -> 0 < x ->
  electron_potential r q x = electron_charge r q x * ln x - sum_below r x (fun i => nth i q 0 * ln (nth i r 0)).
Proof.
  intros P X. unfold electron_potential, electron_charge.
  rewrite (sum_below_ext r x _ (fun i => ln x * nth i q 0 + -1 * (nth i q 0 * ln (nth i r 0)))).
  - rewrite sum_below_plus, (sum_below_scale r x (fun i => nth i q 0)), (sum_below_scale r x (fun i => nth i q 0 * ln (nth i r 0))). ring.
  - intros i I _. rewrite ln_div by (auto; apply positive_nth; auto). ring.
Qed.
(** In sorted order. *)
Lemma charge_sorted idx r q x : orders idx r -> length q = length r ->
  electron_charge r q x = sumR (firstn (count (take idx r) x) (take idx q)).
Proof.
  intros H L. unfold electron_charge. rewrite (sum_below_sorted idx r x _ H). f_equal.
  pose proof (count_le (take idx r) x) as C. rewrite take_length in C.
  rewrite <- map_seq_firstn by (rewrite take_length; lia).
  apply map_ext_in. intros k K. apply in_seq in K. rewrite take_nth by lia. reflexivity.
Qed.
Lemma map2_nth (f : R -> R -> R) a b k : (k < length a)%nat -> (k < length b)%nat ->
  nth k (map2 f a b) 0 = f (nth k a 0) (nth k b 0).
Proof. revert b k; induction a; intros [|y b] [|k] A B; simpl in *; try lia; auto. apply IHa; lia. Qed.
Lemma map2_length' (f : R -> R -> R) a b : length a = length b -> length (map2 f a b) = length a.
Proof. revert b; induction a; intros [|y b] H; simpl in *; try lia; auto. Qed.
Lemma log_sorted idx r q x : orders idx r -> length q = length r ->
  sum_below r x (fun i => nth i q 0 * ln (nth i r 0)) =
  sumR (firstn (count (take idx r) x) (map2 (fun r q => q * ln r) (take idx r) (take idx q))).
Proof.
  intros H L. rewrite (sum_below_sorted idx r x _ H). f_equal.
  pose proof (count_le (take idx r) x) as C. rewrite take_length in C.
  rewrite <- map_seq_firstn by (rewrite map2_length'; rewrite !take_length; lia).
  apply map_ext_in. intros k K. apply in_seq in K.
  rewrite map2_nth by (rewrite take_length; lia). rewrite !take_nth by lia. reflexivity.
Qed.
Lemma potential_sorted idx r q r_max pc x : orders idx r -> length q = length r -> positive r ->
  0 < r_max -> 0 < x ->
  delta_psi_eq x (sumR (firstn (count (take idx r) x) (take idx q)))
    (sumR (firstn (count (take idx r) x) (map2 (fun r q => q * ln r) (take idx r) (take idx q)))) r_max pc
  = potential r q r_max pc x.
Proof.
  intros H L P RM X. rewrite delta_psi_eq_ions by assumption. unfold potential.
  rewrite electron_split by assumption. rewrite <- (charge_sorted idx r q x H L), <- (log_sorted idx r q x H L). reflexivity.
Qed.
Lemma slope_sorted idx r q r_max pc x : orders idx r -> length q = length r -> 0 < r_max -> 0 < x ->
  dr_psi_eq x (sumR (firstn (count (take idx r) x) (take idx q))) r_max pc = slope r q r_max pc x.
Proof.
  intros H L RM X. rewrite dr_psi_eq_ions by assumption. unfold slope.
  rewrite <- (charge_sorted idx r q x H L). reflexivity.
Qed.
(** Outside of all particles. *)
Lemma last_nth (l : list R) d : last l d = nth (length l - 1) l d.
Proof.
  induction l as [|a [|b t] IH]; auto. change (last (a :: b :: t) d) with (last (b :: t) d). rewrite IH.
  replace (length (a :: b :: t) - 1)%nat with (S (length (b :: t) - 1)) by (simpl; lia). reflexivity.
Qed.
Lemma sorted_last rs k : sorted rs -> (k < length rs)%nat -> nth k rs 0 <= last rs 0.
Proof.
  intros S K. rewrite last_nth. destruct (Nat.eq_dec k (length rs - 1)) as [->|]; [lra|]. apply S. lia.
Qed.
Lemma largest_last idx r : orders idx r -> r <> [] -> is_largest r (last (take idx r) 0).
Proof.
  intros H N. pose proof (orders_length _ _ H) as L. assert (0 < length r)%nat by (destruct r; simpl; [congruence|lia]).
  split.
  - rewrite last_nth, take_length, take_nth by lia. apply nth_In. apply orders_nth_lt; auto; lia.
  - intros x X. destruct (In_nth _ _ 0 X) as (i & I & <-). destruct (orders_hit idx r i H I) as (k & K & <-).
    rewrite <- take_nth by lia. apply sorted_last. apply orders_sorted, H. rewrite take_length. lia.
Qed.
Lemma largest_unique r m n : is_largest r m -> is_largest r n -> m = n.
Proof. intros [A B] [C D]. apply Rle_antisym; auto. Qed.
(** At the largest radius itself a charge contributes ln 1 = 0. *)
Lemma potential_sums idx r q r_max pc x : orders idx r -> length q = length r -> positive r -> r <> [] ->
  0 < r_max -> last (take idx r) 0 <= x ->
  delta_psi_eq x (sum_1_of (take idx q)) (sum_2_of (take idx r) (take idx q)) r_max pc = potential r q r_max pc x.
Proof.
  intros H L P N RM X. pose proof (largest_last idx r H N) as [LI LM].
  assert (0 < x) by (pose proof (P _ LI); lra).
  rewrite delta_psi_eq_ions by assumption. unfold potential. f_equal.
  unfold sum_1_of, sum_2_of. rewrite !total_sum, !Rplus_0_l.
  unfold electron_potential. rewrite (sum_below_order idx r x _ H).
  transitivity (sumR (map (fun i => nth i q 0 * ln x + - (nth i q 0 * ln (nth i r 0))) idx)).
  - rewrite sumR_map_plus. unfold Rminus. f_equal.
    + unfold take. rewrite Rmult_comm, <- sumR_map_scale. f_equal. apply map_ext. intros; ring.
    + transitivity (-1 * sumR (map2 (fun r q => q * ln r) (take idx r) (take idx q))); [ring|].
      unfold take. clear. induction idx as [|i idx IH]; simpl; [ring|]. simpl in IH. lra.
  - f_equal. apply map_ext_in. intros i I. pose proof (orders_lt _ _ _ H I) as IL.
    pose proof (positive_nth r i P IL). destruct (Rlt_dec (nth i r 0) x) as [Y|Y].
    + rewrite ln_div by assumption. ring.
    + assert (nth i r 0 = x) as ->. { apply Rle_antisym; [|lra]. eapply Rle_trans; [apply LM, nth_In, IL|assumption]. }
      ring.
Qed.

Lemma electron_continuous r q x : positive r -> 0 < x -> continuous (electron_potential r q) x.
Proof.
  intros P X. unfold electron_potential, sum_below.
  assert (G : forall l, (forall i, In i l -> (i < length r)%nat) ->
    continuous (fun x => sumR (map (fun i => if Rlt_dec (nth i r 0) x then nth i q 0 * ln (x / nth i r 0) else 0) l)) x).
  { induction l as [|i l IH]; intros A; simpl.
    - apply continuous_const.
    - apply (continuous_plus (fun x => if Rlt_dec (nth i r 0) x then nth i q 0 * ln (x / nth i r 0) else 0)).
      2: apply IH; intros; apply A; simpl; auto.
      assert (Y : 0 < nth i r 0) by (apply positive_nth; auto; apply A; simpl; auto). set (y := nth i r 0) in *.
      apply (continuous_ext_loc _ (fun x => nth i q 0 * ((ln x - ln y + Rabs (ln x - ln y)) / 2))).
      + apply (filter_imp (fun t => 0 < t)); [|apply pos_near, X]. intros t T.
        destruct (Rlt_dec y t) as [L|L].
        * rewrite ln_div by assumption. pose proof (ln_increasing y t Y L). rewrite Rabs_right by lra. lra.
        * assert (ln t <= ln y) by (destruct (Rle_lt_or_eq_dec t y ltac:(lra)) as [Q| ->]; [left; apply ln_increasing; auto|lra]).
          rewrite Rabs_left1 by lra. lra.
      + apply (continuous_mult (fun _ => nth i q 0) (fun x => (ln x - ln y + Rabs (ln x - ln y)) / 2)).
        apply continuous_const.
        apply (continuous_mult (fun x => (ln x - ln y + Rabs (ln x - ln y))) (fun _ => / 2)); [|apply continuous_const].
        assert (E : continuous (fun x => ln x - ln y) x) by (apply (ex_derive_continuous (fun x => ln x - ln y)); auto_derive; lra).
        apply (continuous_plus (fun x => ln x - ln y) (fun x => Rabs (ln x - ln y))). exact E.
        apply (continuous_comp (fun x => ln x - ln y) Rabs). exact E. apply continuous_Rabs. }
  apply G. intros i I. apply in_seq in I. lia.
Qed.
Lemma electron_derive r q x : positive r -> 0 < x -> ~ In x r ->
  is_derive (electron_potential r q) x (electron_charge r q x / x).
Proof.
  intros P X N. unfold electron_potential, electron_charge, sum_below.
  assert (G : forall l, (forall i, In i l -> (i < length r)%nat) ->
    is_derive (fun x => sumR (map (fun i => if Rlt_dec (nth i r 0) x then nth i q 0 * ln (x / nth i r 0) else 0) l)) x
     (sumR (map (fun i => if Rlt_dec (nth i r 0) x then nth i q 0 else 0) l) / x)).
  { induction l as [|i l IH]; intros A; simpl.
    - replace (0 / x) with 0 by (field; lra). apply @is_derive_const.
    - rewrite Rdiv_plus_distr.
      apply (is_derive_plus (fun x => if Rlt_dec (nth i r 0) x then nth i q 0 * ln (x / nth i r 0) else 0)).
      2: apply IH; intros; apply A; simpl; auto.
      assert (IL : (i < length r)%nat) by (apply A; simpl; auto).
      assert (Y : 0 < nth i r 0) by (apply positive_nth; auto).
      assert (D : nth i r 0 <> x) by (intros E; apply N; rewrite <- E; apply nth_In, IL).
      set (y := nth i r 0) in *. destruct (Rlt_dec y x) as [L|L].
      + apply (is_derive_ext_loc (fun t => nth i q 0 * ln (t / y))).
        * apply (filter_imp (fun t => y < t)); [|apply (open_gt y x L)]. intros t T.
          destruct (Rlt_dec y t); [reflexivity|lra].
        * auto_derive; [|field; lra].
          apply Rmult_lt_0_compat; [lra|]. apply Rinv_0_lt_compat. lra.
      + apply (is_derive_ext_loc (fun t => 0)).
        * apply (filter_imp (fun t => t < y)); [|apply (open_lt y x); lra]. intros t T.
          destruct (Rlt_dec y t); [lra|reflexivity].
        * replace (0 / x) with 0 by (field; lra). apply @is_derive_const. }
  apply G. intros i I. apply in_seq in I. lia.
Qed.
