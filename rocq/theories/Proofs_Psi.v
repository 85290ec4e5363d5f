(** Lists, sorting and the search on the grid. *)
From Coq Require Import Reals Lra ZArith Lia List Bool Arith Permutation.
From Coquelicot Require Import Coquelicot.
From Verif Require Import Model_Push Model_Interp Model_Psi Spec_Psi.
Import ListNotations.
Open Scope R_scope.

(** ** assign, take, put *)
Lemma assign_length i v a : length (assign i v a) = length a.
Proof. revert i; induction a; intros [|i]; simpl; auto. Qed.
Lemma assign_same i v a : (i < length a)%nat -> nth i (assign i v a) 0 = v.
Proof. revert i; induction a; intros [|i] H; simpl in *; try lia; auto. apply IHa; lia. Qed.
Lemma assign_other i j v a : i <> j -> nth j (assign i v a) 0 = nth j a 0.
Proof. revert i j; induction a; intros [|i] [|j] H; simpl in *; auto; try lia. Qed.
Lemma put_length idx v a : length (put idx v a) = length a.
Proof. revert v a; induction idx as [|i idx IH]; intros [|x v] a; simpl; auto. rewrite IH, assign_length; auto. Qed.
Lemma put_other idx v a j : ~ In j idx -> nth j (put idx v a) 0 = nth j a 0.
Proof.
  revert v a; induction idx as [|i idx IH]; intros [|x v] a H; simpl in *; auto.
  rewrite IH by tauto. apply assign_other. tauto.
Qed.
Lemma put_nth idx v a k : NoDup idx -> (forall i, In i idx -> (i < length a)%nat) ->
  length v = length idx -> (k < length idx)%nat -> nth (nth k idx 0%nat) (put idx v a) 0 = nth k v 0.
Proof.
  revert v a k; induction idx as [|i idx IH]; intros [|x v] a k N A L K; simpl in *; try lia.
  inversion N; subst. destruct k as [|k].
  - rewrite put_other by assumption. apply assign_same. apply A; auto.
  - apply IH; auto; try lia. intros j J. rewrite assign_length. apply A; auto.
Qed.
Lemma take_length idx a : length (take idx a) = length idx.
Proof. apply map_length. Qed.
Lemma take_nth idx a k : (k < length idx)%nat -> nth k (take idx a) 0 = nth (nth k idx 0%nat) a 0.
Proof.
  intros K. unfold take. rewrite (nth_indep _ 0 ((fun i => nth i a 0) 0%nat)) by (rewrite map_length; auto).
  rewrite (map_nth (fun i => nth i a 0)). reflexivity.
Qed.
Lemma orders_length idx r : orders idx r -> length idx = length r.
Proof. intros [P _]. rewrite (Permutation_length P), seq_length. reflexivity. Qed.
Lemma orders_nodup idx r : orders idx r -> NoDup idx.
Proof. intros [P _]. eapply Permutation_NoDup; [apply Permutation_sym, P|apply seq_NoDup]. Qed.
Lemma orders_lt idx r i : orders idx r -> In i idx -> (i < length r)%nat.
Proof. intros [P _] H. apply (Permutation_in _ P) in H. apply in_seq in H. lia. Qed.
Lemma orders_nth_lt idx r k : orders idx r -> (k < length r)%nat -> (nth k idx 0 < length r)%nat.
Proof. intros H K. eapply orders_lt; eauto. apply nth_In. rewrite (orders_length _ _ H). assumption. Qed.
Lemma orders_hit idx r i : orders idx r -> (i < length r)%nat ->
  exists k, (k < length r)%nat /\ nth k idx 0%nat = i.
Proof.
  intros H I. assert (J : In i idx) by (destruct H as [P _]; apply (Permutation_in _ (Permutation_sym P)), in_seq; lia).
  destruct (In_nth _ _ 0%nat J) as (k & K & E). exists k. rewrite <- (orders_length _ _ H). auto.
Qed.
Lemma take_put idx v r : orders idx r -> length v = length r ->
  take idx (put idx v (repeat 0 (length r))) = v.
Proof.
  intros H L. pose proof (orders_length _ _ H) as E.
  apply (nth_ext _ _ 0 0). { rewrite take_length; congruence. }
  intros k K. rewrite take_length in K. rewrite take_nth by assumption.
  apply put_nth; auto; try congruence. eapply orders_nodup; eauto.
  intros i I. rewrite repeat_length. eapply orders_lt; eauto.
Qed.
Lemma take_map idx r (f : R -> R) a : orders idx r -> length a = length r ->
  take idx (map f a) = map f (take idx a).
Proof.
  intros H L. unfold take. rewrite map_map. apply map_ext_in. intros i I.
  rewrite (nth_indep _ 0 (f 0)). apply map_nth. rewrite map_length, L. eapply orders_lt; eauto.
Qed.
Lemma nth_from_take idx r a i k : orders idx r -> length a = length r -> (k < length r)%nat ->
  nth k idx 0%nat = i -> nth i a 0 = nth k (take idx a) 0.
Proof. intros H L K E. rewrite take_nth by (rewrite (orders_length _ _ H); auto). congruence. Qed.

(** ** Sums *)
Lemma sumR_app a b : sumR (a ++ b) = sumR a + sumR b.
Proof. induction a; simpl; [lra|rewrite IHa; lra]. Qed.
Lemma sumR_perm a b : Permutation a b -> sumR a = sumR b.
Proof. induction 1; simpl; lra. Qed.
Lemma total_sum s l : total s l = s + sumR l.
Proof. revert s; induction l; intros s; simpl; [lra|rewrite IHl; lra]. Qed.
Lemma running_length s l : length (running s l) = length l.
Proof. revert s; induction l; intros; simpl; auto. Qed.
Lemma running_nth s l k : (k < length l)%nat -> nth k (running s l) 0 = s + sumR (firstn (S k) l).
Proof.
  revert s k; induction l as [|a l IH]; intros s k K; simpl in K; [lia|].
  destruct k as [|k].
  - simpl. lra.
  - cbn [running nth]. rewrite IH by lia. change (firstn (S (S k)) (a :: l)) with (a :: firstn (S k) l).
    cbn [sumR]. lra.
Qed.
Lemma sumR_map_plus {A} (f g : A -> R) l : sumR (map (fun a => f a + g a) l) = sumR (map f l) + sumR (map g l).
Proof. induction l; simpl; lra. Qed.
Lemma sumR_map_scale {A} (f : A -> R) k l : sumR (map (fun a => k * f a) l) = k * sumR (map f l).
Proof. induction l; simpl; lra. Qed.
(** The sum over particles below x can be taken in any order. *)
Lemma sum_below_order idx r x f : orders idx r ->
  sum_below r x f = sumR (map (fun i => if Rlt_dec (nth i r 0) x then f i else 0) idx).
Proof. intros [P _]. apply sumR_perm. apply Permutation_map, Permutation_sym, P. Qed.
Lemma sum_below_ext r x f g : (forall i, (i < length r)%nat -> nth i r 0 < x -> f i = g i) ->
  sum_below r x f = sum_below r x g.
Proof.
  intros H. unfold sum_below. f_equal. apply map_ext_in. intros i I. apply in_seq in I.
  destruct (Rlt_dec (nth i r 0) x); auto. apply H; auto; lia.
Qed.
Lemma sum_below_plus r x f g : sum_below r x (fun i => f i + g i) = sum_below r x f + sum_below r x g.
Proof.
  unfold sum_below. rewrite <- sumR_map_plus. f_equal. apply map_ext. intros i.
  destruct (Rlt_dec (nth i r 0) x); lra.
Qed.
Lemma sum_below_scale r x f k : sum_below r x (fun i => k * f i) = k * sum_below r x f.
Proof.
  unfold sum_below. rewrite <- sumR_map_scale. f_equal. apply map_ext. intros i.
  destruct (Rlt_dec (nth i r 0) x); lra.
Qed.

(** Number of sorted particles below x. *)
Fixpoint count (rs : list R) (x : R) : nat :=
  match rs with [] => O | a :: t => if Rle_dec x a then O else S (count t x) end.
Definition sorted (rs : list R) : Prop := forall i j, (i < j < length rs)%nat -> nth i rs 0 <= nth j rs 0.
Lemma orders_sorted idx r : orders idx r -> sorted (take idx r).
Proof.
  intros H i j [I J]. pose proof (orders_length _ _ H) as L. rewrite take_length in J.
  rewrite !take_nth by lia. apply H. lia.
Qed.
Lemma sorted_tail a t : sorted (a :: t) -> sorted t.
Proof. intros H i j I. apply (H (S i) (S j)). simpl. lia. Qed.
Lemma sorted_head a t i : sorted (a :: t) -> (i < length t)%nat -> a <= nth i t 0.
Proof. intros H I. apply (H 0%nat (S i)). simpl. lia. Qed.
Lemma count_le rs x : (count rs x <= length rs)%nat.
Proof. induction rs as [|a t IH]; simpl; auto. destruct (Rle_dec x a); lia. Qed.
Lemma count_below rs x k : (k < count rs x)%nat -> nth k rs 0 < x.
Proof.
  revert k; induction rs as [|a t IH]; simpl; intros k K; [lia|].
  destruct (Rle_dec x a); [lia|]. destruct k; [lra|apply IH; lia].
Qed.
Lemma count_above rs x k : sorted rs -> (count rs x <= k < length rs)%nat -> x <= nth k rs 0.
Proof.
  revert k; induction rs as [|a t IH]; simpl; intros k S K; [lia|].
  destruct (Rle_dec x a) as [L|L].
  - destruct k as [|k]; [assumption|]. eapply Rle_trans; [apply L|]. apply (sorted_head a t); auto. lia.
  - destruct k as [|k]; [lia|]. apply IH; [eapply sorted_tail; eauto|lia].
Qed.
Lemma count_unique rs x n : (n <= length rs)%nat -> (forall k, (k < n)%nat -> nth k rs 0 < x) ->
  (forall k, (n <= k < length rs)%nat -> x <= nth k rs 0) -> count rs x = n.
Proof.
  revert n; induction rs as [|a t IH]; simpl; intros n N B A; [lia|].
  destruct (Rle_dec x a) as [L|L].
  - destruct n; auto. specialize (B 0%nat ltac:(lia)). simpl in B. lra.
  - destruct n as [|n]. { specialize (A 0%nat ltac:(lia)). simpl in A. lra. }
    f_equal. apply IH; try lia. intros k K. apply (B (S k)). lia. intros k K. apply (A (S k)). lia.
Qed.
(** Sum of [g k] over the sorted positions below x. *)
Lemma sum_sorted (g : nat -> R) rs x : sorted rs ->
  sumR (map (fun k => if Rlt_dec (nth k rs 0) x then g k else 0) (seq 0 (length rs)))
  = sumR (map g (seq 0 (count rs x))).
Proof.
  intros S. pose proof (count_le rs x) as C.
  replace (length rs) with (count rs x + (length rs - count rs x))%nat at 1 by lia.
  rewrite seq_app, map_app, sumR_app, Nat.add_0_l.
  replace (sumR (map _ (seq (count rs x) _))) with 0.
  - rewrite Rplus_0_r. f_equal. apply map_ext_in. intros k K. apply in_seq in K.
    destruct (Rlt_dec (nth k rs 0) x) as [|N]; auto. destruct N. apply count_below. lia.
  - symmetry. transitivity (sumR (map (fun _ => 0) (seq (count rs x) (length rs - count rs x)))).
    + f_equal. apply map_ext_in. intros k K. apply in_seq in K.
      destruct (Rlt_dec (nth k rs 0) x) as [L|N]; auto.
      pose proof (count_above rs x k S ltac:(lia)). lra.
    + generalize (seq (count rs x) (length rs - count rs x)). induction l; simpl; lra.
Qed.
Lemma sum_below_sorted idx r x f : orders idx r ->
  sum_below r x f = sumR (map (fun k => f (nth k idx 0%nat)) (seq 0 (count (take idx r) x))).
Proof.
  intros H. rewrite (sum_below_order idx r x f H).
  rewrite <- (sum_sorted (fun k => f (nth k idx 0%nat)) (take idx r) x) by (apply orders_sorted, H).
  f_equal. rewrite take_length. apply (nth_ext _ _ 0 0). { rewrite !map_length, seq_length. reflexivity. }
  intros k K. rewrite map_length in K.
  rewrite (nth_indep _ 0 ((fun i => if Rlt_dec (nth i r 0) x then f i else 0) 0%nat)) by (rewrite map_length; auto).
  rewrite (map_nth (fun i => if Rlt_dec (nth i r 0) x then f i else 0)).
  match goal with |- _ = nth k (map ?g _) 0 => rewrite (nth_indep (map g (seq 0 (length idx))) 0 (g 0%nat)) by (rewrite map_length, seq_length; auto);
    rewrite (map_nth g) end.
  rewrite seq_nth by assumption. cbn [plus]. rewrite take_nth by assumption. reflexivity.
Qed.
Lemma map_seq_firstn (l : list R) n : (n <= length l)%nat -> map (fun k => nth k l 0) (seq 0 n) = firstn n l.
Proof.
  revert n; induction l as [|a t IH]; intros [|n] N; simpl in *; auto; try lia.
  f_equal. rewrite <- (IH n) by lia. rewrite <- (seq_shift n 0), map_map. reflexivity.
Qed.

(** ** The search *)
Lemma skipn_cons (rs : list R) k : (k < length rs)%nat -> skipn k rs = nth k rs 0 :: skipn (S k) rs.
Proof. revert k; induction rs as [|a t IH]; intros k K; simpl in K; [lia|]. destruct k; simpl; auto. apply IH. lia. Qed.
Lemma search_correct rs x k i0 : sorted rs -> (k <= length rs)%nat ->
  (forall j, (j < k)%nat -> nth j rs 0 < x) -> i0 = (Z.of_nat k - 1)%Z ->
  search x i0 (Z.of_nat k) (skipn k rs) = (Z.of_nat (count rs x) - 1)%Z.
Proof.
  intros S. remember (length rs - k)%nat as m eqn:M. revert k i0 M.
  induction m as [|m IH]; intros k i0 M K B E.
  - rewrite skipn_all2 by lia. simpl. assert (count rs x = k) as -> by (apply count_unique; auto; intros; lia).
    assumption.
  - rewrite (skipn_cons rs k) by lia. cbn [search]. destruct (Rle_dec x (nth k rs 0)) as [L|L].
    + f_equal. f_equal. symmetry. apply count_unique; auto. intros j J.
      destruct (Nat.eq_dec j k) as [->|]; auto. eapply Rle_trans; [apply L|]. apply S. lia.
    + replace (Z.of_nat k + 1)%Z with (Z.of_nat (Datatypes.S k)) by lia.
      apply IH; try lia. intros j J. destruct (Nat.eq_dec j k) as [->|]; [lra|apply B; lia].
Qed.
Lemma search_from_correct rs x i : sorted rs -> (0 <= i)%Z -> (Z.to_nat i < length rs)%nat ->
  (forall j, (j < Z.to_nat i)%nat -> nth j rs 0 < x) ->
  search_from x i rs = (Z.of_nat (count rs x) - 1)%Z.
Proof.
  intros S I L B. unfold search_from. rewrite (skipn_cons rs _ L). cbn [search].
  destruct (Rle_dec x (nth (Z.to_nat i) rs 0)) as [X|X].
  - f_equal. transitivity (Z.of_nat (Z.to_nat i)); [lia|]. f_equal. symmetry. apply count_unique; auto; try lia.
    intros j J. destruct (Nat.eq_dec j (Z.to_nat i)) as [->|]; auto. eapply Rle_trans; [apply X|]. apply S. lia.
  - replace (i + 1)%Z with (Z.of_nat (Datatypes.S (Z.to_nat i))) by lia.
    apply search_correct; auto; try lia.
    intros j J. destruct (Nat.eq_dec j (Z.to_nat i)) as [->|]; [lra|apply B; lia].
Qed.
Lemma on_grid_length inner outer rs i l : length (on_grid inner outer rs i l) = length l.
Proof. revert i; induction l as [|x l IH]; intros i; simpl; auto. destruct (Z.eqb _ _); simpl; auto. Qed.
Definition nondecreasing (l : list R) : Prop := forall i j, (i < j < length l)%nat -> nth i l 0 <= nth j l 0.
Lemma on_grid_nth inner outer rs l : forall i j, sorted rs -> sorted l -> (0 <= i)%Z ->
  (Z.to_nat i < length rs)%nat ->
  (forall x k, In x l -> (k < Z.to_nat i)%nat -> nth k rs 0 < x) -> (j < length l)%nat ->
  nth j (on_grid inner outer rs i l) 0 =
  match count rs (nth j l 0) with O => inner (nth j l 0) | S n => outer n (nth j l 0) end.
Proof.
  induction l as [|x l IH]; intros i j S G I L B J; simpl in J; [lia|].
  cbn [on_grid]. rewrite search_from_correct by (auto; intros; apply B; simpl; auto).
  destruct (count rs x) as [|n] eqn:N.
  - simpl Z.eqb. cbn match. destruct j as [|j]; [simpl; rewrite N; reflexivity|].
    cbn [nth]. apply IH; try assumption; try lia. { eapply sorted_tail; eauto. }
  - replace (Z.of_nat (Datatypes.S n) - 1 =? -1)%Z with false by (symmetry; apply Z.eqb_neq; lia).
    replace (Z.to_nat (Z.of_nat (Datatypes.S n) - 1)) with n by lia.
    destruct j as [|j]; [simpl; rewrite N; reflexivity|].
    pose proof (count_le rs x). cbn [nth]. apply IH; auto; try lia. eapply sorted_tail; eauto.
    intros y k Y K. apply Rlt_le_trans with x. apply count_below. lia.
    destruct (In_nth _ _ 0 Y) as (m & M & <-). apply (sorted_head x l); auto.
Qed.
