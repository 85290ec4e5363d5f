(** Storage order; bounds; example. *)
From Coq Require Import Reals Lra ZArith Lia List Bool Arith Permutation.
From Coquelicot Require Import Coquelicot.
From Verif Require Import Model_Push Model_Interp Model_Psi Spec_Psi Proofs_Psi Proofs_Psi2 Proofs_Psi3 Proofs_Psi4 Proofs_Psi5.
Import ListNotations.
Open Scope R_scope.

Lemma sum_below_combine (g : R -> R -> R) x : forall r q, length q = length r ->
  sum_below r x (fun i => g (nth i r 0) (nth i q 0)) =
  sumR (map (fun p => if Rlt_dec (fst p) x then g (fst p) (snd p) else 0) (combine r q)).
Proof.
  unfold sum_below. induction r as [|a r IH]; intros [|b q] L; cbn [length] in *; try lia; [reflexivity|].
  cbn [seq map combine sumR nth fst snd]. rewrite <- (IH q) by lia. rewrite <- seq_shift, map_map. reflexivity.
Qed.
Lemma potential_perm r q r' q' r_max pc x : length q = length r -> length q' = length r' ->
  Permutation (combine r q) (combine r' q') -> potential r q r_max pc x = potential r' q' r_max pc x.
Proof.
  intros L L' P. unfold potential, electron_potential. f_equal.
  rewrite (sum_below_combine (fun a b => b * ln (x / a)) x r q L), (sum_below_combine (fun a b => b * ln (x / a)) x r' q' L').
  apply sumR_perm, Permutation_map, P.
Qed.
Lemma combine_fst (r q : list R) : length q = length r -> map fst (combine r q) = r.
Proof. revert q; induction r as [|a r IH]; intros [|b q] L; simpl in *; try lia; auto. rewrite IH by lia. reflexivity. Qed.
Lemma perm_radii (r q r' q' : list R) : length q = length r -> length q' = length r' ->
  Permutation (combine r q) (combine r' q') -> Permutation r r'.
Proof. intros L L' P. rewrite <- (combine_fst r q L), <- (combine_fst r' q' L'). apply Permutation_map, P. Qed.
Lemma grid_storage r_fld r q idx r' q' idx' r_max pc psi k j m :
  orders idx r -> orders idx' r' -> length q = length r -> length q' = length r' ->
  Permutation (combine r q) (combine r' q') ->
  positive r -> r <> [] -> 0 < r_max -> positive r_fld ->
  (forall a b, (a < b < length r_fld)%nat -> nth a r_fld 0 <= nth b r_fld 0) ->
  is_largest r m -> (0 <= j < Z.of_nat (length r_fld))%Z ->
  cell (calculate_psi r_fld r q idx r_max pc psi k) (k + 2) (2 + j) =
  cell (calculate_psi r_fld r' q' idx' r_max pc psi k) (k + 2) (2 + j).
Proof.
  intros H H' L L' P PR NE RM PF SF M J. pose proof (perm_radii _ _ _ _ L L' P) as PP.
  rewrite (grid_value _ _ _ _ _ _ _ _ _ m) by assumption.
  rewrite (grid_value _ r' q' idx' _ _ _ _ _ m); auto.
  - rewrite !(potential_perm r q r' q' r_max pc) by assumption. reflexivity.
  - intros x X. apply PR. eapply Permutation_in; [apply Permutation_sym|]; eauto.
  - intros E. subst r'. apply Permutation_sym, Permutation_nil in PP. contradiction.
  - destruct M as [A B]. split. eapply Permutation_in; eauto.
    intros x X. apply B. eapply Permutation_in; [apply Permutation_sym|]; eauto.
Qed.
Lemma particle_bounds r pr q idx r_max dr_p pc :
  let '(psi, dr_psi, dxi_psi) := psi_at_particles r pr q idx r_max dr_p pc in
  (forall x, In x psi -> -0.90 <= x) /\ (forall x, In x dxi_psi -> -3 <= x <= 3).
Proof.
  unfold psi_at_particles. split.
  - intros x X. apply in_map_iff in X. destruct X as (v & <- & _). unfold bounded_psi.
    destruct (Rlt_dec _ _); lra.
  - intros x X. apply in_map_iff in X. destruct X as (v & <- & _). unfold clip3.
    destruct (Rlt_dec 3 _); destruct (Rlt_dec _ (-3)); lra.
Qed.
Lemma grid_guards r_fld r q idx r_max pc psi k j m :
  orders idx r -> length q = length r -> positive r -> r <> [] -> 0 < r_max -> is_largest r m ->
  (j < 2 \/ 2 + Z.of_nat (length r_fld) <= j)%Z ->
  cell (calculate_psi r_fld r q idx r_max pc psi k) (k + 2) j =
  cell psi (k + 2) j - potential r q r_max pc (Rmax m r_max).
Proof.
  intros H L P N RM M J. pose proof (largest_last idx r H N) as LL. rewrite (largest_unique r m _ M LL).
  unfold calculate_psi, shift_row. cbn [cell]. rewrite Z.eqb_refl.
  rewrite (potential_sums idx r q) by (auto; apply Rmax_l).
  f_equal. unfold set_row. cbn [cell]. rewrite Z.eqb_refl, on_grid_length. cbn [andb].
  destruct (Z.leb_spec 2 j); [|reflexivity]. destruct (Z.ltb_spec j (2 + Z.of_nat (length r_fld))); [lia|reflexivity].
Qed.
