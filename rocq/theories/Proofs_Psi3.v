(** The potential on the grid and at the particles. *)
From Coq Require Import Reals Lra ZArith Lia List Bool Arith Permutation.
From Coquelicot Require Import Coquelicot.
From Verif Require Import Model_Push Model_Interp Model_Psi Spec_Psi Proofs_Psi Proofs_Psi2.
Import ListNotations.
Open Scope R_scope.

Lemma sum_firstn_nth (l : list R) n : (n < length l)%nat -> 0 + sumR (firstn (S n) l) = sumR (firstn (S n) l).
Proof. intros; ring. Qed.

Lemma grid_value r_fld r q idx r_max pc psi k j m :
  orders idx r -> length q = length r -> positive r -> r <> [] -> 0 < r_max ->
  positive r_fld -> (forall a b, (a < b < length r_fld)%nat -> nth a r_fld 0 <= nth b r_fld 0) ->
  is_largest r m -> (0 <= j < Z.of_nat (length r_fld))%Z ->
  cell (calculate_psi r_fld r q idx r_max pc psi k) (k + 2) (2 + j) =
  potential r q r_max pc (nth (Z.to_nat j) r_fld 0) - potential r q r_max pc (Rmax m r_max).
Proof.
  intros H L P N RM PF SF M J. pose proof (orders_length _ _ H) as LI.
  assert (0 < length r)%nat by (destruct r; simpl; [congruence|lia]).
  pose proof (largest_last idx r H N) as LL. rewrite (largest_unique r m _ M LL).
  set (x := nth (Z.to_nat j) r_fld 0).
  assert (X : 0 < x) by (apply PF, nth_In; lia).
  unfold calculate_psi, shift_row. cbn [cell]. rewrite Z.eqb_refl.
  rewrite (potential_sums idx r q) by (auto; apply Rmax_l).
  f_equal. unfold set_row. cbn [cell]. rewrite Z.eqb_refl, on_grid_length. cbn [andb].
  rewrite (proj2 (Z.leb_le 2 (2 + j))) by lia. rewrite (proj2 (Z.ltb_lt (2 + j) _)) by lia. cbn [andb].
  replace (2 + j - 2)%Z with j by lia.
  rewrite on_grid_nth.
  2: apply orders_sorted, H. 2: exact SF. 2: lia. 2: rewrite take_length; simpl; lia.
  2: intros y i _ I; simpl in I; lia. 2: lia.
  fold x. rewrite <- (potential_sorted idx r q r_max pc x) by assumption.
  destruct (count (take idx r) x) as [|n] eqn:C; [reflexivity|].
  pose proof (count_le (take idx r) x) as CL. rewrite C, take_length in CL.
  assert (NI : (n < length idx)%nat) by lia.
  f_equal.
  - rewrite put_nth; auto. rewrite running_nth by (rewrite take_length; lia). ring.
    eapply orders_nodup; eauto. intros i I. rewrite repeat_length. eapply orders_lt; eauto.
    rewrite running_length, take_length. reflexivity.
  - rewrite put_nth; auto.
    rewrite running_nth by (rewrite map2_length', take_length; [lia|rewrite !take_length; reflexivity]). ring.
    eapply orders_nodup; eauto. intros i I. rewrite repeat_length. eapply orders_lt; eauto.
    rewrite running_length, map2_length', take_length; auto. rewrite !take_length. reflexivity.
Qed.
Lemma grid_other r_fld r q idx r_max pc psi k i j : i <> (k + 2)%Z ->
  cell (calculate_psi r_fld r q idx r_max pc psi k) i j = cell psi i j.
Proof.
  intros I. unfold calculate_psi, shift_row, set_row. cbn [cell].
  apply Z.eqb_neq in I. rewrite I. reflexivity.
Qed.
Lemma potential_continuous r q r_max pc x : positive r -> 0 < r_max -> 0 < x ->
  continuous (potential r q r_max pc) x.
Proof.
  intros P RM X. apply (continuous_minus (electron_potential r q) (ion_potential r_max pc)).
  apply electron_continuous; auto.
  apply ex_derive_continuous. eexists. apply ion_potential_derive; auto.
Qed.
Lemma potential_derive r q r_max pc x : positive r -> 0 < r_max -> 0 < x -> ~ In x r ->
  is_derive (potential r q r_max pc) x (slope r q r_max pc x).
Proof.
  intros P RM X N. unfold slope.
  replace ((electron_charge r q x - ion_charge r_max pc x) / x) with
    (minus (electron_charge r q x / x) (ion_charge r_max pc x / x)) by (unfold minus, plus, opp; simpl; field; lra).
  apply (is_derive_minus (electron_potential r q) (ion_potential r_max pc)).
  apply electron_derive; auto. apply ion_potential_derive; auto.
Qed.
Lemma sum_below_all r x f : (forall y, In y r -> y < x) -> sum_below r x f = sumR (map f (seq 0 (length r))).
Proof.
  intros A. unfold sum_below. f_equal. apply map_ext_in. intros i I. apply in_seq in I.
  destruct (Rlt_dec (nth i r 0) x) as [|N]; auto. destruct N. apply A, nth_In. lia.
Qed.
Lemma map_nth_seq (l : list R) : map (fun i => nth i l 0) (seq 0 (length l)) = l.
Proof. rewrite map_seq_firstn by auto. apply firstn_all. Qed.
Lemma electron_far r q x : positive r -> length q = length r -> (forall y, In y r -> y <= x) -> r <> [] ->
  electron_potential r q x = sumR q * ln x - sumR (map (fun i => nth i q 0 * ln (nth i r 0)) (seq 0 (length r))).
Proof.
  intros P L A N. unfold electron_potential, sum_below.
  transitivity (sumR (map (fun i => ln x * nth i q 0 + -1 * (nth i q 0 * ln (nth i r 0))) (seq 0 (length r)))).
  - f_equal. apply map_ext_in. intros i I. apply in_seq in I.
    assert (IL : (i < length r)%nat) by lia. pose proof (positive_nth r i P IL).
    pose proof (A _ (nth_In _ 0 IL)). destruct (Rlt_dec (nth i r 0) x).
    + rewrite ln_div by lra. ring.
    + replace (nth i r 0) with x by lra. ring.
  - rewrite sumR_map_plus, (sumR_map_scale (fun i => nth i q 0)), (sumR_map_scale (fun i => nth i q 0 * ln (nth i r 0))).
    rewrite <- L at 1. rewrite map_nth_seq. ring.
Qed.
Lemma potential_outside r q r_max pc m x : positive r -> length q = length r -> 0 < r_max ->
  is_largest r m -> Rmax m r_max <= x ->
  potential r q r_max pc x - potential r q r_max pc (Rmax m r_max)
  = (sumR q - ion_charge r_max pc x) * ln (x / Rmax m r_max).
Proof.
  intros P L RM [MI MM] X. pose proof (Rmax_l m r_max). pose proof (Rmax_r m r_max).
  assert (r <> []) by (intros ->; destruct MI).
  unfold potential. rewrite !electron_far; auto; try (intros y Y; specialize (MM y Y); lra).
  rewrite (ion_charge_far r_max pc RM x) by lra.
  pose proof (ion_potential_far r_max pc RM x (Rmax m r_max) ltac:(lra) ltac:(lra)) as E.
  rewrite ln_div by lra. lra.
Qed.

(** ** At the particles *)
Lemma between_chord f a b x : between a b (f a) (f b) x = chord f a b x.
Proof. unfold between, chord, Rdiv. ring. Qed.
Fixpoint logs (rs qs : list R) : list R :=
  match rs, qs with r :: rs', q :: qs' => (q * ln r) :: logs rs' qs' | _, _ => [] end.
Lemma logs_map2 rs qs : logs rs qs = map2 (fun r q => q * ln r) rs qs.
Proof. revert qs; induction rs as [|a rs IH]; intros [|q qs]; simpl; auto. rewrite IH. reflexivity. Qed.
Definition prev_of (prev : option R) (rs : list R) (k : nat) : option R :=
  match k with O => prev | S j => Some (nth j rs 0) end.
Lemma psi_loop_length r_max dr_p pc prev s1 s2 rs qs : length rs = length qs ->
  length (psi_loop r_max dr_p pc prev s1 s2 rs qs) = length rs.
Proof. revert prev s1 s2 qs; induction rs; intros prev s1 s2 [|q qs] L; simpl in *; auto; lia. Qed.
Lemma psi_loop_nth r_max dr_p pc rs : forall prev s1 s2 qs k, length rs = length qs -> (k < length rs)%nat ->
  nth k (psi_loop r_max dr_p pc prev s1 s2 rs qs) (0, 0) =
  (let r_i := nth k rs 0 in
   let s1k := s1 + sumR (firstn k qs) in let s2k := s2 + sumR (firstn k (logs rs qs)) in
   let s1n := s1 + sumR (firstn (S k) qs) in let s2n := s2 + sumR (firstn (S k) (logs rs qs)) in
   let p := prev_of prev rs k in
   let xl := left_of p r_i in let xr := right_of dr_p r_i (skipn (S k) rs) in
   (between xl xr (match p with Some _ => delta_psi_eq xl s1k s2k r_max pc | None => 0 end)
      (delta_psi_eq xr s1n s2n r_max pc) r_i,
    between xl xr (match p with Some _ => dr_psi_eq xl s1k r_max pc | None => 0 end)
      (dr_psi_eq xr s1n r_max pc) r_i)).
Proof.
  induction rs as [|x rs IH]; intros prev s1 s2 [|q qs] k L K; cbn [length] in *; try lia.
  cbn [psi_loop]. destruct k as [|k].
  - cbn [nth firstn skipn logs sumR prev_of]. rewrite !Rplus_0_r. reflexivity.
  - cbn [nth]. rewrite IH by lia.
    cbn zeta. cbn [logs skipn prev_of].
    replace (prev_of (Some x) rs k) with (Some (nth k (x :: rs) 0)) by (destruct k; reflexivity).
    cbn [nth]. change (firstn (S (S k)) (q :: qs)) with (q :: firstn (S k) qs).
    change (firstn (S (S k)) (q * ln x :: logs rs qs)) with (q * ln x :: firstn (S k) (logs rs qs)).
    change (firstn (S k) (q :: qs)) with (q :: firstn k qs).
    change (firstn (S k) (q * ln x :: logs rs qs)) with (q * ln x :: firstn k (logs rs qs)).
    cbn [sumR]. rewrite <- !Rplus_assoc. reflexivity.
Qed.
Fixpoint flows (rs ps qs psis : list R) : list R :=
  match rs, ps, qs, psis with
  | r :: rs', p :: ps', q :: qs', s :: psis' => ((q * p) / (r * (1 + s))) :: flows rs' ps' qs' psis'
  | _, _, _, _ => []
  end.
Lemma flows_terms rs ps qs psis : flows rs ps qs psis = terms_3 rs ps qs psis.
Proof.
  revert ps qs psis; induction rs as [|r rs IH]; intros [|p ps] [|q qs] [|s psis]; simpl; auto.
  rewrite IH. reflexivity.
Qed.
Lemma flows_nth rs : forall ps qs psis k, length ps = length rs -> length qs = length rs -> length psis = length rs ->
  (k < length rs)%nat -> nth k (flows rs ps qs psis) 0 =
  (nth k qs 0 * nth k ps 0) / (nth k rs 0 * (1 + nth k psis 0)).
Proof.
  induction rs as [|r rs IH]; intros [|p ps] [|q qs] [|s psis] k A B C K; cbn [length] in *; try lia.
  destruct k; cbn [flows nth]; auto. apply IH; lia.
Qed.
Lemma flows_length rs : forall ps qs psis, length ps = length rs -> length qs = length rs -> length psis = length rs ->
  length (flows rs ps qs psis) = length rs.
Proof.
  induction rs as [|r rs IH]; intros [|p ps] [|q qs] [|s psis] A B C; cbn [length] in *; try lia; auto.
  cbn [flows length]. rewrite IH; lia.
Qed.
Lemma dxi_loop_length dr_p rs : forall prev s3 ps qs psis,
  length ps = length rs -> length qs = length rs -> length psis = length rs ->
  length (dxi_loop dr_p prev s3 rs ps qs psis) = length rs.
Proof.
  induction rs as [|r rs IH]; intros prev s3 [|p ps] [|q qs] [|s psis] A B C; cbn [length] in *; try lia; auto.
  cbn [dxi_loop length]. rewrite IH; lia.
Qed.
Lemma dxi_loop_nth dr_p rs : forall prev s3 ps qs psis k,
  length ps = length rs -> length qs = length rs -> length psis = length rs -> (k < length rs)%nat ->
  nth k (dxi_loop dr_p prev s3 rs ps qs psis) 0 =
  (let r_i := nth k rs 0 in let p := prev_of prev rs k in
   let xl := left_of p r_i in let xr := right_of dr_p r_i (skipn (S k) rs) in
   between xl xr (match p with Some _ => - (s3 + sumR (firstn k (flows rs ps qs psis))) | None => 0 end)
     (- (s3 + sumR (firstn (S k) (flows rs ps qs psis)))) r_i).
Proof.
  induction rs as [|x rs IH]; intros prev s3 [|p ps] [|q qs] [|s psis] k A B C K; cbn [length] in *; try lia.
  cbn [dxi_loop]. destruct k as [|k].
  - cbn [nth firstn skipn flows sumR prev_of]. rewrite !Rplus_0_r. reflexivity.
  - cbn [nth]. rewrite IH by lia. cbn zeta. cbn [skipn prev_of flows].
    replace (prev_of (Some x) rs k) with (Some (nth k (x :: rs) 0)) by (destruct k; reflexivity).
    cbn [nth]. set (t := q * p / (x * (1 + s))).
    change (firstn (S (S k)) (t :: flows rs ps qs psis)) with (t :: firstn (S k) (flows rs ps qs psis)).
    change (firstn (S k) (t :: flows rs ps qs psis)) with (t :: firstn k (flows rs ps qs psis)).
    cbn [sumR]. rewrite <- !Rplus_assoc. reflexivity.
Qed.

Section Particles.
  Variables (r pr q : list R) (idx : list nat) (r_max dr_p pc : R).
  Hypotheses (H : orders idx r) (ND : NoDup r) (P : positive r) (LQ : length q = length r)
    (LP : length pr = length r) (RM : 0 < r_max) (DP : 0 < dr_p).
  Let n := length r.
  Let rs := take idx r.

  Lemma rs_length : length rs = n.
  Proof. unfold rs, n. rewrite take_length. apply orders_length, H. Qed.
  Lemma rs_nth k : (k < n)%nat -> nth k rs 0 = nth (nth k idx 0%nat) r 0.
  Proof. intros K. apply take_nth. rewrite (orders_length _ _ H). exact K. Qed.
  Lemma rs_strict i j : (i < j < n)%nat -> nth i rs 0 < nth j rs 0.
  Proof.
    intros IJ. destruct (orders_sorted idx r H i j) as [|E]; auto.
    { rewrite take_length, (orders_length _ _ H). exact IJ. }
    exfalso. fold rs in E. rewrite !rs_nth in E by lia.
    rewrite NoDup_nth in ND. apply ND in E; try (apply orders_nth_lt; auto; fold n; lia).
    pose proof (orders_nodup _ _ H) as N. rewrite NoDup_nth in N.
    apply N in E; try (rewrite (orders_length _ _ H); fold n; lia). lia.
  Qed.
  Lemma rs_pos k : (k < n)%nat -> 0 < nth k rs 0.
  Proof. intros K. rewrite rs_nth by auto. apply positive_nth; auto. apply orders_nth_lt; auto. Qed.

  Lemma mid_left_model k : (k < n)%nat -> left_of (prev_of None rs k) (nth k rs 0) = mid_left idx r k.
  Proof.
    intros K. destruct k as [|j]; [reflexivity|]. cbn [prev_of left_of mid_left].
    rewrite !rs_nth by lia. reflexivity.
  Qed.
  Lemma mid_right_model k : (k < n)%nat -> right_of dr_p (nth k rs 0) (skipn (S k) rs) = mid_right dr_p idx r k.
  Proof.
    intros K. unfold mid_right. fold n. destruct (Nat.ltb_spec (S k) n) as [L|L].
    - rewrite skipn_cons by (rewrite rs_length; auto). cbn [right_of]. rewrite !rs_nth by lia. reflexivity.
    - rewrite skipn_all2 by (rewrite rs_length; auto). cbn [right_of]. rewrite rs_nth by lia. reflexivity.
  Qed.
  Lemma mid_left_count k : (S k < n)%nat -> count rs (mid_left idx r (S k)) = S k.
  Proof.
    intros K. unfold mid_left. rewrite <- !rs_nth by lia. pose proof (rs_strict k (S k) ltac:(lia)).
    apply count_unique.
    - rewrite rs_length; lia.
    - intros j J. destruct (Nat.eq_dec j k) as [->|]; [lra|]. pose proof (rs_strict j k ltac:(lia)). lra.
    - intros j J. rewrite rs_length in J. destruct (Nat.eq_dec j (S k)) as [->|]; [lra|].
      pose proof (rs_strict (S k) j ltac:(lia)). lra.
  Qed.
  Lemma mid_right_count k : (k < n)%nat -> count rs (mid_right dr_p idx r k) = S k.
  Proof.
    intros K. unfold mid_right. fold n. destruct (Nat.ltb_spec (S k) n) as [L|L].
    - exact (mid_left_count k L).
    - rewrite <- !rs_nth by lia. apply count_unique.
      + rewrite rs_length; lia.
      + intros j J. destruct (Nat.eq_dec j k) as [->|]; [lra|]. pose proof (rs_strict j k ltac:(lia)). lra.
      + rewrite rs_length. intros; lia.
  Qed.
  Lemma mid_right_above k : (k < n)%nat -> nth k rs 0 < mid_right dr_p idx r k.
  Proof. intros K. apply count_below. rewrite mid_right_count; lia. Qed.
  Lemma mid_left_below k : (k < n)%nat -> mid_left idx r k < nth k rs 0.
  Proof.
    intros K. destruct k as [|k]; [apply rs_pos; auto|]. unfold mid_left. rewrite <- !rs_nth by lia.
    pose proof (rs_strict k (S k) ltac:(lia)). lra.
  Qed.
  Lemma mid_left_pos k : (S k < n)%nat -> 0 < mid_left idx r (S k).
  Proof. intros K. unfold mid_left. rewrite <- !rs_nth by lia. pose proof (rs_pos k ltac:(lia)). pose proof (rs_pos (S k) ltac:(lia)). lra. Qed.
  Lemma mid_right_pos k : (k < n)%nat -> 0 < mid_right dr_p idx r k.
  Proof. intros K. pose proof (mid_right_above k K). pose proof (rs_pos k K). lra. Qed.

  Lemma nothing_below_0 f : sum_below r 0 f = 0.
  Proof.
    unfold sum_below. transitivity (sumR (map (fun _ => 0) (seq 0 (length r)))).
    - f_equal. apply map_ext_in. intros i I. apply in_seq in I.
      destruct (Rlt_dec (nth i r 0) 0); auto. pose proof (positive_nth r i P ltac:(lia)). lra.
    - generalize (seq 0 (length r)). induction l; simpl; lra.
  Qed.
  Lemma potential_axis : potential r q r_max pc 0 = 0.
  Proof. unfold potential, electron_potential. rewrite nothing_below_0, ion_potential_0. ring. Qed.
  Lemma slope_axis : slope r q r_max pc 0 = 0.
  Proof. unfold slope, electron_charge. rewrite nothing_below_0, ion_charge_0. unfold Rdiv. ring. Qed.

  Lemma psi_loop_value k : (k < n)%nat ->
    nth k (psi_loop r_max dr_p pc None 0 0 rs (take idx q)) (0, 0) =
    (chord (potential r q r_max pc) (mid_left idx r k) (mid_right dr_p idx r k) (nth (nth k idx 0%nat) r 0),
     chord (slope r q r_max pc) (mid_left idx r k) (mid_right dr_p idx r k) (nth (nth k idx 0%nat) r 0)).
  Proof.
    intros K. rewrite psi_loop_nth by (rewrite ?rs_length, ?take_length, ?(orders_length _ _ H); auto).
    cbn zeta. rewrite mid_left_model, mid_right_model by assumption.
    rewrite logs_map2. rewrite !Rplus_0_l. rewrite rs_nth by assumption.
    assert (A1 : delta_psi_eq (mid_right dr_p idx r k) (sumR (firstn (S k) (take idx q)))
      (sumR (firstn (S k) (map2 (fun r q => q * ln r) rs (take idx q)))) r_max pc
      = potential r q r_max pc (mid_right dr_p idx r k)).
    { pose proof (potential_sorted idx r q r_max pc (mid_right dr_p idx r k) H LQ P RM (mid_right_pos k K)) as E.
      fold rs in E. rewrite mid_right_count in E by assumption. exact E. }
    assert (A2 : dr_psi_eq (mid_right dr_p idx r k) (sumR (firstn (S k) (take idx q))) r_max pc
      = slope r q r_max pc (mid_right dr_p idx r k)).
    { pose proof (slope_sorted idx r q r_max pc (mid_right dr_p idx r k) H LQ RM (mid_right_pos k K)) as E.
      fold rs in E. rewrite mid_right_count in E by assumption. exact E. }
    rewrite A1, A2, <- !between_chord.
    destruct k as [|k]; cbn [prev_of].
    - cbn [mid_left]. rewrite potential_axis, slope_axis. reflexivity.
    - pose proof (potential_sorted idx r q r_max pc (mid_left idx r (S k)) H LQ P RM (mid_left_pos k K)) as E.
      fold rs in E. rewrite mid_left_count in E by assumption. rewrite E.
      pose proof (slope_sorted idx r q r_max pc (mid_left idx r (S k)) H LQ RM (mid_left_pos k K)) as E2.
      fold rs in E2. rewrite mid_left_count in E2 by assumption. rewrite E2. reflexivity.
  Qed.

  (** Values of the three arrays. *)
  Let first := psi_loop r_max dr_p pc None 0 0 rs (take idx q).
  Lemma last_rs : (0 < n)%nat -> last_right dr_p rs = mid_right dr_p idx r (n - 1).
  Proof.
    intros N. unfold last_right, mid_right. rewrite last_nth, rs_length. fold n.
    destruct (Nat.ltb_spec (S (n - 1)) n); [lia|]. rewrite rs_nth by lia. reflexivity.
  Qed.
  Definition the_edge : R := Rmax (mid_right dr_p idx r (n - 1)) r_max.
  Lemma edge_value : (0 < n)%nat ->
    delta_psi_eq (Rmax (last_right dr_p rs) r_max) (sum_1_of (take idx q)) (sum_2_of rs (take idx q)) r_max pc
    = potential r q r_max pc the_edge.
  Proof.
    intros N. unfold the_edge. rewrite last_rs by assumption. unfold rs. rewrite (potential_sums idx r q); auto.
    - intros E. unfold n in N. rewrite E in N. simpl in N. lia.
    - eapply Rle_trans; [|apply Rmax_l]. fold rs. rewrite last_nth, rs_length. left. apply mid_right_above. lia.
  Qed.
  Let out := psi_at_particles r pr q idx r_max dr_p pc.
  Let psi := fst (fst out).
  Let dr_psi := snd (fst out).
  Let dxi_psi := snd out.
  Lemma out_lengths : length psi = n /\ length dr_psi = n /\ length dxi_psi = n.
  Proof.
    unfold psi, dr_psi, dxi_psi, out, psi_at_particles. cbn [fst snd].
    rewrite !map_length, !put_length, !repeat_length. auto.
  Qed.
  Lemma nth_take_map (f : R -> R) v k : length v = n -> (k < n)%nat ->
    nth (nth k idx 0%nat) (map f (put idx v (repeat 0 n))) 0 = f (nth k v 0).
  Proof.
    intros L K. rewrite (nth_indep _ 0 (f 0)) by (rewrite map_length, put_length, repeat_length; apply orders_nth_lt; auto).
    rewrite map_nth. f_equal. apply put_nth; auto.
    - eapply orders_nodup; eauto.
    - intros i I. rewrite repeat_length. eapply orders_lt; eauto.
    - rewrite (orders_length _ _ H). exact L.
    - rewrite (orders_length _ _ H). exact K.
  Qed.
  Lemma nth_put v k : length v = n -> (k < n)%nat ->
    nth (nth k idx 0%nat) (put idx v (repeat 0 n)) 0 = nth k v 0.
  Proof. intros L K. rewrite <- (map_id (put idx v (repeat 0 n))). apply (nth_take_map (fun x => x)); auto. Qed.
  Lemma nth_map_pair {A} (f : R * R -> A) l k d : (k < length l)%nat -> nth k (map f l) d = f (nth k l (0, 0)).
  Proof. intros K. rewrite (nth_indep _ d (f (0, 0))) by (rewrite map_length; auto). apply map_nth. Qed.
  Lemma psi_value k : (k < n)%nat -> nth (nth k idx 0%nat) psi 0 =
    Rmax (-0.90) (chord (potential r q r_max pc) (mid_left idx r k) (mid_right dr_p idx r k)
       (nth (nth k idx 0%nat) r 0) - potential r q r_max pc the_edge).
  Proof.
    intros K. assert (LF : length first = n).
    { unfold first. rewrite psi_loop_length; rewrite ?rs_length, ?take_length, ?(orders_length _ _ H); auto. }
    unfold psi, out, psi_at_particles. cbn [fst snd]. fold rs n first.
    rewrite edge_value by lia.
    rewrite (nth_take_map (fun v => bounded_psi (v - potential r q r_max pc the_edge)))
      by (rewrite ?map_length; auto).
    rewrite nth_map_pair by lia. unfold first. rewrite psi_loop_value by assumption. cbn [fst].
    unfold bounded_psi. match goal with |- (if Rlt_dec ?a _ then _ else _) = _ => set (v := a) end.
    destruct (Rlt_dec v (-0.90)); [rewrite Rmax_left|rewrite Rmax_right]; lra.
  Qed.
  Lemma dr_psi_value k : (k < n)%nat -> nth (nth k idx 0%nat) dr_psi 0 =
    chord (slope r q r_max pc) (mid_left idx r k) (mid_right dr_p idx r k) (nth (nth k idx 0%nat) r 0).
  Proof.
    intros K. assert (LF : length first = n).
    { unfold first. rewrite psi_loop_length; rewrite ?rs_length, ?take_length, ?(orders_length _ _ H); auto. }
    unfold dr_psi, out, psi_at_particles. cbn [fst snd]. fold rs n first.
    rewrite nth_put by (rewrite ?map_length; auto). rewrite nth_map_pair by lia.
    unfold first. rewrite psi_loop_value by assumption. reflexivity.
  Qed.
  Lemma flow_sorted x : flow r pr q psi x =
    sumR (firstn (count rs x) (flows rs (take idx pr) (take idx q) (take idx psi))).
  Proof.
    unfold flow. rewrite (sum_below_sorted idx r x _ H). f_equal. fold rs.
    pose proof (count_le rs x) as C. rewrite rs_length in C.
    assert (LT : forall l, length (take idx l) = length rs) by (intros; rewrite rs_length, take_length; apply orders_length, H).
    rewrite <- map_seq_firstn by (rewrite flows_length; rewrite ?LT, ?rs_length; auto).
    apply map_ext_in. intros k K. apply in_seq in K.
    rewrite flows_nth by (rewrite ?LT, ?rs_length; auto; lia).
    rewrite rs_nth by lia. rewrite !take_nth by (rewrite (orders_length _ _ H); fold n; lia).
    unfold velocity, Rdiv. rewrite Rinv_mult. ring.
  Qed.
  (** The derivative of the boundary term, as written in the code. *)
  Definition code_shift : R :=
    let x := mid_right dr_p idx r (n - 1) in
    if Rle_dec x r_max then flow r pr q psi x
    else flow r pr q psi x - (sumR q - r_max ^ 2 / 2 - pc * r_max / 4) * velocity pr psi (nth (n - 1) idx 0%nat) / x.
  Lemma last_take l : (0 < n)%nat -> last (take idx l) 0 = nth (nth (n - 1) idx 0%nat) l 0.
  Proof. intros N. rewrite last_nth, take_length, (orders_length _ _ H). apply take_nth. rewrite (orders_length _ _ H). fold n. lia. Qed.
  Lemma sumR_take : sumR (take idx q) = sumR q.
  Proof.
    unfold take. rewrite (sumR_perm _ (map (fun i => nth i q 0) (seq 0 (length q)))).
    - rewrite map_nth_seq. reflexivity.
    - apply Permutation_map. rewrite LQ. apply H.
  Qed.
  Lemma dxi_psi_value k : (k < n)%nat -> nth (nth k idx 0%nat) dxi_psi 0 =
    Rmax (-3) (Rmin 3 (chord (fun x => - flow r pr q psi x) (mid_left idx r k) (mid_right dr_p idx r k)
       (nth (nth k idx 0%nat) r 0) + code_shift)).
  Proof.
    intros K. assert (LT : forall l, length (take idx l) = length rs) by (intros; rewrite rs_length, take_length; apply orders_length, H).
    assert (SH : dxi_boundary r_max dr_p pc rs (take idx pr) (take idx q) (take idx psi) = code_shift).
    { unfold dxi_boundary, code_shift. rewrite last_rs by lia.
      assert (E : sum_3_of rs (take idx pr) (take idx q) (take idx psi) = flow r pr q psi (mid_right dr_p idx r (n - 1))).
      { unfold sum_3_of. rewrite total_sum, <- flows_terms, flow_sorted, mid_right_count by lia. rewrite Rplus_0_l.
        rewrite firstn_all2; auto. rewrite flows_length; rewrite ?LT, ?rs_length; auto. lia. }
      rewrite E. unfold sum_1_of. rewrite total_sum, sumR_take, Rplus_0_l. rewrite !last_take by lia.
      destruct (Rle_dec _ _); [reflexivity|]. f_equal. unfold velocity, Rdiv. rewrite Rinv_mult. ring. }
    unfold dxi_psi, out, psi_at_particles. cbn [fst snd]. fold rs n first.
    set (ps := map (fun v => bounded_psi (v - _)) _). change ps with psi. clear ps.
    rewrite SH.
    rewrite (nth_take_map (fun v => clip3 (v + code_shift))); auto.
    2: rewrite dxi_loop_length; rewrite ?LT, ?rs_length; auto.
    assert (E : nth k (dxi_loop dr_p None 0 rs (take idx pr) (take idx q) (take idx psi)) 0 =
      chord (fun x => - flow r pr q psi x) (mid_left idx r k) (mid_right dr_p idx r k) (nth (nth k idx 0%nat) r 0)).
    { rewrite dxi_loop_nth by (rewrite ?LT, ?rs_length; auto). cbn zeta.
      rewrite mid_left_model, mid_right_model by assumption. rewrite !Rplus_0_l, rs_nth by assumption.
      rewrite <- (between_chord (fun x => - flow r pr q psi x)). cbn beta.
      rewrite (flow_sorted (mid_right dr_p idx r k)), mid_right_count by assumption.
      destruct k as [|k]; cbn [prev_of].
      - cbn [mid_left]. unfold flow at 1. rewrite nothing_below_0, Ropp_0. reflexivity.
      - rewrite (flow_sorted (mid_left idx r (S k))), mid_left_count by assumption. reflexivity. }
    rewrite E. unfold clip3. match goal with |- context [Rlt_dec 3 ?a] => set (v := a) end.
    destruct (Rlt_dec 3 v).
    - rewrite Rmin_left by lra. destruct (Rlt_dec 3 (-3)); [lra|]. rewrite Rmax_right; lra.
    - rewrite Rmin_right by lra. destruct (Rlt_dec v (-3)); [rewrite Rmax_left|rewrite Rmax_right]; lra.
  Qed.
End Particles.
