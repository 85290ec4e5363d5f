(** Proofs about the energy kick. *)
From Coq Require Import QArith Qround Qreals Reals List Arith Lqa Lra Lia ZArith.
From Verif Require Import Model_Float32 Model_Push Model_Bunch Model_CSR Spec_CSR Proofs_CSR
  Proofs_CSR2 Proofs_CSR3 Proofs_CSR4 Proofs_CSR5.
Import ListNotations.
Open Scope R_scope.

(** ** A lattice without bends *)
Lemma lattice_snoc l o : lattice (l ++ [o]) =
  match o with Add e => lattice l ++ [e] | Clear => [] | Settings _ _ _ => lattice l end.
Proof. unfold lattice. rewrite fold_left_app. reflexivity. Qed.
Lemma run_snoc rnd l o : run rnd (l ++ [o]) = apply_op rnd (run rnd l) o.
Proof. unfold run. rewrite fold_left_app. reflexivity. Qed.
Lemma straight_table rnd l t : (forall e, In e (lattice l) -> e_theta e = 0) ->
  c_traj (run rnd l) = Some t -> Forall straight t.
Proof.
  revert t. induction l as [|o l IH] using rev_ind; intros t H E; [discriminate|].
  rewrite lattice_snoc in H. rewrite run_snoc in E. destruct o as [e| |a b n]; cbn [apply_op] in E.
  - unfold add_lattice_element in E. cbv zeta in E. cbn [c_traj] in E. injection E as <-.
    assert (He : e_theta e = 0) by (apply H, in_or_app; right; left; reflexivity).
    set (t0 := match c_traj (run rnd l) with None => [origin] | Some t => t end).
    assert (S0 : Forall straight t0 /\ straight (last t0 origin)).
    { assert (O : straight origin) by (repeat split; reflexivity).
      assert (S0 : Forall straight t0).
      { unfold t0. destruct (c_traj (run rnd l)) as [t|]; [|constructor; [exact O|constructor]].
        apply IH; [|reflexivity]. intros a Ha. apply H, in_or_app. left. exact Ha. }
      split; [exact S0|]. destruct t0 as [|p t0]; [exact O|].
      apply (proj1 (Forall_forall _ _) S0). apply last_in. discriminate. }
    destruct S0 as [S0 S1]. apply Forall_app. split; [exact S0|].
    apply Forall_forall. intros p Hp. apply in_map_iff in Hp as (k & <- & _). rewrite He.
    apply straight_arc, S1.
  - discriminate.
  - apply (IH t H E).
Qed.
Lemma argmin_bound l b ib i : (ib < i)%nat -> (argmin_from b ib i l < i + length l)%nat.
Proof.
  revert b ib i. induction l as [|a l IH]; intros b ib i H; cbn; [lia|].
  destruct (Rlt_dec a b); [specialize (IH a i (S i) ltac:(lia))|specialize (IH b ib (S i) ltac:(lia))]; lia.
Qed.
Lemma nearest_bound s t : t <> [] -> (nearest s t < length t)%nat.
Proof.
  intros H. unfold nearest. destruct t as [|p t]; [congruence|]. cbn [map length].
  pose proof (argmin_bound (map (fun p => Rabs (t_s p - s)) t) (Rabs (t_s p - s)) 0 1 ltac:(lia)).
  rewrite map_length in H0. lia.
Qed.
Lemma it_range_bound c e pos it t : c_traj c = Some t -> t <> [] -> In it (it_range c e pos) ->
  (0 < it < length t)%nat.
Proof.
  intros E Ht H. unfold it_range in H. rewrite E in H. apply in_map_iff in H as (k & <- & Hk).
  apply in_seq in Hk. pose proof (nearest_bound (s_before (c_elems c) e + pos) t Ht). lia.
Qed.

(** ** Histogram *)
Lemma hist_range z : hist_lo z < hist_hi z.
Proof.
  unfold hist_lo, hist_hi.
  assert (list_min z <= list_max z).
  { destruct z as [|a z]; [apply Rle_refl|]. apply Rle_trans with a;
      [apply list_min_le|apply list_max_ge]; left; reflexivity. }
  destruct (Req_EM_T _ _); lra.
Qed.
Lemma bin_size_eq z n : bin_edge z n 1 - bin_edge z n 0 = (hist_hi z - hist_lo z) / INR n.
Proof. unfold bin_edge. cbn [INR]. ring. Qed.
Lemma bin_size_pos z n : (0 < n)%nat -> 0 < bin_edge z n 1 - bin_edge z n 0.
Proof.
  intros H. rewrite bin_size_eq. pose proof (hist_range z). apply Rdiv_lt_0_compat; [lra|].
  apply lt_0_INR. exact H.
Qed.
Lemma sum_plus2 {A} (f g : A -> R) l : sum (map (fun a => f a + g a) l) = sum (map f l) + sum (map g l).
Proof. unfold sum. induction l as [|a l IH]; cbn; [ring|]. rewrite IH. ring. Qed.
Lemma sum_single (q : R) j n : (j < n)%nat ->
  sum (map (fun k => if Nat.eqb j k then q else 0) (seq 0 n)) = q.
Proof.
  intros H. assert (G : forall a n, (a <= j < a + n)%nat ->
    sum (map (fun k => if Nat.eqb j k then q else 0) (seq a n)) = q).
  { clear. intros a n. revert a. induction n as [|n IH]; intros a H; [lia|].
    cbn [seq map]. unfold sum. cbn [fold_right]. fold (sum (map (fun k => if Nat.eqb j k then q else 0) (seq (S a) n))).
    destruct (Nat.eqb_spec j a) as [->|N].
    - assert (Z : zeros (map (fun k => if Nat.eqb a k then q else 0) (seq (S a) n))).
      { apply z_all. intros k Hk. apply in_seq in Hk. destruct (Nat.eqb_spec a k); [lia|reflexivity]. }
      rewrite (z_sum _ Z). ring.
    - rewrite IH by lia. ring. }
  apply G. lia.
Qed.
Lemma bin_of_lt z n v : (0 < n)%nat -> (bin_of z n v < n)%nat.
Proof. intros H. unfold bin_of. lia. Qed.
Lemma hist_total z q n : (0 < n)%nat -> length z = length q -> sum (histogram z q n) = sum q.
Proof.
  intros Hn. unfold histogram.
  assert (G : forall (zs : list R) q, length zs = length q ->
    sum (map (fun k => sum (map2 (fun v qi => if Nat.eqb (bin_of z n v) k then qi else 0) zs q))
      (seq 0 n)) = sum q).
  { clear q. intros zs. induction zs as [|v zs IH]; intros [|a q] H; try discriminate.
    - apply z_sum, z_all. intros; reflexivity.
    - cbn [map2]. unfold sum at 2. cbn [fold_right].
      change (sum (map (fun k => (if Nat.eqb (bin_of z n v) k then a else 0)
        + sum (map2 (fun v0 qi => if Nat.eqb (bin_of z n v0) k then qi else 0) zs q)) (seq 0 n))
        = sum (a :: q)).
      rewrite sum_plus2. rewrite sum_single by (apply bin_of_lt; exact Hn).
      rewrite IH by (injection H; auto). reflexivity. }
  apply G.
Qed.

(** A particle is put into the bin whose edges enclose it. *)
Lemma bin_encloses z n v : (0 < n)%nat -> In v z ->
  bin_edge z n (bin_of z n v) <= v <= bin_edge z n (S (bin_of z n v)).
Proof.
  intros Hn Hv. pose proof (hist_range z) as HR.
  assert (B : hist_lo z <= v <= hist_hi z).
  { pose proof (list_min_le z v Hv). pose proof (list_max_ge z v Hv).
    unfold hist_lo, hist_hi. destruct (Req_EM_T _ _); lra. }
  set (lo := hist_lo z) in *. set (hi := hist_hi z) in *.
  assert (HnR : 0 < INR n) by (apply lt_0_INR; exact Hn).
  set (u := (v - lo) / (hi - lo) * INR n).
  assert (U : 0 <= u <= INR n).
  { unfold u. assert (0 <= (v - lo) / (hi - lo) <= 1).
    { split; [apply Rmult_le_pos; [lra|left; apply Rinv_0_lt_compat; lra]|].
      apply (Rmult_le_reg_r (hi - lo)); [lra|]. unfold Rdiv. rewrite Rmult_assoc, Rinv_l by lra. lra. }
    split; [apply Rmult_le_pos; lra|]. rewrite <- (Rmult_1_l (INR n)) at 2.
    apply Rmult_le_compat_r; lra. }
  assert (V : v = lo + u * ((hi - lo) / INR n)) by (unfold u; field; lra).
  destruct (base_Int_part u) as [P1 P2].
  assert (P3 : (0 <= Int_part u)%Z) by (apply Z.lt_succ_r; apply lt_IZR; unfold Z.succ; rewrite plus_IZR; lra).
  assert (W : INR (bin_of z n v) <= u <= INR (S (bin_of z n v))).
  { unfold bin_of. fold lo hi u. rewrite S_INR.
    assert (IZ : INR (Z.to_nat (Int_part u)) = IZR (Int_part u)) by (rewrite INR_IZR_INZ, Z2Nat.id by exact P3; reflexivity).
    destruct (Nat.min_spec (Z.to_nat (Int_part u)) (n - 1)) as [[A ->]|[A ->]].
    - rewrite IZ. lra.
    - apply le_INR in A. rewrite IZ in A. rewrite minus_INR in * by lia.
      change (INR 1) with 1 in *. lra. }
  unfold bin_edge. fold lo hi. set (b := bin_of z n v) in *. clearbody b u. clear U B P1 P2 P3 Hv.
  subst v.
  assert (D : 0 < (hi - lo) / INR n) by (apply Rdiv_lt_0_compat; lra).
  set (d := (hi - lo) / INR n) in *. clearbody d.
  split; apply Rplus_le_compat_l; apply Rmult_le_compat_r; lra.
Qed.

(** ** Kick *)
Lemma z_repeat n : zeros (repeat 0 n).
Proof. induction n; constructor; [reflexivity|assumption]. Qed.
Lemma kick_length c e pos gamma z q dp : csr_kick c e pos gamma z q = Some dp -> length dp = length z.
Proof.
  unfold csr_kick. destruct (it_range c e pos); [discriminate|]. intros E.
  injection E as <-. apply map_length.
Qed.
Lemma straight_kick c e pos gamma z q t dp :
  c_traj c = Some t -> t <> [] -> increasing t -> Forall straight t -> 1 < gamma -> (0 < c_bins c)%nat ->
  csr_kick c e pos gamma z q = Some dp -> zeros dp.
Proof.
  intros Et Ht It St Hg Hn. unfold csr_kick. rewrite Et.
  pose proof (it_range_bound c e pos) as B. destruct (it_range c e pos) as [|i0 is_]; [discriminate|].
  set (its := i0 :: is_) in *. intros E. injection E as <-.
  set (bs := bin_edge z (c_bins c) 1 - bin_edge z (c_bins c) 0) in *.
  assert (HB : 0 < bs) by (apply bin_size_pos; exact Hn).
  assert (K : forall l acc, (forall it, In it l -> In it its) -> zeros acc ->
    zeros (fold_left (fun acc it => map2 Rplus acc (kernel it t (c_bins c) bs gamma)) l acc)).
  { induction l as [|a l IH]; intros acc Hl Ha; [exact Ha|]. cbn [fold_left]. apply IH.
    - intros it Hit. apply Hl. right. exact Hit.
    - apply z_plus; [exact Ha|]. apply straight_kernel; try assumption.
      apply (B a t Et Ht). apply Hl. left. reflexivity. }
  specialize (K its (repeat 0 (c_bins c)) (fun it H => H) (z_repeat _)).
  apply z_all. intros zi _. rewrite z_interp; [unfold Rdiv; ring|].
  apply z_map; [unfold Rdiv; ring|]. unfold convolve. apply z_all. intros k _.
  apply z_sum, z_all. intros i _. rewrite (z_nth _ (k - i)); [ring|].
  apply Forall_rev, z_map; [unfold Rdiv; ring|exact K].
Qed.
Lemma zero_kick cols dp : cols_ok cols -> zeros dp -> length dp = length cols ->
  map2 (fun v d => [nth 0 v 0; nth 1 v 0; nth 2 v 0; nth 3 v 0; nth 4 v 0; nth 5 v 0 + d]) cols dp
  = cols.
Proof.
  intros H. revert dp. induction H as [|v cols Hv H IH]; intros dp Hz Hl; [reflexivity|].
  destruct Hz as [|d dp -> Hz]; [discriminate|]. cbn [map2]. f_equal.
  - do 7 (destruct v as [|? v]; try discriminate). cbn. rewrite Rplus_0_r. reflexivity.
  - apply IH; [exact Hz|injection Hl; auto].
Qed.
Lemma straight_apply rnd l e pos gamma q cols cols' :
  (forall x, (0 < x)%Q -> (0 < rnd x)%Q) -> Forall ok_op l -> lattice l <> [] ->
  (forall a, In a (lattice l) -> e_theta a = 0) -> 1 < gamma -> (0 < c_bins (run rnd l))%nat ->
  cols_ok cols -> apply_csr (run rnd l) e pos gamma q cols = Some cols' -> cols' = cols.
Proof.
  intros Hr Ho Hl Hth Hg Hn Hc. unfold apply_csr.
  destruct (csr_kick _ _ _ _ _ _) as [dp|] eqn:E; [|discriminate]. intros F. injection F as <-.
  destruct (table rnd Hr l Ho Hl) as (t & T & T2 & T3 & T4 & T5).
  apply zero_kick; [exact Hc| |].
  - refine (straight_kick _ e pos gamma _ q t dp T _ _ (straight_table rnd l t Hth T) Hg Hn E).
    + destruct t; [discriminate|congruence].
    + exact T3.
  - rewrite (kick_length _ _ _ _ _ _ _ E), map_length. reflexivity.
Qed.
