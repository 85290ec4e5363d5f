(** Proofs about the value of the energy kick. *)
From Coq Require Import QArith Qround Qreals Reals List Arith Lqa Lra Lia ZArith.
From Verif Require Import Model_Float32 Model_Push Model_Bunch Model_CSR Spec_CSR Proofs_CSR
  Proofs_CSR2 Proofs_CSR3 Proofs_CSR4 Proofs_CSR5 Proofs_CSR6 Proofs_CSR7.
Import ListNotations.
Open Scope R_scope.

(** ** Linear in the charge *)
Lemma sum_scale a l : sum (map (Rmult a) l) = a * sum l.
Proof. unfold sum. induction l as [|v l IH]; cbn; [ring|]. rewrite IH. ring. Qed.
Lemma hist_scale a z q n : histogram z (map (Rmult a) q) n = map (Rmult a) (histogram z q n).
Proof.
  unfold histogram. rewrite map_map. apply map_ext. intros k. rewrite <- sum_scale. f_equal.
  generalize z at 2 4. intros zs. revert q. induction zs as [|v zs IH]; intros [|x q]; try reflexivity.
  cbn. f_equal; [|apply IH]. destruct (Nat.eqb _ _); [reflexivity|ring].
Qed.
Lemma kde_scale a xs ws f : a <> 0 -> sum ws <> 0 -> kde xs (map (Rmult a) ws) f = kde xs ws f.
Proof.
  intros Ha Hs. unfold kde. rewrite sum_scale, map_map.
  replace (map (fun x => a * x / (a * sum ws)) ws) with (map (fun v => v / sum ws) ws); [reflexivity|].
  apply map_ext. intros v. field. split; assumption.
Qed.
Lemma interp_scale a xs fs x : interp xs (map (Rmult a) fs) x = a * interp xs fs x.
Proof.
  unfold interp. destruct xs as [|x0 xs]; [cbn; ring|]. destruct fs as [|f0 fs]; [cbn; ring|].
  cbn [map]. destruct (Rlt_dec x x0); [reflexivity|]. clear n. revert x0 f0 fs.
  induction xs as [|x1 xs IH]; intros x0 f0 [|f1 fs]; try reflexivity.
  cbn [interp_from map]. destruct (Rlt_dec x x1); [unfold Rdiv; ring|apply IH].
Qed.
Lemma convolve_scale a u v : convolve (map (Rmult a) u) v = map (Rmult a) (convolve u v).
Proof.
  unfold convolve. rewrite map_length, map_map. apply map_ext. intros k.
  rewrite <- sum_scale, map_map. f_equal. apply map_ext. intros i.
  replace (nth i (map (Rmult a) u) 0) with (a * nth i u 0); [ring|].
  rewrite <- (map_nth (Rmult a)). rewrite Rmult_0_r. reflexivity.
Qed.
Lemma kick_scale a c e pos gamma z q : a <> 0 -> sum q <> 0 -> length z = length q -> (0 < c_bins c)%nat ->
  csr_kick c e pos gamma z (map (Rmult a) q) =
  option_map (map (Rmult a)) (csr_kick c e pos gamma z q).
Proof.
  intros Ha Hs Hl Hn. unfold csr_kick. destruct (it_range c e pos) as [|i0 is_]; [reflexivity|].
  cbn [option_map]. f_equal. rewrite hist_scale, (map_length (Rmult a) q).
  set (hist := histogram z q (c_bins c)).
  assert (HS : sum hist <> 0) by (unfold hist; rewrite hist_total by assumption; exact Hs).
  rewrite kde_scale by assumption. rewrite sum_scale.
  set (pdf := kde _ hist _). set (bs := bin_edge z _ 1 - _).
  replace (map (fun p => p * bs * (a * sum hist)) pdf) with
    (map (Rmult a) (map (fun p => p * bs * sum hist) pdf))
    by (rewrite map_map; apply map_ext; intros; ring).
  rewrite convolve_scale. set (cv := convolve _ _). set (ds := Q2R _).
  replace (map (fun v => v / bs * ds) (map (Rmult a) cv)) with (map (Rmult a) (map (fun v => v / bs * ds) cv))
    by (rewrite !map_map; apply map_ext; intros; unfold Rdiv; ring).
  rewrite (map_length (Rmult a)), (map_map _ (Rmult a) z). apply map_ext. intros zi.
  rewrite interp_scale. unfold Rdiv. ring.
Qed.

(** ** Value at the centre of a bin *)
Lemma interp_from_INR f0 fs st m d : (m <= length fs)%nat ->
  interp_from (INR st) f0 (map INR (seq (S st) (length fs))) fs (INR (st + m)) = nth m (f0 :: fs) d.
Proof.
  revert f0 st m. induction fs as [|f1 fs IH]; intros f0 st m Hm.
  - cbn in Hm. assert (m = 0%nat) as -> by lia. reflexivity.
  - cbn [length seq map interp_from]. destruct m as [|m].
    + rewrite Nat.add_0_r. rewrite S_INR. destruct (Rlt_dec _ _); [|lra].
      rewrite (Rminus_diag_eq (INR st) (INR st) eq_refl). cbn [nth]. ring.
    + destruct (Rlt_dec _ _) as [F|F].
      { apply INR_lt in F. lia. }
      replace (st + S m)%nat with (S st + m)%nat by lia. cbn in Hm. rewrite IH by lia. reflexivity.
Qed.
Lemma interp_INR fs m : (m < length fs)%nat -> interp (map INR (seq 0 (length fs))) fs (INR m) = nth m fs 0.
Proof.
  intros H. destruct fs as [|f0 fs]; [cbn in H; lia|]. cbn [length seq map interp].
  destruct (Rlt_dec _ _) as [F|F]; [apply INR_lt in F; lia|].
  exact (interp_from_INR f0 fs 0 m 0 ltac:(cbn in H; lia)).
Qed.
Lemma fold_plus_nth (f : nat -> list R) n its acc k : length acc = n ->
  (forall it, In it its -> length (f it) = n) ->
  length (fold_left (fun acc it => map2 Rplus acc (f it)) its acc) = n /\
  nth k (fold_left (fun acc it => map2 Rplus acc (f it)) its acc) 0 =
  nth k acc 0 + sum (map (fun it => nth k (f it) 0) its).
Proof.
  revert acc. induction its as [|i its IH]; intros acc Ha Hf.
  - split; [exact Ha|]. cbn. ring.
  - cbn [fold_left].
    assert (M : forall a b : list R, length a = length b ->
      length (map2 Rplus a b) = length a /\ forall k, nth k (map2 Rplus a b) 0 = nth k a 0 + nth k b 0).
    { clear. induction a as [|x a IH]; intros [|y b] E; try discriminate.
      - split; [reflexivity|]. intros [|k]; cbn; ring.
      - destruct (IH b) as [A B]; [injection E; auto|]. split; [cbn; rewrite A; reflexivity|].
        intros [|k]; [reflexivity|apply B]. }
    destruct (M acc (f i)) as [M1 M2]; [rewrite Ha, Hf by (left; reflexivity); reflexivity|].
    destruct (IH (map2 Rplus acc (f i))) as [I1 I2].
    + rewrite M1. exact Ha.
    + intros it Hit. apply Hf. right. exact Hit.
    + split; [exact I1|]. rewrite I2, M2. unfold sum. cbn [map fold_right]. ring.
Qed.
Lemma sum_ext_in {A} (f g : A -> R) l : (forall a, In a l -> f a = g a) -> sum (map f l) = sum (map g l).
Proof. intros H. f_equal. apply map_ext_in. exact H. Qed.
Lemma nth_repeat0 n k : nth k (repeat 0 n) 0 = 0.
Proof. apply z_nth, z_repeat. Qed.
Lemma kernel_length i t n bs gamma : (0 < i < length t)%nat -> increasing t -> 1 < gamma ->
  (0 < n)%nat -> 0 < bs -> length (kernel i t n bs gamma) = n.
Proof.
  intros Hi It Hg Hn Hb. pose proof (kernel_spec i t n bs gamma Hi It Hg Hn Hb) as K. cbv zeta in K.
  destruct (long_range _ _ _ _). rewrite K, map_length, seq_length. reflexivity.
Qed.
Lemma nth_map_seq (f : nat -> R) n k : (k < n)%nat -> nth k (map f (seq 0 n)) 0 = f k.
Proof.
  intros H. rewrite (nth_indep _ 0 (f 0%nat)) by (rewrite map_length, seq_length; exact H).
  rewrite map_nth, seq_nth by exact H. reflexivity.
Qed.

Section Value.
Variables (c : csr) (e : elem) (po gamma : R) (z q : list R) (t : list tp).
Hypothesis (Et : c_traj c = Some t) (It : increasing t) (Ht : t <> []) (Hg : 1 < gamma)
  (Hl : length z = length q) (Hn : (0 < c_bins c)%nat).
Let n := c_bins c.
Let bs := bin_width z n.
Let its := it_range c e po.

Lemma bs_eq : bin_edge z n 1 - bin_edge z n 0 = bs.
Proof. apply bin_size_eq. Qed.
Lemma bs_pos : 0 < bs.
Proof. rewrite <- bs_eq. apply bin_size_pos. exact Hn. Qed.
(** The field seen from [d] bins behind, averaged over the points of the step. *)
Let field (d : nat) : R :=
  sum (map (fun it => nth (n - 1 - d) (kernel it t n bs gamma) 0) its) / INR (length its).

Lemma kick_value dp p m : csr_kick c e po gamma z q = Some dp ->
  (p < length z)%nat -> (m < n)%nat -> nth p z 0 = bin_center z n m ->
  nth p dp 0 = sum (map (fun j => profile z q n j * field (m - j)) (seq 0 (S m)))
    * (Q2R (get_csr_step c e) / bs) / (10 ^ 9 * (sqrt (gamma ^ 2 - 1) * (511 / 10 ^ 6))).
Proof.
  unfold csr_kick. rewrite Et. fold n.
  pose proof (fun it => it_range_bound c e po it t Et Ht) as B. fold its in B. fold its. 
  assert (HI : its = [] \/ 0 < INR (length its)).
  { destruct its; [left; reflexivity|right]. apply lt_0_INR. cbn. lia. }
  assert (KL : forall it, In it its -> length (kernel it t n bs gamma) = n).
  { intros it Hit. apply kernel_length; try assumption; [apply B; exact Hit|exact bs_pos]. }
  destruct HI as [HI|HI]; [rewrite HI; discriminate|].
  intros E Hp Hm Hz.
  assert (EI : exists i0 is_, its = i0 :: is_) by (destruct its; [cbn in HI; lra|eauto]).
  destruct EI as (i0 & is_ & EI). rewrite EI in E. cbv beta iota zeta in E. rewrite <- EI in E.
  set (X := fold_left (fun acc it => map2 Rplus acc (kernel it t n (bin_edge z n 1 - bin_edge z n 0) gamma)) its (repeat 0 n)) in *.
  assert (HX : length X = n /\ forall k, nth k X 0 = sum (map (fun it => nth k (kernel it t n bs gamma) 0) its)).
  { unfold X. rewrite bs_eq. split.
    - apply (fold_plus_nth (fun it => kernel it t n bs gamma) n its (repeat 0 n) 0);
        [apply repeat_length|exact KL].
    - intros k. destruct (fold_plus_nth (fun it => kernel it t n bs gamma) n its (repeat 0 n) k) as [_ F];
        [apply repeat_length|exact KL|]. rewrite F, nth_repeat0. ring. }
  destruct HX as [HX1 HX2]. clearbody X.
  assert (E' : Some dp = Some (map (fun zi => interp (map INR (seq 0 (length (map (fun v => v / bs * Q2R (get_csr_step c e))
      (convolve (map (profile z q n) (seq 0 n)) (rev (map (fun v => v / INR (length its)) X)))))))
      (map (fun v => v / bs * Q2R (get_csr_step c e))
      (convolve (map (profile z q n) (seq 0 n)) (rev (map (fun v => v / INR (length its)) X))))
      (zi * (1 / bs) - bin_center z n 0 / bs) * (1 / 10 ^ 9) / (sqrt (gamma ^ 2 - 1) * (511 / 10 ^ 6))) z)).
  { rewrite <- E. f_equal. rewrite bs_eq.
    assert (CE : map (fun k => bin_edge z n (S k) - bs / 2) (seq 0 n) = map (bin_center z n) (seq 0 n)).
    { apply map_ext. intros k. unfold bin_edge, bin_center. fold (bin_width z n). fold bs. rewrite S_INR. field. }
    rewrite CE.
    assert (PE : map (fun p0 => p0 * bs * sum (histogram z q n))
       (kde (map (bin_center z n) (seq 0 n)) (histogram z q n) (Rpower (INR (length q)) (-1 / 5)))
       = map (profile z q n) (seq 0 n)).
    { set (K := kde _ _ _).
      assert (KLn : length K = n) by (unfold K, kde; rewrite !map_length, seq_length; reflexivity).
      rewrite hist_total by assumption.
      apply (nth_ext _ _ 0 0); [rewrite !map_length, seq_length; exact KLn|].
      rewrite map_length, KLn. intros k Hk. rewrite nth_map_seq by exact Hk.
      rewrite (nth_indep _ 0 ((fun p0 => p0 * bs * sum q) 0)) by (rewrite map_length; lia).
      rewrite (map_nth (fun p0 => p0 * bs * sum q)). reflexivity. }
    rewrite PE.
    assert (HD : hd 0 (map (bin_center z n) (seq 0 n)) = bin_center z n 0) by (destruct n; [lia|reflexivity]).
    rewrite HD. reflexivity. }
  clear E. injection E' as ->.
  set (lam := map (fun v => v / bs * Q2R (get_csr_step c e)) _).
  assert (LL : length lam = (n + n - 1)%nat).
  { unfold lam, convolve. rewrite !map_length, seq_length, rev_length, !map_length, seq_length, HX1. reflexivity. }
  match goal with |- nth p (map ?f z) 0 = _ =>
    rewrite (nth_indep _ 0 (f 0)) by (rewrite map_length; exact Hp); rewrite (map_nth f) end.
  rewrite Hz. pose proof bs_pos as BP.
  replace (bin_center z n m * (1 / bs) - bin_center z n 0 / bs) with (INR m).
  2: { unfold bin_center. fold bs. cbn [INR]. field. lra. }
  rewrite interp_INR by lia.
  unfold lam. rewrite (nth_indep _ 0 ((fun v => v / bs * Q2R (get_csr_step c e)) 0)) by (fold lam; lia).
  rewrite (map_nth (fun v => v / bs * Q2R (get_csr_step c e))).
  unfold convolve. rewrite nth_map_seq.
  2: { rewrite rev_length, !map_length, seq_length, HX1. lia. }
  transitivity (sum (map (fun j => profile z q n j * field (m - j)) (seq 0 (S m)))
    / bs * Q2R (get_csr_step c e) * (1 / 10 ^ 9) / (sqrt (gamma ^ 2 - 1) * (511 / 10 ^ 6))).
  2: { set (SS := sum (map (fun j => profile z q n j * field (m - j)) (seq 0 (S m)))).
    clearbody SS. assert (0 < sqrt (gamma ^ 2 - 1)) by (apply sqrt_lt_R0; nra). field. lra. }
  do 4 f_equal. apply sum_ext_in. intros j Hj. apply in_seq in Hj. rewrite nth_map_seq by lia. f_equal.
  rewrite rev_nth by (rewrite map_length, HX1; lia). rewrite map_length, HX1.
  rewrite (nth_indep _ 0 ((fun v => v / INR (length its)) 0)) by (rewrite map_length, HX1; lia).
  rewrite (map_nth (fun v => v / INR (length its))). rewrite HX2. unfold field.
  replace (n - S (m - j))%nat with (n - 1 - (m - j))%nat by lia. reflexivity.
Qed.
End Value.

(** ** Only the energy changes *)
Lemma apply_spec c e po gamma q cols cols' : apply_csr c e po gamma q cols = Some cols' ->
  length cols' = length cols /\
  exists kick : R -> R, forall p, (p < length cols)%nat ->
    nth p cols' [] = let v := nth p cols [] in
      [nth 0 v 0; nth 1 v 0; nth 2 v 0; nth 3 v 0; nth 4 v 0; nth 5 v 0 + kick (nth 4 v 0)].
Proof.
  unfold apply_csr, csr_kick. destruct (it_range c e po) as [|i0 is_]; [discriminate|].
  intros E. injection E as <-.
  match goal with |- context [map ?f (map (fun v => - nth 4 v 0) cols)] => generalize f end.
  intros f.
  assert (G : forall l : list (list R), map2 (fun v d => [nth 0 v 0; nth 1 v 0; nth 2 v 0; nth 3 v 0; nth 4 v 0; nth 5 v 0 + d])
    l (map f (map (fun v => - nth 4 v 0) l)) = map (fun v => [nth 0 v 0; nth 1 v 0; nth 2 v 0; nth 3 v 0; nth 4 v 0;
      nth 5 v 0 + f (- nth 4 v 0)]) l).
  { induction l as [|v l IH]; [reflexivity|]. cbn [map map2]. f_equal. exact IH. }
  rewrite G. split; [apply map_length|]. exists (fun x => f (- x)). intros p Hp.
  match goal with |- nth p (map ?g cols) [] = _ =>
    rewrite (nth_indep _ [] (g [])) by (rewrite map_length; exact Hp); rewrite (map_nth g) end.
  reflexivity.
Qed.

(** ** Smoothing *)
Lemma map2_map_l {A B C D} (f : A -> B -> C) (g : D -> A) l m :
  map2 f (map g l) m = map2 (fun a b => f (g a) b) l m.
Proof. revert m. induction l as [|a l IH]; intros [|b m]; try reflexivity. cbn. f_equal. apply IH. Qed.
Lemma map2_ext {A B C} (f g : A -> B -> C) l m : (forall a b, f a b = g a b) -> map2 f l m = map2 g l m.
Proof. intros H. revert m. induction l as [|a l IH]; intros [|b m]; try reflexivity. cbn. f_equal; auto. Qed.
Lemma sum_map2_div {A B} (f : A -> B -> R) k l m : sum (map2 (fun a b => f a b / k) l m) = sum (map2 f l m) / k.
Proof.
  unfold sum. revert m. induction l as [|a l IH]; intros [|b m]; cbn; try (unfold Rdiv; ring).
  rewrite IH. unfold Rdiv. ring.
Qed.
Lemma kde_spec xs ws f : sum ws <> 0 -> kde xs ws f = map (fun x => gaussian_density xs ws f x) xs.
Proof.
  intros Hs. unfold kde, gaussian_density. cbv zeta.
  set (mean := sum (map2 Rmult _ xs)).
  assert (M : mean = average xs ws).
  { unfold mean, average. rewrite map2_map_l.
    rewrite (map2_ext _ (fun w x => x * w / sum ws)) by (intros; field; exact Hs).
    rewrite sum_map2_div. f_equal. f_equal. clear. revert ws.
    induction xs as [|x xs IH]; intros [|w ws]; try reflexivity. cbn. f_equal. apply IH. }
  rewrite M. set (mu := average xs ws).
  rewrite map2_map_l.
  rewrite (map2_ext (fun a b => a / sum ws * (b - mu) ^ 2) (fun a b => a * (b - mu) ^ 2 / sum ws))
    by (intros; unfold Rdiv; ring).
  rewrite sum_map2_div. rewrite map_map.
  assert (Q : sum (map (fun x => (x / sum ws) ^ 2) ws) = sum (map (fun x => x ^ 2) ws) / sum ws ^ 2).
  { assert (G : forall l, sum (map (fun x => (x / sum ws) ^ 2) l) = sum (map (fun x => x ^ 2) l) / sum ws ^ 2).
    { induction l as [|a l IH]; [cbn; field; exact Hs|]. unfold sum at 1 3 in IH. unfold sum at 1 3. cbn [map fold_right].
      rewrite IH. field. exact Hs. }
    apply G. }
  rewrite Q. apply map_ext. intros x. rewrite map2_map_l.
  match goal with |- sum (map2 ?g ws xs) / ?d = _ =>
    rewrite (map2_ext g (fun a b => a * exp (- (x - b) ^ 2 / (2 * (sum (map2 (fun a b => a * (b - mu) ^ 2) ws xs)
      / sum ws / (1 - sum (map (fun x => x ^ 2) ws) / sum ws ^ 2) * f ^ 2))) / sum ws))
      by (intros; unfold Rdiv; ring) end.
  rewrite sum_map2_div. reflexivity.
Qed.
