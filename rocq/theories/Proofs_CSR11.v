(** The kick between the centres of the bins. *)
From Coq Require Import QArith Qround Qreals Reals List Arith Lqa Lra Lia ZArith.
From Verif Require Import Model_Float32 Model_Push Model_Bunch Model_CSR Spec_CSR Proofs_CSR
  Proofs_CSR2 Proofs_CSR3 Proofs_CSR4 Proofs_CSR5 Proofs_CSR6 Proofs_CSR7 Proofs_CSR9.
Import ListNotations.
Open Scope R_scope.

Lemma interp_from_spec : forall xs fs x0 f0 x, length xs = length fs ->
  (forall i, (S i < S (length xs))%nat -> nth i (x0 :: xs) 0 < nth (S i) (x0 :: xs) 0) -> x0 <= x ->
  (nth (length xs) (x0 :: xs) 0 <= x -> interp_from x0 f0 xs fs x = nth (length xs) (f0 :: fs) 0) /\
  (forall i, (S i < S (length xs))%nat -> nth i (x0 :: xs) 0 <= x <= nth (S i) (x0 :: xs) 0 ->
     interp_from x0 f0 xs fs x = ((nth (S i) (x0 :: xs) 0 - x) * nth i (f0 :: fs) 0
        + (x - nth i (x0 :: xs) 0) * nth (S i) (f0 :: fs) 0) / (nth (S i) (x0 :: xs) 0 - nth i (x0 :: xs) 0)).
Proof.
  induction xs as [|x1 xs IH]; intros [|f1 fs] x0 f0 x L M H0; try discriminate.
  - split; [reflexivity|]. intros i Hi. cbn in Hi. lia.
  - assert (M0 : x0 < x1) by (apply (M 0%nat); cbn; lia).
    assert (Mono : forall i, (i <= length xs)%nat -> x1 <= nth i (x1 :: xs) 0).
    { induction i as [|i IHi]; intros Hi; [cbn; lra|].
      pose proof (M (S i) ltac:(cbn; lia)) as A. cbn [nth] in A. specialize (IHi ltac:(lia)).
      cbn [nth] in *. lra. }
    cbn [interp_from]. destruct (Rlt_dec x x1) as [F|F].
    + split.
      * intros H. exfalso. pose proof (Mono (length xs) ltac:(lia)) as A. cbn [length nth] in H, A. lra.
      * intros i Hi [H1 H2]. destruct i as [|i]; [cbn [nth]; field; lra|].
        exfalso. pose proof (Mono i ltac:(cbn in Hi; lia)) as A. cbn [nth] in H1, A. lra.
    + destruct (IH fs x1 f1 x) as [I1 I2]; [injection L; auto| |lra|].
      { intros i Hi. apply (M (S i)). cbn in *. lia. }
      split.
      * intros H. apply I1. exact H.
      * intros i Hi H. destruct i as [|i].
        -- cbn [nth] in H |- *. assert (x = x1) as -> by lra.
           destruct xs as [|x2 xs].
           ++ rewrite I1 by (cbn; lra). cbn. field. lra.
           ++ pose proof (M 1%nat ltac:(cbn; lia)) as M1. cbn [nth] in M1.
              rewrite (I2 0%nat) by (cbn; [lia|lra] || (cbn; lia) || (cbn; lra)). cbn [nth]. field. lra.
        -- apply (I2 i); [cbn in *; lia|exact H].
Qed.
Lemma interp_spec xs fs x : length xs = length fs -> (0 < length xs)%nat ->
  (forall i, (S i < length xs)%nat -> nth i xs 0 < nth (S i) xs 0) ->
  (x <= nth 0 xs 0 -> interp xs fs x = nth 0 fs 0) /\
  (nth (length xs - 1) xs 0 <= x -> interp xs fs x = nth (length xs - 1) fs 0) /\
  (forall i, (S i < length xs)%nat -> nth i xs 0 <= x <= nth (S i) xs 0 ->
     interp xs fs x = ((nth (S i) xs 0 - x) * nth i fs 0 + (x - nth i xs 0) * nth (S i) fs 0)
                      / (nth (S i) xs 0 - nth i xs 0)).
Proof.
  destruct xs as [|x0 xs], fs as [|f0 fs]; cbn [length]; try lia. intros L _ M. injection L as L.
  replace (S (length xs) - 1)%nat with (length xs) by lia.
  assert (Mono : forall i, (i <= length xs)%nat -> x0 <= nth i (x0 :: xs) 0).
  { induction i as [|i IHi]; intros Hi; [cbn; lra|].
    pose proof (M i ltac:(cbn; lia)) as A. specialize (IHi ltac:(lia)). lra. }
  cbn [interp]. destruct (Rlt_dec x x0) as [F|F].
  - split; [reflexivity|]. split.
    + intros H. exfalso. pose proof (Mono (length xs) ltac:(lia)). lra.
    + intros i Hi H. exfalso. pose proof (Mono i ltac:(lia)). lra.
  - destruct (interp_from_spec xs fs x0 f0 x L M ltac:(lra)) as [I1 I2].
    split; [|split; [exact I1|exact I2]].
    intros H. cbn [nth] in H |- *. assert (x = x0) as -> by lra.
    destruct xs as [|x1 xs].
    + rewrite I1 by (cbn; lra). reflexivity.
    + pose proof (M 0%nat ltac:(cbn; lia)) as M0. cbn [nth] in M0.
      rewrite (I2 0%nat); [cbn [nth]; field; lra|cbn; lia|cbn; lra].
Qed.

Section Value.
Variables (c : csr) (e : elem) (po gamma : R) (z q : list R) (t : list tp).
Hypothesis (Et : c_traj c = Some t) (It : increasing t) (Ht : t <> []) (Hg : 1 < gamma)
  (Hl : length z = length q) (Hn : (0 < c_bins c)%nat).
Let n := c_bins c.
Let bs := bin_width z n.
Let its := it_range c e po.

Lemma bs_eq : bin_edge z n 1 - bin_edge z n 0 = bs.
Proof. apply bin_size_eq. Qed.
Lemma bs_pos : 0 < bs.
Proof. rewrite <- bs_eq. apply bin_size_pos. exact Hn. Qed.
Lemma kick_shape dp : csr_kick c e po gamma z q = Some dp ->
  exists lam, length lam = (n + n - 1)%nat /\
    (forall m, (m < n + n - 1)%nat -> nth m lam 0 * (1 / 10 ^ 9) / (sqrt (gamma ^ 2 - 1) * (511 / 10 ^ 6)) =
       kick_at z q t n its (Q2R (get_csr_step c e)) gamma m) /\
    forall p, (p < length z)%nat -> nth p dp 0 =
      interp (map INR (seq 0 (n + n - 1))) lam (nth p z 0 * (1 / bs) - bin_center z n 0 / bs)
      * (1 / 10 ^ 9) / (sqrt (gamma ^ 2 - 1) * (511 / 10 ^ 6)).
Proof.
  unfold csr_kick. rewrite Et. fold n.
  pose proof (fun it => it_range_bound c e po it t Et Ht) as B. fold its in B. fold its. 
  assert (HI : its = [] \/ 0 < INR (length its)).
  { destruct its; [left; reflexivity|right]. apply lt_0_INR. cbn. lia. }
  assert (KL : forall it, In it its -> length (kernel it t n bs gamma) = n).
  { intros it Hit. apply kernel_length; try assumption; [apply B; exact Hit|exact bs_pos]. }
  destruct HI as [HI|HI]; [rewrite HI; discriminate|].
  intros E.
  assert (EI : exists i0 is_, its = i0 :: is_) by (destruct its; [cbn in HI; lra|eauto]).
  destruct EI as (i0 & is_ & EI). rewrite EI in E. cbv beta iota zeta in E. rewrite <- EI in E.
  set (X := fold_left (fun acc it => map2 Rplus acc (kernel it t n (bin_edge z n 1 - bin_edge z n 0) gamma)) its (repeat 0 n)) in *.
  assert (HX : length X = n /\ forall k, nth k X 0 = sum (map (fun it => nth k (kernel it t n bs gamma) 0) its)).
  { unfold X. rewrite bs_eq. split.
    - apply (fold_plus_nth (fun it => kernel it t n bs gamma) n its (repeat 0 n) 0);
        [apply repeat_length|exact KL].
    - intros k. destruct (fold_plus_nth (fun it => kernel it t n bs gamma) n its (repeat 0 n) k) as [_ F];
        [apply repeat_length|exact KL|]. rewrite F, nth_repeat0. ring. }
  destruct HX as [HX1 HX2]. clearbody X.
  assert (E' : Some dp = Some (map (fun zi => interp (map INR (seq 0 (length (map (fun v => v / bs * Q2R (get_csr_step c e))
      (convolve (map (profile z q n) (seq 0 n)) (rev (map (fun v => v / INR (length its)) X)))))))
      (map (fun v => v / bs * Q2R (get_csr_step c e))
      (convolve (map (profile z q n) (seq 0 n)) (rev (map (fun v => v / INR (length its)) X))))
      (zi * (1 / bs) - bin_center z n 0 / bs) * (1 / 10 ^ 9) / (sqrt (gamma ^ 2 - 1) * (511 / 10 ^ 6))) z)).
  { rewrite <- E. f_equal. rewrite bs_eq.
    assert (CE : map (fun k => bin_edge z n (S k) - bs / 2) (seq 0 n) = map (bin_center z n) (seq 0 n)).
    { apply map_ext. intros k. unfold bin_edge, bin_center. fold (bin_width z n). fold bs. rewrite S_INR. field. }
    rewrite CE.
    assert (PE : map (fun p0 => p0 * bs * sum (histogram z q n))
       (kde (map (bin_center z n) (seq 0 n)) (histogram z q n) (Rpower (INR (length q)) (-1 / 5)))
       = map (profile z q n) (seq 0 n)).
    { set (K := kde _ _ _).
      assert (KLn : length K = n) by (unfold K, kde; rewrite !map_length, seq_length; reflexivity).
      rewrite hist_total by assumption.
      apply (nth_ext _ _ 0 0); [rewrite !map_length, seq_length; exact KLn|].
      rewrite map_length, KLn. intros k Hk. rewrite nth_map_seq by exact Hk.
      rewrite (nth_indep _ 0 ((fun p0 => p0 * bs * sum q) 0)) by (rewrite map_length; lia).
      rewrite (map_nth (fun p0 => p0 * bs * sum q)). reflexivity. }
    rewrite PE.
    assert (HD : hd 0 (map (bin_center z n) (seq 0 n)) = bin_center z n 0) by (assert (N0 : (0 < n)%nat) by exact Hn; destruct n; [lia|reflexivity]).
    rewrite HD. reflexivity. }
  clear E. injection E' as ->.
  set (lam := map (fun v => v / bs * Q2R (get_csr_step c e)) _).
  assert (LL : length lam = (n + n - 1)%nat).
  { unfold lam, convolve. rewrite !map_length, seq_length, rev_length, !map_length, seq_length, HX1. reflexivity. }
  exists lam. split; [exact LL|]. split.
  2: { intros p Hp. match goal with |- nth p (map ?f z) 0 = _ =>
    rewrite (nth_indep _ 0 (f 0)) by (rewrite map_length; exact Hp); rewrite (map_nth f) end.
    rewrite LL. reflexivity. }
  intros m Hm. pose proof bs_pos as BP.
  unfold lam. rewrite (nth_indep _ 0 ((fun v => v / bs * Q2R (get_csr_step c e)) 0)) by (fold lam; lia).
  rewrite (map_nth (fun v => v / bs * Q2R (get_csr_step c e))).
  unfold convolve. rewrite nth_map_seq.
  2: { rewrite rev_length, !map_length, seq_length, HX1. lia. }
  unfold kick_at. fold bs.
  match goal with |- sum ?a / _ * _ * _ / _ = sum ?b * _ / _ => assert (SE : a = b) end.
  { apply map_ext_in. intros j Hj. apply in_seq in Hj.
    destruct (Nat.ltb_spec j n) as [J1|J1]; cbn [andb].
    2: { rewrite (nth_overflow (map (profile z q n) (seq 0 n))) by (rewrite map_length, seq_length; lia). ring. }
    rewrite nth_map_seq by lia.
    destruct (Nat.ltb_spec (m - j) n) as [J2|J2].
    2: { rewrite (nth_overflow (rev _)) by (rewrite rev_length, map_length, HX1; lia). ring. }
    f_equal.
    rewrite rev_nth by (rewrite map_length, HX1; lia). rewrite map_length, HX1.
    rewrite (nth_indep _ 0 ((fun v => v / INR (length its)) 0)) by (rewrite map_length, HX1; lia).
    rewrite (map_nth (fun v => v / INR (length its))). rewrite HX2.
    replace (n - S (m - j))%nat with (n - 1 - (m - j))%nat by lia. reflexivity. }
  rewrite SE. match goal with |- sum ?a / _ * _ * _ / _ = _ => set (SS := sum a) end.
  clearbody SS. assert (0 < sqrt (gamma ^ 2 - 1)) by (apply sqrt_lt_R0; nra). field. lra.
Qed.

Lemma kick_between dp p m : csr_kick c e po gamma z q = Some dp -> (2 <= n)%nat ->
  (p < length z)%nat -> (m < n)%nat -> bin_center z n m <= nth p z 0 <= bin_center z n (S m) ->
  nth p dp 0 = ((bin_center z n (S m) - nth p z 0) * kick_at z q t n its (Q2R (get_csr_step c e)) gamma m
     + (nth p z 0 - bin_center z n m) * kick_at z q t n its (Q2R (get_csr_step c e)) gamma (S m)) / bs.
Proof.
  intros E H2 Hp Hm Hz. destruct (kick_shape dp E) as (lam & LL & HL & HP). rewrite HP by exact Hp.
  pose proof bs_pos as BP.
  set (x := nth p z 0 * (1 / bs) - bin_center z n 0 / bs).
  assert (X : nth p z 0 = bin_center z n 0 + x * bs) by (unfold x; field; lra).
  assert (BC : forall k, bin_center z n k = bin_center z n 0 + INR k * bs).
  { intros k. unfold bin_center. fold bs. cbn [INR]. field. }
  rewrite (BC m), (BC (S m)), X in Hz. rewrite S_INR in Hz.
  assert (Hx : INR m <= x <= INR m + 1) by (split; apply (Rmult_le_reg_r bs); lra).
  destruct (interp_spec (map INR (seq 0 (n + n - 1))) lam x) as (_ & _ & I2).
  - rewrite map_length, seq_length, LL. reflexivity.
  - rewrite map_length, seq_length. lia.
  - intros i Hi. rewrite map_length, seq_length in Hi. rewrite !nth_map_seq by lia. rewrite S_INR. lra.
  - rewrite map_length, seq_length in I2. rewrite (I2 m); [|lia|rewrite !nth_map_seq by lia; rewrite S_INR; lra].
    rewrite !nth_map_seq by lia. rewrite <- !HL by lia. rewrite (BC m), (BC (S m)), X, S_INR.
    assert (0 < sqrt (gamma ^ 2 - 1)) by (apply sqrt_lt_R0; nra). field. lra.
Qed.
Lemma kick_below dp p : csr_kick c e po gamma z q = Some dp ->
  (p < length z)%nat -> nth p z 0 <= bin_center z n 0 ->
  nth p dp 0 = kick_at z q t n its (Q2R (get_csr_step c e)) gamma 0.
Proof.
  intros E Hp Hz. destruct (kick_shape dp E) as (lam & LL & HL & HP). rewrite HP by exact Hp.
  pose proof bs_pos as BP. assert (N0 : (0 < n)%nat) by exact Hn.
  set (x := nth p z 0 * (1 / bs) - bin_center z n 0 / bs).
  assert (X : nth p z 0 = bin_center z n 0 + x * bs) by (unfold x; field; lra).
  assert (Hx : x <= 0) by (apply (Rmult_le_reg_r bs); lra).
  destruct (interp_spec (map INR (seq 0 (n + n - 1))) lam x) as (I0 & _ & _).
  - rewrite map_length, seq_length, LL. reflexivity.
  - rewrite map_length, seq_length. lia.
  - intros i Hi. rewrite map_length, seq_length in Hi. rewrite !nth_map_seq by lia. rewrite S_INR. lra.
  - rewrite nth_map_seq in I0 by lia. rewrite I0 by exact Hx. apply HL. lia.
Qed.
End Value.
