(** The equations of the field and their solution. *)
From Coq Require Import Reals Lra ZArith Lia List Bool Arith Permutation.
From Coquelicot Require Import Coquelicot.
From Verif Require Import Model_Push Model_Interp Model_Psi Spec_Psi Proofs_Psi Model_BTheta Spec_BTheta Proofs_BTheta.
Import ListNotations.
Open Scope R_scope.

(** ** One particle *)
Lemma current_derive p i b : 0 < at_ (e_r p) i -> -1 < at_ (e_psi p) i ->
  is_derive (radial_current p i b) 0 (- (c_A (coefficients p i) * b + c_B (coefficients p i))).
Proof.
  unfold radial_current, coefficients. cbn [c_A c_B]. fold (at_ (e_r p) i) (at_ (e_pr p) i) (at_ (e_q p) i)
    (at_ (e_gamma p) i) (at_ (e_psi p) i) (at_ (e_dr_psi p) i) (at_ (e_dxi_psi p) i) (at_ (e_b0 p) i) (at_ (e_na2 p) i).
  unfold force, potential_change, speed.
  generalize (at_ (e_r p) i) (at_ (e_pr p) i) (at_ (e_q p) i)
    (at_ (e_gamma p) i) (at_ (e_psi p) i) (at_ (e_dr_psi p) i) (at_ (e_dxi_psi p) i) (at_ (e_b0 p) i) (at_ (e_na2 p) i).
  intros r pr q g psi drpsi dxipsi b0 na2 R0 P0.
  auto_derive.
  - repeat split; try (rewrite ?Rmult_0_l, ?Rplus_0_r; lra).
  - rewrite ?Rmult_0_l, ?Rplus_0_r. replace 0.5 with (/ 2) by lra. field. repeat split; lra.
Qed.
Lemma step_solves p i a b a' b' : 0 < at_ (e_r p) i -> -1 < at_ (e_psi p) i ->
  let x := at_ (e_r p) i in
  let f_in := a * x + b / x in let f_out := a' * x + b' / x in
  (x * (f_out - f_in) = at_ (e_q p) i * (speed p i ^ 2 - (at_ (e_gamma p) i / (1 + at_ (e_psi p) i) - 1)) /\
   is_derive (radial_current p i ((f_in + f_out) / 2)) 0 (- (2 * a' - 2 * a))) <->
  (a', b') = inh_step exact (coefficients p i) (a, b).
Proof.
  intros R0 P0 x f_in f_out. pose proof (current_derive p i ((f_in + f_out) / 2) R0 P0) as D.
  assert (EC : at_ (e_q p) i * (speed p i ^ 2 - (at_ (e_gamma p) i / (1 + at_ (e_psi p) i) - 1)) = x * c_C (coefficients p i)).
  { unfold speed, coefficients. cbn [c_C]. fold (at_ (e_r p) i) (at_ (e_pr p) i) (at_ (e_q p) i)
    (at_ (e_gamma p) i) (at_ (e_psi p) i). fold x. field. split; unfold x; lra. }
  rewrite EC. set (c := coefficients p i) in *.
  assert (RX : c_r c = x) by reflexivity. assert (X0 : x <> 0) by (unfold x; lra). clearbody c.
  assert (S : (a', b') = inh_step exact c (a, b) <-> x * (f_out - f_in) = x * c_C c /\ 2 * a' - 2 * a = c_A c * ((f_in + f_out) / 2) + c_B c).
  { unfold inh_step, exact. cbn [fst snd]. rewrite RX. unfold f_in, f_out. clear - X0.
    replace (-0.5) with (- / 2) by lra. replace 0.5 with (/ 2) by lra. replace 0.25 with (/ 4) by lra. split.
    - intros E. injection E as -> ->. split; field; assumption.
    - intros [J K]. assert (A' : a' = (1 + / 2 * c_A c * x) * a + / 2 * c_A c / x * b + / 2 * c_B c + / 4 * c_A c * c_C c).
      { apply Rmult_eq_reg_l in J; [|assumption].
        assert (F : a' * x + b' / x = a * x + b / x + c_C c) by lra. rewrite F in K.
        replace a' with (a + (c_A c * ((a * x + b / x + (a * x + b / x + c_C c)) / 2) + c_B c) / 2) by lra.
        field. assumption. }
      f_equal; [exact A'|].
      assert (F : b' = x * (a * x + b / x) + x * c_C c - a' * x * x).
      { rewrite <- J. field. assumption. }
      rewrite F, A'. field. assumption. }
  rewrite S. split; intros [J K]; (split; [assumption|]).
  - apply is_derive_unique in K. apply is_derive_unique in D. rewrite D in K. lra.
  - rewrite K. exact D.
Qed.

(** ** The homogeneous solution grows *)
Lemma hom_grows : forall l u s, 0 <= u -> 1 <= fst s -> 0 <= fst s * u ^ 2 + snd s ->
  (forall k, (k < length l)%nat -> 0 <= c_A (nth k l (mkc 0 0 0 0)) /\ 0 < c_r (nth k l (mkc 0 0 0 0)) /\ u <= c_r (nth k l (mkc 0 0 0 0))) ->
  (forall i j, (i < j < length l)%nat -> c_r (nth i l (mkc 0 0 0 0)) <= c_r (nth j l (mkc 0 0 0 0))) ->
  1 <= fst (hom_end l s).
Proof.
  induction l as [|c l IH]; intros u [K U] U0 K1 P H SRT; [exact K1|].
  destruct (H 0%nat ltac:(simpl; lia)) as (A0 & R0 & R1). cbn [nth] in A0, R0, R1. cbn [fst snd] in *.
  unfold hom_end. cbn [fold_left]. fold (hom_end l (hom_step exact c (K, U))).
  assert (Q : 0 <= K * c_r c ^ 2 + U).
  { assert (u ^ 2 <= c_r c ^ 2) by (apply pow_incr; lra). assert (K * u ^ 2 <= K * c_r c ^ 2) by (apply Rmult_le_compat_l; lra). lra. }
  apply IH with (u := c_r c).
  - lra.
  - unfold hom_step, exact. cbn [fst snd]. replace 0.5 with (/ 2) by lra.
    replace ((1 + / 2 * c_A c * c_r c) * K + / 2 * c_A c / c_r c * U) with
      (K + (/ 2 * c_A c / c_r c) * (K * c_r c ^ 2 + U)) by (field; lra).
    assert (0 <= (/ 2 * c_A c / c_r c) * (K * c_r c ^ 2 + U)); [|lra].
    apply Rmult_le_pos; [|assumption]. apply Rmult_le_pos; [lra|]. left. apply Rinv_0_lt_compat. assumption.
  - unfold hom_step, exact. cbn [fst snd]. replace (-0.5) with (- / 2) by lra. replace 0.5 with (/ 2) by lra.
    match goal with |- _ <= ?t => replace t with (K * c_r c ^ 2 + U) by (field; lra) end. assumption.
  - intros k L. destruct (H (S k) ltac:(simpl; lia)) as (A1 & A2 & _). cbn [nth] in A1, A2.
    repeat split; auto. apply (SRT 0%nat (S k)). simpl. lia.
  - intros i j IJ. apply (SRT (S i) (S j)). simpl. lia.
Qed.

(** ** Regions between the particles *)
Section Regions.
  Variables (rs : list R).
  Let n := length rs.
  Hypothesis POS : forall k, (k < n)%nat -> 0 < nth k rs 0.
  Hypothesis INC : forall i j, (i < j < n)%nat -> nth i rs 0 < nth j rs 0.
  Let nE : n = length rs := eq_refl.
  Definition lo (k : nat) : R := match k with O => 0 | S j => nth j rs 0 end.
  Definition region (k : nat) (x : R) : Prop := lo k < x /\ ((k < n)%nat -> x < nth k rs 0).
  Lemma lo_lt k : (k < n)%nat -> lo k < nth k rs 0.
  Proof. intros K. destruct k; [apply POS; auto|apply INC; lia]. Qed.
  Lemma lo_nonneg k : (k <= n)%nat -> 0 <= lo k.
  Proof. intros K. destruct k; simpl; [lra|]. left. apply POS. lia. Qed.
  Lemma sorted_rs : sorted rs.
  Proof. intros i j I. left. apply INC. exact I. Qed.
  Lemma region_count k x : (k <= n)%nat -> region k x -> count rs x = k.
  Proof.
    intros K [A B]. apply count_unique; auto.
    - intros j J. destruct k as [|k]; [lia|]. cbn [lo] in A. destruct (Nat.eq_dec j k) as [->|]; auto.
      pose proof (INC j k ltac:(lia)). lra.
    - intros j J. specialize (B ltac:(rewrite ?nE in *; lia)). destruct (Nat.eq_dec j k) as [->|]; [lra|].
      pose proof (INC k j ltac:(rewrite ?nE in *; lia)). lra.
  Qed.
  Lemma count_region x : 0 < x -> ~ In x rs -> region (count rs x) x.
  Proof.
    intros X N. split.
    - destruct (count rs x) as [|k] eqn:E; [exact X|]. simpl. apply count_below. lia.
    - intros K. destruct (count_above rs x (count rs x) sorted_rs ltac:(fold n; lia)) as [|E]; auto.
      destruct N. rewrite E at 1. apply nth_In. exact K.
  Qed.
  Lemma region_pos k x : (k <= n)%nat -> region k x -> 0 < x.
  Proof. intros K [A _]. pose proof (lo_nonneg k K). lra. Qed.
  Lemma region_free k x : (k <= n)%nat -> region k x -> ~ In x rs.
  Proof.
    intros K RG IN. destruct (In_nth _ _ 0 IN) as (j & J & E). fold n in J. pose proof (region_count k x K RG) as C.
    destruct RG as [A B]. destruct (lt_dec j k) as [L|L].
    - pose proof (count_below rs x j ltac:(lia)). lra.
    - destruct (Nat.eq_dec j k) as [->|]. { specialize (B J). lra. }
      pose proof (INC k j ltac:(lia)). specialize (B ltac:(lia)). lra.
  Qed.
  Lemma region_open k x : region k x -> locally x (region k).
  Proof.
    intros [A B]. apply filter_and; [apply (open_gt (lo k)); exact A|].
    destruct (lt_dec k n) as [L|L].
    - generalize (open_lt (nth k rs 0) x (B L)). apply filter_imp. auto.
    - apply filter_forall. intros y Y. lia.
  Qed.
  Lemma region_convex k x y z : region k x -> region k y -> x <= z <= y -> region k z.
  Proof. intros [A B] [C D] Z. split; [lra|]. intros K. specialize (D K). lra. Qed.
  Definition centre (k : nat) : R := if lt_dec k n then (lo k + nth k rs 0) / 2 else lo k + 1.
  Lemma centre_in k : (k <= n)%nat -> region k (centre k).
  Proof.
    intros K. unfold centre, region. destruct (lt_dec k n) as [L|L].
    - pose proof (lo_lt k L). split; [lra|intros; lra].
    - split; [lra|intros; lia].
  Qed.
  Lemma const_on k (f : R -> R) : (forall x, region k x -> is_derive f x 0) -> forall x y, region k x -> region k y -> f x = f y.
  Proof.
    intros D. assert (LT : forall x y, region k x -> region k y -> x < y -> f x = f y).
    { intros x y X Y L. apply (eq_is_derive (f : R -> R_NormedModule)); auto. intros t T. apply D. exact (region_convex k x y t X Y T). }
    intros x y X Y. destruct (Rtotal_order x y) as [L|[->|L]]; auto. symmetry. auto.
  Qed.
  Lemma right_side k (f g : R -> R) : (k <= n)%nat -> (forall x, region k x -> f x = g x) -> continuous g (lo k) ->
    filterlim f (at_right (lo k)) (locally (g (lo k))).
  Proof.
    intros K E C. apply (filterlim_ext_loc g).
    - unfold at_right, Hierarchy.within. destruct (lt_dec k n) as [L|L].
      + generalize (open_lt (nth k rs 0) (lo k) (lo_lt k L)). apply filter_imp. intros y Y Z. symmetry. apply E. split; auto.
      + apply filter_forall. intros y Y. symmetry. apply E. split; auto. intros; lia.
    - intros P HP. specialize (C P HP). unfold filtermap, at_right, Hierarchy.within in *. eapply filter_imp; [|exact C]. simpl; auto.
  Qed.
  Lemma left_side k (f g : R -> R) : (k < n)%nat -> (forall x, region k x -> f x = g x) -> continuous g (nth k rs 0) ->
    filterlim f (at_left (nth k rs 0)) (locally (g (nth k rs 0))).
  Proof.
    intros K E C. apply (filterlim_ext_loc g).
    - unfold at_left, Hierarchy.within. generalize (open_gt (lo k) (nth k rs 0) (lo_lt k K)). apply filter_imp.
      intros y Y Z. symmetry. apply E. split; auto.
    - intros P HP. specialize (C P HP). unfold filtermap, at_left, Hierarchy.within in *. eapply filter_imp; [|exact C]. simpl; auto.
  Qed.
End Regions.

Definition piece (ab : R * R) (x : R) : R := fst ab * x + snd ab / x.
Lemma piece_continuous ab x : x <> 0 -> continuous (piece ab) x.
Proof.
  intros X. apply (ex_derive_continuous (piece ab : R -> R_NormedModule)). unfold piece. auto_derive. auto.
Qed.
Lemma const_continuous (c x : R) : continuous (fun _ : R => c) x.
Proof. apply continuous_const. Qed.

Section Solution.
  Variables (p : plasma) (idx : list nat).
  Hypothesis ORD : orders idx (e_r p).
  Hypothesis REG : regular p.
  Let r := e_r p.
  Let n := length r.
  Definition srt := take idx (e_r p).
  Definition chain := map (coefficients p) idx.
  Let DEF := mkc 0 0 0 0.

  Lemma srt_length : length srt = n.
  Proof. unfold srt. rewrite take_length. apply orders_length. exact ORD. Qed.
  Lemma chain_length : length chain = n.
  Proof. unfold chain. rewrite map_length. apply orders_length. exact ORD. Qed.
  Lemma idx_length : length idx = n.
  Proof. apply orders_length. exact ORD. Qed.
  Lemma srt_nth k : (k < n)%nat -> nth k srt 0 = at_ r (nth k idx 0%nat).
  Proof. intros K. unfold srt, at_, r. apply take_nth. rewrite idx_length. exact K. Qed.
  Lemma chain_nth k : (k < n)%nat -> nth k chain DEF = coefficients p (nth k idx 0%nat).
  Proof.
    intros K. unfold chain. rewrite (nth_indep _ DEF (coefficients p 0%nat)) by (rewrite map_length, idx_length; auto).
    apply map_nth.
  Qed.
  Lemma idx_lt k : (k < n)%nat -> (nth k idx 0 < n)%nat.
  Proof. intros K. apply (orders_nth_lt idx (e_r p)); auto. Qed.
  Lemma r_pos i : (i < n)%nat -> 0 < at_ r i.
  Proof. intros I. apply (off_axis p REG). apply nth_In. exact I. Qed.
  Lemma lengths : length (e_q p) = n /\ length (e_psi p) = n.
  Proof. pose proof (same_lengths p REG) as L. inversion L as [|? ? _ L1]; subst. inversion L1 as [|? ? Q L2]; subst. inversion L2 as [|? ? _ L3]; subst. inversion L3 as [|? ? P _]; subst. split; assumption. Qed.
  Lemma q_pos i : (i < n)%nat -> 0 <= at_ (e_q p) i.
  Proof. intros I. apply (electrons p REG). apply nth_In. rewrite (proj1 lengths). exact I. Qed.
  Lemma psi_pos i : (i < n)%nat -> -1 < at_ (e_psi p) i.
  Proof. intros I. apply (forward p REG). apply nth_In. rewrite (proj2 lengths). exact I. Qed.
  Lemma srt_pos k : (k < length srt)%nat -> 0 < nth k srt 0.
  Proof. rewrite srt_length. intros K. rewrite srt_nth by auto. apply r_pos, idx_lt, K. Qed.
  Lemma srt_inc i j : (i < j < length srt)%nat -> nth i srt 0 < nth j srt 0.
  Proof.
    intros IJ. pose proof IJ as IJ'. rewrite srt_length in IJ'. pose proof (orders_sorted idx r ORD i j IJ) as LE.
    change (take idx r) with srt in LE. destruct LE as [|E]; auto. exfalso.
    rewrite !srt_nth in E by lia. unfold at_ in E.
    pose proof (distinct p REG) as ND. rewrite (NoDup_nth (e_r p) 0) in ND.
    apply ND in E; try (apply idx_lt; lia). pose proof (orders_nodup idx r ORD) as NI.
    rewrite (NoDup_nth idx 0%nat) in NI. apply NI in E; try rewrite idx_length; lia.
  Qed.
  Lemma in_srt x : In x srt <-> In x r.
  Proof.
    split; intros I.
    - destruct (In_nth _ _ 0 I) as (k & K & <-). rewrite srt_length in K. rewrite srt_nth by auto. apply nth_In. apply idx_lt. exact K.
    - destruct (In_nth _ _ 0 I) as (i & K & <-). destruct (orders_hit idx r i ORD K) as (k & K' & <-).
      fold n in K'. change (nth (nth k idx 0%nat) r 0) with (at_ r (nth k idx 0%nat)). rewrite <- srt_nth by auto. apply nth_In. rewrite srt_length. exact K'.
  Qed.
  Lemma A_pos i : (i < n)%nat -> 0 <= c_A (coefficients p i).
  Proof.
    intros I. unfold coefficients. cbn [c_A]. pose proof (r_pos i I). pose proof (q_pos i I). pose proof (psi_pos i I).
    unfold at_, r in *. apply Rmult_le_pos; auto. unfold Rdiv. rewrite Rmult_1_l. left. apply Rinv_0_lt_compat. apply Rmult_lt_0_compat; lra.
  Qed.
  Lemma growth : 1 <= fst (hom_end chain (1, 0)).
  Proof.
    apply (hom_grows chain 0); cbn [fst snd]; try lra.
    - intros k K. fold DEF. rewrite chain_length in K. rewrite chain_nth by auto. pose proof (idx_lt k K).
      split; [apply A_pos; auto|]. pose proof (r_pos _ H). unfold coefficients. cbn [c_r]. unfold at_, r in *. split; lra.
    - intros i j IJ. fold DEF. rewrite chain_length in IJ. rewrite !chain_nth by lia.
      change (c_r (coefficients p ?i)) with (at_ r i). rewrite <- !srt_nth by lia. left. apply srt_inc. rewrite srt_length. lia.
  Qed.

  (** Coefficients in region k when the first ones are (a, 0). *)
  Definition st (a : R) (k : nat) : R * R := inh_end (firstn k chain) (a, 0).
  Lemma st_S a k : (k < n)%nat -> st a (S k) = inh_step exact (coefficients p (nth k idx 0%nat)) (st a k).
  Proof.
    intros K. unfold st, inh_end. replace (firstn (S k) chain) with (firstn k chain ++ [nth k chain DEF]).
    - rewrite fold_left_app. cbn [fold_left]. rewrite chain_nth by auto. reflexivity.
    - revert k K. rewrite <- chain_length. generalize chain. induction l as [|c l IH]; intros k K; simpl in K; [lia|].
      destruct k; [reflexivity|]. cbn [firstn app nth]. f_equal. apply IH. lia.
  Qed.
  Lemma st_n a : st a n = inh_end chain (a, 0).
  Proof. unfold st. rewrite <- chain_length, firstn_all. reflexivity. Qed.

  Definition fieldA (a x : R) : R := piece (st a (count srt x)) x.
  Definition curlA (a x : R) : R := 2 * fst (st a (count srt x)).
  Lemma fieldA_on a k x : (k <= n)%nat -> region srt k x -> fieldA a x = piece (st a k) x.
  Proof. intros K RG. unfold fieldA. rewrite (region_count srt srt_pos srt_inc k) by (auto; rewrite srt_length; auto). reflexivity. Qed.
  Lemma curlA_on a k x : (k <= n)%nat -> region srt k x -> curlA a x = 2 * fst (st a k).
  Proof. intros K RG. unfold curlA. rewrite (region_count srt srt_pos srt_inc k) by (auto; rewrite srt_length; auto). reflexivity. Qed.

  (** The function is a solution. *)
  Lemma exists_solution : solves p (fieldA (shoot chain)) (curlA (shoot chain)).
  Proof.
    set (a := shoot chain).
    assert (RG : forall x, 0 < x -> ~ In x (e_r p) -> exists k, (k <= n)%nat /\ region srt k x).
    { intros x X N. exists (count srt x). split. rewrite <- srt_length. apply count_le.
      apply count_region; auto. exact srt_inc. rewrite in_srt. exact N. }
    split.
    - intros x X N. destruct (RG x X N) as (k & K & G). rewrite (curlA_on a k x K G).
      apply (is_derive_ext_loc (fun y => y * piece (st a k) y)).
      + generalize (filter_and _ _ (region_open srt k x G) (open_gt 0 x X)). apply filter_imp. intros y [Y _]. rewrite (fieldA_on a k y K Y). reflexivity.
      + unfold piece. auto_derive; [lra|]. field. lra.
    - intros x X N. destruct (RG x X N) as (k & K & G).
      apply (is_derive_ext_loc (fun y => 2 * fst (st a k))).
      + generalize (region_open srt k x G). apply filter_imp. intros y Y. rewrite (curlA_on a k y K Y). reflexivity.
      + apply @is_derive_const.
    - intros i I. fold r n in I. destruct (orders_hit idx r i ORD I) as (k & K & E). fold n in K.
      assert (X : at_ (e_r p) i = nth k srt 0) by (rewrite srt_nth, E by auto; reflexivity).
      unfold jump. rewrite X.
      assert (X0 : nth k srt 0 <> 0) by (pose proof (srt_pos k ltac:(rewrite srt_length; auto)); lra).
      exists (piece (st a k) (nth k srt 0)), (piece (st a (S k)) (nth k srt 0)), (2 * fst (st a k)), (2 * fst (st a (S k))).
      split; [|split; [|split; [|split]]].
      + apply (left_side srt srt_pos srt_inc k); [rewrite srt_length; auto| |apply piece_continuous; auto].
        intros x G. apply fieldA_on; auto; lia.
      + apply (right_side srt srt_pos srt_inc (S k)); [rewrite srt_length; auto| |apply piece_continuous; auto].
        intros x G. apply fieldA_on; auto; lia.
      + apply (left_side srt srt_pos srt_inc k _ (fun _ => 2 * fst (st a k))); [rewrite srt_length; auto| |apply const_continuous].
        intros x G. apply curlA_on; auto; lia.
      + apply (right_side srt srt_pos srt_inc (S k) _ (fun _ => 2 * fst (st a (S k)))); [rewrite srt_length; auto| |apply const_continuous].
        intros x G. apply curlA_on; auto; lia.
      + pose proof (step_solves p i (fst (st a k)) (snd (st a k)) (fst (st a (S k))) (snd (st a (S k))) (r_pos i I) (psi_pos i I)) as SS.
        cbv zeta in SS. fold (piece (st a k) (at_ (e_r p) i)) (piece (st a (S k)) (at_ (e_r p) i)) in SS. rewrite X in SS.
        apply SS. rewrite <- !surjective_pairing. rewrite st_S, E by auto. reflexivity.
    - assert (P0 : forall x, piece (st a 0) x = a * x) by (intros x; unfold piece, st, inh_end; cbn [firstn fold_left fst snd]; unfold Rdiv; ring).
      assert (Z : filterlim (fieldA a) (at_right (lo srt 0)) (locally ((fun x => a * x) (lo srt 0)))).
      { apply (right_side srt srt_pos srt_inc 0 (fieldA a) (fun x => a * x)).
        + lia.
        + intros x G. rewrite (fieldA_on a 0 x ltac:(lia) G). apply P0.
        + apply (ex_derive_continuous (fun x => a * x : R_NormedModule)). auto_derive. auto. }
      cbn [lo] in Z. rewrite Rmult_0_r in Z. exact Z.
    - intros x X A. assert (G : region srt n x).
      { split. destruct n as [|m] eqn:E; [exact X|]. cbn [lo]. apply A. apply in_srt. apply nth_In. rewrite srt_length, E. lia.
        rewrite srt_length. lia. }
      rewrite (curlA_on a n x) by auto. rewrite st_n. unfold a. rewrite shoot_hits; [ring|]. pose proof growth. lra.
  Qed.

  (** Every solution has this form. *)
  Lemma solution_form field w : solves p field w -> forall k, (k <= n)%nat ->
    exists ab, forall x, region srt k x -> w x = 2 * fst ab /\ field x = piece ab x.
  Proof.
    intros S k K. pose proof K as K'. rewrite <- srt_length in K'.
    pose proof (centre_in srt srt_pos srt_inc k K') as CI. set (c := centre srt k) in *.
    assert (FREE : forall x, region srt k x -> 0 < x /\ ~ In x (e_r p)).
    { intros x G. split. apply (region_pos srt srt_pos k); auto. intros I. apply in_srt in I. revert I. apply (region_free srt srt_pos srt_inc k); auto. }
    exists (w c / 2, c * field c - w c / 2 * c ^ 2). intros x G.
    assert (W : w x = w c).
    { apply (const_on srt k w); auto. intros y Y. destruct (FREE y Y). apply (no_current p field w S); auto. }
    split; [cbn [fst]; lra|].
    assert (B : x * field x - w c / 2 * x ^ 2 = c * field c - w c / 2 * c ^ 2).
    { apply (const_on srt k (fun y => y * field y - w c / 2 * y ^ 2)); auto. intros y Y. destruct (FREE y Y) as [Y0 YN].
      pose proof (is_curl p field w S y Y0 YN) as D.
      assert (WY : w y = w c). { apply (const_on srt k w); auto. intros z Z. destruct (FREE z Z). apply (no_current p field w S); auto. }
      replace 0 with (minus (y * w y) (w c * y)) by (unfold minus, plus, opp; simpl; rewrite WY; ring).
      apply @is_derive_minus; [exact D|]. auto_derive; auto. field. }
    destruct (FREE x G) as [X0 _]. unfold piece. cbn [fst snd]. rewrite <- B. field. lra.
  Qed.
  Lemma solution_chain field w : solves p field w -> exists a, forall k, (k <= n)%nat ->
    forall x, region srt k x -> w x = 2 * fst (st a k) /\ field x = piece (st a k) x.
  Proof.
    intros S. destruct (solution_form field w S 0%nat ltac:(lia)) as ([a b] & F0).
    assert (B0 : b = 0).
    { (* x field x tends to 0 and to b *)
      assert (L1 : filterlim (fun x => x * field x) (at_right 0) (locally b)).
      { cut (filterlim (fun x => x * field x) (at_right (lo srt 0)) (locally ((fun x => a * x ^ 2 + b) (lo srt 0)))).
        { cbn [lo]. replace (a * 0 ^ 2 + b) with b by ring. auto. }
        apply (right_side srt srt_pos srt_inc 0 _ (fun x => a * x ^ 2 + b)); [lia| |].
        - intros x G. destruct (F0 x G) as [_ ->]. destruct G as [G _]. simpl in G. unfold piece. cbn [fst snd]. field. lra.
        - apply (ex_derive_continuous (fun x => a * x ^ 2 + b : R_NormedModule)). auto_derive. auto. }
      assert (L2 : filterlim (fun x => x * field x) (at_right 0) (locally 0)).
      { cut (filterlim (fun x => x * field x) (at_right 0) (locally (0 * 0))). { rewrite Rmult_0_r. auto. }
        apply (filterlim_comp_2 (F := at_right 0) (G := locally 0) (H := locally 0) (I := locally (0 * 0)) (fun x => x) field Rmult).
        - intros P HP. unfold filtermap, at_right, Hierarchy.within. eapply filter_imp; [|exact HP]. auto.
        - apply (on_axis p field w S).
        - apply (filterlim_mult (K := R_AbsRing) 0 0). }
      apply (filterlim_locally_unique (fun x => x * field x : R_NormedModule) b 0 L1 L2). }
    subst b. exists a. induction k as [|k IH]; intros K.
    - intros x G. exact (F0 x G).
    - specialize (IH ltac:(lia)). destruct (solution_form field w S (Datatypes.S k) K) as ([a' b'] & F).
      set (i := nth k idx 0%nat). assert (I : (i < n)%nat) by (apply idx_lt; lia).
      assert (X : at_ (e_r p) i = nth k srt 0) by (rewrite srt_nth by lia; reflexivity).
      destruct (jumps p field w S i I) as (fi & fo & wi & wo & J1 & J2 & J3 & J4 & J5 & J6).
      rewrite X in *. set (x := nth k srt 0) in *.
      assert (XK : (k < length srt)%nat) by (rewrite srt_length; lia).
      assert (X0 : x <> 0) by (pose proof (srt_pos k XK); unfold x; lra).
      assert (E1 : fi = piece (st a k) x).
      { apply (filterlim_locally_unique (field : R -> R_NormedModule) _ _ J1).
        apply (left_side srt srt_pos srt_inc k); auto; [|apply piece_continuous; auto]. intros y G. apply IH, G. }
      assert (E2 : fo = piece (a', b') x).
      { apply (filterlim_locally_unique (field : R -> R_NormedModule) _ _ J2).
        apply (right_side srt srt_pos srt_inc (Datatypes.S k)); [lia| |apply piece_continuous; auto]. intros y G. apply F, G. }
      assert (E3 : wi = 2 * fst (st a k)).
      { apply (filterlim_locally_unique (w : R -> R_NormedModule) _ _ J3).
        apply (left_side srt srt_pos srt_inc k w (fun _ => 2 * fst (st a k))); auto; [|apply const_continuous]. intros y G. apply IH, G. }
      assert (E4 : wo = 2 * a').
      { apply (filterlim_locally_unique (w : R -> R_NormedModule) _ _ J4).
        apply (right_side srt srt_pos srt_inc (Datatypes.S k) w (fun _ => 2 * a')); [lia| |apply const_continuous]. intros y G. apply F, G. }
      assert (Q : (a', b') = st a (Datatypes.S k)).
      { rewrite st_S by lia. fold i. rewrite (surjective_pairing (st a k)).
        apply (step_solves p i (fst (st a k)) (snd (st a k)) a' b' (r_pos i I) (psi_pos i I)). cbv zeta. rewrite X.
        rewrite E1, E2 in J5, J6. rewrite E3, E4 in J6. unfold piece in J5, J6. cbn [fst snd] in J5, J6. split; assumption. }
      rewrite <- Q. exact F.
  Qed.
  Lemma unique_solution field w : solves p field w ->
    forall x, 0 < x -> ~ In x (e_r p) -> field x = fieldA (shoot chain) x /\ w x = curlA (shoot chain) x.
  Proof.
    intros S x X N. destruct (solution_chain field w S) as (a & F).
    assert (EA : a = shoot chain).
    { apply shoot_only. { pose proof growth. lra. }
      pose proof (centre_in srt srt_pos srt_inc n ltac:(rewrite srt_length; lia)) as CI.
      destruct (F n ltac:(lia) _ CI) as [W _]. rewrite <- st_n.
      assert (w (centre srt n) = 0); [|lra]. apply (outside p field w S).
      - apply (region_pos srt srt_pos n); auto. rewrite srt_length. lia.
      - intros y Y. apply in_srt in Y. destruct (In_nth _ _ 0 Y) as (j & J & <-).
        apply count_below. rewrite (region_count srt srt_pos srt_inc n); auto; rewrite srt_length in *; lia. }
    subst a. assert (K : (count srt x <= n)%nat) by (rewrite <- srt_length; apply count_le).
    assert (G : region srt (count srt x) x) by (apply count_region; auto; [exact srt_inc|rewrite in_srt; exact N]).
    destruct (F _ K x G) as [-> ->]. split; reflexivity.
  Qed.
End Solution.
