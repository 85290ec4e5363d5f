(** Proofs about the CSR kernel in a lattice without bends. *)
From Coq Require Import QArith Qround Qreals Reals List Arith Lqa Lra Lia ZArith.
From Verif Require Import Model_Float32 Model_Push Model_Bunch Model_CSR Spec_CSR Proofs_CSR
  Proofs_CSR2 Proofs_CSR3 Proofs_CSR4.
Import ListNotations.
Open Scope R_scope.

Definition zeros (l : list R) : Prop := Forall (fun v => v = 0) l.
Lemma z_map f l : f 0 = 0 -> zeros l -> zeros (map f l).
Proof. intros F H. induction H as [|a l -> H IH]; constructor; assumption. Qed.
Lemma z_all {A} (f : A -> R) l : (forall a, In a l -> f a = 0) -> zeros (map f l).
Proof.
  intros H. apply Forall_forall. intros v Hv. apply in_map_iff in Hv as (a & <- & Ha). auto.
Qed.
Lemma z_hd l : zeros l -> hd 0 l = 0.
Proof. intros [|a r H _]; [reflexivity|exact H]. Qed.
Lemma z_last l : zeros l -> last l 0 = 0.
Proof. intros H. induction H as [|a r E H IH]; [reflexivity|]. destruct r; assumption. Qed.
Lemma z_nth l i : zeros l -> nth i l 0 = 0.
Proof. intros H. revert i. induction H; intros [|i]; cbn; auto. Qed.
Lemma z_sum l : zeros l -> sum l = 0.
Proof. unfold sum. intros H. induction H as [|a r -> H IH]; cbn; [reflexivity|lra]. Qed.
Lemma z_diff0 l : zeros l -> zeros (diff0 l).
Proof.
  intros H. induction H as [|a r E H IH]; constructor; [rewrite (z_hd r H), E; lra|exact IH].
Qed.
Lemma z_add_next l : zeros l -> zeros (add_next l).
Proof.
  intros H. induction H as [|a r E H IH]; constructor; [|exact IH].
  destruct H; [exact E|rewrite E; lra].
Qed.
Lemma z_suffix l : zeros l -> zeros (suffix_sums l).
Proof.
  intros H. induction H as [|a r E H IH]; constructor; [rewrite (z_sum r H), E; lra|exact IH].
Qed.
Lemma z_mult l b : zeros l -> zeros (map2 Rmult l b).
Proof.
  intros H. revert b. induction H as [|a r E H IH]; intros [|v b]; constructor;
    [rewrite E; ring|apply IH].
Qed.
Lemma z_plus l b : zeros l -> zeros b -> zeros (map2 Rplus l b).
Proof.
  intros H. revert b. induction H as [|a r E H IH]; intros b Hb; [constructor|].
  destruct Hb as [|v b F Hb]; constructor; [lra|apply IH; exact Hb].
Qed.
Lemma z_removelast l : zeros l -> zeros (removelast l).
Proof.
  intros H. induction H as [|a r E H IH]; [constructor|]. cbn. destruct r; constructor; assumption.
Qed.
Lemma z_interp xs fs x : zeros fs -> interp xs fs x = 0.
Proof.
  intros H. unfold interp. destruct xs as [|x0 xs]; [reflexivity|].
  destruct H as [|f0 fs -> H]; [reflexivity|]. destruct (Rlt_dec x x0); [reflexivity|].
  clear n. revert x0 xs. induction H as [|f1 fs -> H IH]; intros x0 [|x1 xs]; try reflexivity.
  cbn [interp_from]. destruct (Rlt_dec x x1); [unfold Rdiv; ring|apply IH].
Qed.

(** ** Geometry *)
Lemma straight_arc p L l : straight p -> straight (arc_point p L 0 l).
Proof.
  intros (A & B & C & D & E & F). unfold arc_point, straight.
  destruct (Req_EM_T 0 0) as [_|N]; [|lra].
  cbn [t_s t_x t_y t_z t_ex t_ey t_ez]. rewrite A, B, C, D, E, F.
  split; [ring|]. split; [ring|]. split; [ring|]. repeat split; reflexivity.
Qed.
Lemma straight_dist a b : straight a -> straight b -> t_s b <= t_s a -> dist a b = t_s a - t_s b.
Proof.
  intros (A & B & C & _) (A' & B' & C' & _) H. unfold dist.
  rewrite A, B, C, A', B', C'.
  transitivity (sqrt ((t_s a - t_s b) ^ 2)); [f_equal; ring|apply sqrt_pow2; lra].
Qed.
Lemma beta_range gamma : 1 < gamma -> 0 < 1 - 1 / gamma ^ 2 /\ 0 < beta_r gamma < 1.
Proof.
  intros H. assert (G : 1 < gamma ^ 2) by nra.
  assert (I : 0 < 1 / gamma ^ 2 < 1).
  { split; [apply Rdiv_lt_0_compat; lra|]. apply (Rmult_lt_reg_r (gamma ^ 2)); [lra|].
    unfold Rdiv. rewrite Rmult_assoc, Rinv_l by lra. lra. }
  split; [lra|]. unfold beta_r. split; [apply sqrt_lt_R0; lra|].
  assert (X : sqrt (1 - 1 / gamma ^ 2) < sqrt 1) by (apply sqrt_lt_1; lra).
  rewrite sqrt_1 in X. exact X.
Qed.
Lemma straight_kern gamma cur p : 1 < gamma -> straight cur -> straight p -> t_s p < t_s cur ->
  kern gamma cur p = 0.
Proof.
  intros Hg Hc Hp H. destruct (beta_range gamma Hg) as (B1 & B2 & B3).
  unfold kern. cbv zeta. fold (beta_r gamma). unfold retard.
  rewrite (straight_dist cur p Hc Hp) by lra.
  destruct Hc as (A & B & C & D & E & F). destruct Hp as (A' & B' & C' & D' & E' & F').
  rewrite A, B, C, D, E, F, A', B', C', D', E', F'.
  set (b := beta_r gamma) in *. set (ig := 1 / gamma ^ 2). clearbody b.
  replace (t_s p - t_s cur + b * (t_s cur - t_s p)) with (- ((1 - b) * (t_s cur - t_s p))) by ring.
  set (d := t_s cur - t_s p). assert (0 < d) by (unfold d; lra). clearbody d ig. field. lra.
Qed.
Lemma retard_neg t gamma i j : increasing t -> 1 < gamma -> (j < i < length t)%nat ->
  retard (beta_r gamma) (nth i t origin) (nth j t origin) < 0.
Proof.
  intros H Hg Hi. destruct (beta_range gamma Hg) as (_ & B2 & B3).
  rewrite <- (retard_self (beta_r gamma) (nth i t origin)).
  apply retard_increasing; try assumption; lra.
Qed.
Lemma list_min_in l : l <> [] -> In (list_min l) l.
Proof.
  destruct l as [|a l]; [congruence|]. intros _. cbn [list_min]. revert a.
  induction l as [|b l IH]; intros a; [left; reflexivity|]. cbn [fold_left].
  destruct (IH (Rmin a b)) as [E|I]; [|right; right; exact I].
  rewrite <- E. unfold Rmin. destruct (Rle_dec a b); [left|right; left]; reflexivity.
Qed.
Lemma list_min_le l a : In a l -> list_min l <= a.
Proof.
  assert (M : forall l b, fold_left Rmin l b <= b).
  { clear. induction l as [|c l IH]; intros b; [apply Rle_refl|]. cbn [fold_left].
    apply Rle_trans with (Rmin b c); [apply IH|apply Rmin_l]. }
  destruct l as [|b l]; [intros []|]. cbn [list_min]. revert b.
  induction l as [|c l IH]; intros b [E|H].
  - subst. apply Rle_refl.
  - destruct H.
  - subst b. cbn [fold_left]. apply Rle_trans with (Rmin a c); [apply M|apply Rmin_l].
  - cbn [fold_left]. destruct H as [<-|H].
    + apply Rle_trans with (Rmin b c); [apply M|apply Rmin_r].
    + apply IH. right. exact H.
Qed.
Lemma list_max_ge l a : In a l -> a <= list_max l.
Proof.
  assert (M : forall l b, b <= fold_left Rmax l b).
  { clear. induction l as [|c l IH]; intros b; [apply Rle_refl|]. cbn [fold_left].
    apply Rle_trans with (Rmax b c); [apply Rmax_l|apply IH]. }
  destruct l as [|b l]; [intros []|]. cbn [list_max]. revert b.
  induction l as [|c l IH]; intros b [E|H].
  - subst. apply Rle_refl.
  - destruct H.
  - subst b. cbn [fold_left]. apply Rle_trans with (Rmax a c); [apply Rmax_l|apply M].
  - cbn [fold_left]. destruct H as [<-|H].
    + apply Rle_trans with (Rmax b c); [apply Rmax_r|apply M].
    + apply IH. right. exact H.
Qed.

(** ** The long range part *)
Lemma in_firstn_nth {A} (d : A) l n a : In a (firstn n l) -> exists j, (j < n)%nat /\ (j < length l)%nat /\ nth j l d = a.
Proof.
  intros H. apply (In_nth _ _ d) in H as (j & Hj & E). rewrite firstn_length in Hj.
  exists j. split; [lia|]. split; [lia|]. rewrite <- E.
  rewrite <- (firstn_skipn n l) at 1. apply app_nth1. rewrite firstn_length. lia.
Qed.
Lemma in_skipn {A} n (l : list A) a : In a (skipn n l) -> In a l.
Proof. intros H. rewrite <- (firstn_skipn n l). apply in_or_app. right. exact H. Qed.
(** The points used: before the current one, and at least one. *)
Lemma used_points i t wmin gamma : (0 < i < length t)%nat -> wmin < 0 -> exists pts,
  pts <> [] /\ (forall p, In p pts -> exists j, (j < i)%nat /\ nth j t origin = p) /\
  long_range i t wmin gamma =
    (map (retard (beta_r gamma) (nth i t origin)) pts,
     suffix_sums (map2 Rmult (add_next (map (kern gamma (nth i t origin)) pts))
       (map (Rmult 0.5) (diff0 (map (fun p => t_s p - t_s (nth i t origin)) pts))))).
Proof.
  intros Hi Hw. rewrite estimate_free by (try assumption; lia). unfold long_range_from.
  cbn [skipn]. rewrite Nat.sub_0_r. set (cur := nth i t origin).
  set (l := map (retard (beta_r gamma) cur) (firstn i t)).
  pose proof (last_le_cases wmin l) as C.
  assert (Hl : length (firstn i t) = i) by (rewrite firstn_length; lia).
  eexists. split; [|split; [|reflexivity]].
  - destruct (last_le wmin l) as [j|].
    + destruct C as [C _]. unfold l in C. rewrite map_length in C. intros F.
      apply (f_equal (@length tp)) in F. rewrite skipn_length in F. cbn in F. lia.
    + intros F. rewrite F in Hl. cbn in Hl. lia.
  - intros p Hp. assert (In p (firstn i t)) as I
      by (destruct (last_le wmin l); [apply in_skipn in Hp|]; exact Hp).
    apply (in_firstn_nth origin) in I as (j & A & _ & B). exists j. split; assumption.
Qed.

Section Straight.
Variables (t : list tp) (gamma : R) (i : nat).
Hypothesis (It : increasing t) (St : Forall straight t) (Hg : 1 < gamma) (Hi : (0 < i < length t)%nat).
Let cur := nth i t origin.

Lemma straight_nth j : (j < length t)%nat -> straight (nth j t origin).
Proof. intros H. apply (proj1 (Forall_forall _ _) St). apply nth_In. exact H. Qed.

(** s + r of the short range formula. *)
Lemma straight_short w_range : (forall w, In w w_range -> w < 0) ->
  zeros (short_range i t w_range gamma).
Proof.
  intros Hw. unfold short_range. cbv zeta. fold (beta_r gamma). fold cur.
  destruct (beta_range gamma Hg) as (B1 & B2 & B3).
  assert (Bq : beta_r gamma * beta_r gamma = 1 - 1 / gamma ^ 2) by (apply sqrt_sqrt; lra).
  pose proof (straight_nth i ltac:(lia)) as (A & B & C & D & E & F). fold cur in A, B, C, D, E, F.
  pose proof (straight_nth 0 ltac:(lia)) as (A' & B' & C' & D' & E' & F').
  rewrite A, B, C, D, E, F, A', B', C', D', E', F'.
  set (b := beta_r gamma) in *. clearbody b. set (l := t_s cur - t_s (nth 0 t origin)).
  replace (t_s (nth 0 t origin) - t_s cur) with (- l) by (unfold l; ring). clearbody l.
  apply z_all. intros w Hin. pose proof (Hw w Hin) as W.
  assert (W0 : nth 0 w_range 0 < 0) by (destruct w_range; [destruct Hin|apply Hw; left; reflexivity]).
  set (w0 := nth 0 w_range 0) in *. clearbody w0.
  replace (- (0 - 0) + ((0 - 0) * 0 + (0 - 0) * 0 + l * 1) * 0) with 0 by ring.
  replace (- l + ((0 - 0) * 0 + (0 - 0) * 0 + l * 1) * 1) with 0 by ring.
  replace (0 * 0 + 0 * 0 + 0 * 0) with 0 by ring.
  replace (- l + ((0 - 0) * 0 + (0 - 0) * 0 + l * 1)) with 0 by ring.
  destruct (Rlt_dec (1 / 10 ^ 7) _) as [X|_].
  { exfalso. unfold Rdiv at 2 in X. rewrite Rmult_0_l in X.
    assert (0 < 1 / 10 ^ 7) by (apply Rdiv_lt_0_compat; [lra|apply pow_lt; lra]). lra. }
  assert (Q : forall v, v < 0 -> sqrt (gamma ^ 2 * (v - 0) ^ 2 + 0) = - (gamma * v)).
  { intros v Hv. replace (gamma ^ 2 * (v - 0) ^ 2 + 0) with ((- (gamma * v)) ^ 2) by ring.
    apply sqrt_pow2. nra. }
  rewrite !Q by assumption.
  assert (Gi : gamma ^ 2 = / ((1 - b) * (1 + b))).
  { replace ((1 - b) * (1 + b)) with (1 / gamma ^ 2) by lra. field. lra. }
  assert (K : forall v, 0 - (0 + gamma * (gamma * (v - 0) - b * - (gamma * v)))
     + (v - (0 + gamma * (gamma * (v - 0) - b * - (gamma * v)))) / b = - 2 / (1 - b) * v).
  { intros v. replace (0 + gamma * (gamma * (v - 0) - b * - (gamma * v)))
      with (gamma ^ 2 * (v * (1 + b))) by ring. rewrite Gi. field. lra. }
  rewrite !K.
  replace (- 2 / (1 - b) * w / (- 2 / (1 - b) * w0)) with (w / w0) by (field; lra).
  replace (0 * 0 + 0 * 0 + 1 * 1) with 1 by ring.
  assert (LN : ln (w / w0) + ln (w0 / w) = 0).
  { rewrite <- ln_mult.
    - replace (w / w0 * (w0 / w)) with 1 by (field; lra). apply ln_1.
    - replace (w / w0) with (- w / - w0) by (field; lra). apply Rdiv_lt_0_compat; lra.
    - replace (w0 / w) with (- w0 / - w) by (field; lra). apply Rdiv_lt_0_compat; lra. }
  replace (1 - 1) with 0 by ring. rewrite Rmult_0_r, Rmult_0_l.
  replace (ln (w0 / w)) with (- ln (w / w0)) by lra. ring.
Qed.

Lemma straight_kernel n_bins bin_size : (0 < n_bins)%nat -> 0 < bin_size ->
  zeros (kernel i t n_bins bin_size gamma).
Proof.
  intros Hn Hb. unfold kernel.
  assert (WR : forall w, In w (w_range n_bins bin_size) -> w < 0).
  { intros w H. unfold w_range in H. apply in_map_iff in H as (k & <- & Hk). apply in_seq in Hk.
    assert (INR k < INR n_bins) by (apply lt_INR; lia). nra. }
  assert (W0 : hd 0 (w_range n_bins bin_size) < 0).
  { apply WR. unfold w_range. destruct n_bins; [lia|]. left. reflexivity. }
  destruct (used_points i t (hd 0 (w_range n_bins bin_size)) gamma Hi W0) as (pts & P1 & P2 & ->).
  cbv zeta. fold cur.
  set (ks := suffix_sums _).
  assert (K : zeros ks).
  { unfold ks. apply z_suffix, z_mult, z_add_next, z_all. intros p Hp.
    destruct (P2 p Hp) as (j & Hj & <-). apply straight_kern; [exact Hg| | |].
    - apply straight_nth. lia.
    - apply straight_nth. lia.
    - apply increasing_lt; [exact It|lia]. }
  clearbody ks. set (w := map _ pts).
  assert (WM : list_min w < 0).
  { assert (In (list_min w) w) as I.
    { apply list_min_in. unfold w. intros X. apply map_eq_nil in X. contradiction. }
    unfold w at 2 in I. apply in_map_iff in I as (p & E & Hp). rewrite <- E.
    destruct (P2 p Hp) as (j & Hj & <-). apply retard_neg; [exact It|exact Hg|lia]. }
  clearbody w.
  assert (G : forall ks', zeros ks' ->
    zeros (map (fun v => v / bin_size / four_pi_eps0) (diff0 (diff0 ks')))).
  { intros ks' H. apply z_map; [unfold Rdiv; ring|]. apply z_diff0, z_diff0, H. }
  apply G. destruct (Rlt_dec _ _) as [X|X].
  - apply Forall_app. split.
    + apply z_removelast.
      assert (SR : zeros (short_range i t
        (firstn (S (last_lt (list_min w) (w_range n_bins bin_size))) (w_range n_bins bin_size)
         ++ [list_min w]) gamma)).
      { apply straight_short. intros v Hv. apply in_app_or in Hv as [Hv|[<-|[]]]; [|exact WM].
        apply WR. rewrite <- (firstn_skipn (S (last_lt (list_min w) (w_range n_bins bin_size)))).
        apply in_or_app. left. exact Hv. }
      apply z_map; [|exact SR]. rewrite (z_last _ SR), (z_hd _ K). ring.
    + apply z_all. intros v _. apply z_interp, K.
  - apply z_all. intros v _. apply z_interp, K.
Qed.
End Straight.
