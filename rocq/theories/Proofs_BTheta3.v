(** The results of the model. *)
From Coq Require Import Reals Lra ZArith Lia List Bool Arith Permutation.
From Coquelicot Require Import Coquelicot.
From Verif Require Import Model_Push Model_Interp Model_Psi Spec_Psi Proofs_Psi Proofs_Psi3 Model_BTheta Spec_BTheta Proofs_BTheta Proofs_BTheta2.
Import ListNotations.
Open Scope R_scope.

Lemma passes_fuel rnd : forall fuel K a prev rest ku l a' more,
  passes rnd fuel K a prev rest ku = Some (l, a') -> passes rnd (fuel + more) K a prev rest ku = Some (l, a').
Proof.
  induction fuel as [|f IH]; intros K a prev [|c rest] ku l a' more E; try discriminate.
  - destruct more; exact E.
  - exact E.
  - change (S f + more)%nat with (S (f + more)). cbn [passes] in *. destruct (passes rnd f _ _ _ _ _) as [[l1 a1]|] eqn:P; [|discriminate].
    rewrite (IH _ _ _ _ _ _ _ more P). exact E.
Qed.
Lemma axis_terminates rnd p idx : length idx = length (e_r p) ->
  exists a b a_0, length a = length (e_r p) /\ length b = length (e_r p) /\
  forall fuel, (length (e_r p) <= fuel)%nat -> ai_bi_from_axis rnd fuel p idx = Some (a, b, a_0).
Proof.
  intros L. unfold ai_bi_from_axis. set (cs := map (coefficients p) idx). set (ku := homs rnd cs (1, 0)).
  assert (LC : length cs = length (e_r p)) by (unfold cs; rewrite map_length; exact L).
  destruct (passes_terminate rnd (length cs) (fst (last ku (1, 0))) 0 (0, 0) cs ku) as (l & a' & E & LL).
  { apply homs_length. } { apply le_n. }
  exists (put idx (map fst l) (repeat 0 (length (e_r p)))), (put idx (map snd l) (repeat 0 (length (e_r p)))), a'.
  rewrite !put_length, !repeat_length. repeat split; auto. intros fuel F.
  replace fuel with (length cs + (fuel - length cs))%nat by lia. rewrite (passes_fuel _ _ _ _ _ _ _ _ _ _ E). reflexivity.
Qed.

Lemma inhs_nth l : forall s k, (k < length l)%nat -> nth k (inhs exact l s) (0, 0) = inh_end (firstn (S k) l) s.
Proof.
  induction l as [|c l IH]; intros s k K; simpl in K; [lia|]. destruct k as [|k]; [reflexivity|].
  cbn [inhs nth]. rewrite IH by lia. reflexivity.
Qed.
Lemma map_nth_pair (f : R * R -> R) l k : f (0, 0) = 0 -> nth k (map f l) 0 = f (nth k l (0, 0)).
Proof. intros E. rewrite <- E at 1. apply map_nth. Qed.

Section Results.
  Variables (p : plasma) (idx : list nat).
  Hypothesis ORD : orders idx (e_r p).
  Hypothesis REG : regular p.
  Let n := length (e_r p).
  Let shot := shoot (chain p idx).
  Lemma axis_result f : exists a b, ai_bi_from_axis exact (S (S f)) p idx = Some (a, b, shot) /\
    length a = n /\ length b = n /\
    forall k, (k < n)%nat -> nth (nth k idx 0%nat) a 0 = fst (st p idx shot (S k)) /\
                            nth (nth k idx 0%nat) b 0 = snd (st p idx shot (S k)).
  Proof.
    unfold ai_bi_from_axis. fold (chain p idx). rewrite homs_last. fold (hom_end (chain p idx) (1, 0)).
    rewrite passes_exact by (pose proof (growth p idx ORD REG); lra).
    replace (match chain p idx with [] => 0 | _ => shoot (chain p idx) end) with shot.
    2: { unfold shot. destruct (chain p idx); [unfold shoot, inh_end, hom_end; cbn; lra|reflexivity]. }
    fold shot. eexists _, _. split; [reflexivity|]. rewrite !put_length, !repeat_length. repeat split; auto.
    - rewrite put_nth.
      + rewrite map_nth_pair by reflexivity. rewrite inhs_nth by (rewrite (chain_length p idx ORD); auto). reflexivity.
      + eapply orders_nodup; eauto.
      + intros i I. rewrite repeat_length. eapply orders_lt; eauto.
      + rewrite map_length, inhs_length, (chain_length p idx ORD), (idx_length p idx ORD). reflexivity.
      + rewrite (idx_length p idx ORD). exact H.
    - rewrite put_nth.
      + rewrite map_nth_pair by reflexivity. rewrite inhs_nth by (rewrite (chain_length p idx ORD); auto). reflexivity.
      + eapply orders_nodup; eauto.
      + intros i I. rewrite repeat_length. eapply orders_lt; eauto.
      + rewrite map_length, inhs_length, (chain_length p idx ORD), (idx_length p idx ORD). reflexivity.
      + rewrite (idx_length p idx ORD). exact H.
  Qed.

  Lemma grid_field f r_fld b_theta k : e_r p <> [] -> (forall x, In x r_fld -> 0 < x) ->
    (forall a b, (a < b < length r_fld)%nat -> nth a r_fld 0 <= nth b r_fld 0) ->
    exists out, calculate_b_theta exact (S (S f)) r_fld p idx b_theta k = Some out /\
      (forall j, (0 <= j < Z.of_nat (length r_fld))%Z ->
         cell out (k + 2) (2 + j) = fieldA p idx shot (nth (Z.to_nat j) r_fld 0)) /\
      (forall i j, (i <> k + 2 \/ j < 2 \/ 2 + Z.of_nat (length r_fld) <= j)%Z -> cell out i j = cell b_theta i j).
  Proof.
    intros NE PF SF. destruct (axis_result f) as (a & b & E & LA & LB & AB). unfold calculate_b_theta. rewrite E.
    assert (N0 : (0 < n)%nat) by (unfold n; destruct (e_r p); [congruence|simpl; lia]).
    eexists. split; [reflexivity|]. split.
    - intros j J. unfold set_row. cbn [cell]. rewrite Z.eqb_refl. rewrite on_grid_length.
      replace (2 <=? 2 + j)%Z with true by (symmetry; apply Z.leb_le; lia).
      replace (2 + j <? 2 + Z.of_nat (length r_fld))%Z with true by (symmetry; apply Z.ltb_lt; lia).
      cbn [andb]. replace (2 + j - 2)%Z with j by lia.
      pose proof (srt_length p idx ORD) as SL. fold (srt p idx).
      rewrite on_grid_nth.
      + pose proof (count_le (srt p idx) (nth (Z.to_nat j) r_fld 0)) as CL. unfold fieldA. destruct (count (srt p idx) (nth (Z.to_nat j) r_fld 0)) as [|m] eqn:C.
        * unfold piece, st, inh_end. cbn [firstn fold_left fst snd]. unfold Rdiv. ring.
        * destruct (AB m) as [-> ->]. { unfold n. lia. } reflexivity.
      + apply sorted_rs. exact (srt_inc p idx ORD REG).
      + exact SF.
      + lia.
      + rewrite SL. exact N0.
      + intros x m X M. simpl in M. lia.
      + lia.
    - intros i j IJ. unfold set_row. cbn [cell]. rewrite on_grid_length.
      destruct (Z.eqb_spec i (k + 2)); cbn [andb]; [|reflexivity].
      destruct (Z.leb_spec 2 j); cbn [andb]; [|reflexivity].
      destruct (Z.ltb_spec j (2 + Z.of_nat (length r_fld))); [lia|reflexivity].
  Qed.

  Lemma at_loop_length dr_p rs : forall prev ab, length ab = length rs -> length (at_loop dr_p prev rs ab) = length rs.
  Proof. induction rs as [|x rs IH]; intros prev [|[a b] ab] L; simpl in *; try lia. rewrite IH; lia. Qed.
  (** Entry k of the loop. *)
  Lemma at_loop_nth dr_p rs : forall prev ab k, length ab = length rs -> (k < length rs)%nat ->
    nth k (at_loop dr_p prev rs ab) 0 =
    (let r_i := nth k rs 0 in
     let pv := match k with O => prev | S j => Some (nth j rs 0, nth j ab (0, 0)) end in
     let r_left := match pv with Some (r_im1, _) => (r_im1 + r_i) / 2 | None => 0 end in
     let left := match pv with Some (_, ab) => piece ab r_left | None => 0 end in
     let r_right := (r_i + (if Nat.ltb (S k) (length rs) then nth (S k) rs 0 else r_i + dr_p / 2)) / 2 in
     between r_left r_right left (piece (nth k ab (0, 0)) r_right) r_i).
  Proof.
    induction rs as [|x rs IH]; intros prev [|[a b] ab] k L K; simpl in L, K; try lia.
    destruct k as [|k].
    - cbn [at_loop nth]. cbv zeta. unfold piece. cbn [fst snd]. destruct prev as [[r1 [a1 b1]]|]; cbn [fst snd];
      destruct rs as [|y rs]; reflexivity.
    - cbn [at_loop nth]. rewrite IH by lia. cbv zeta.
      replace (S (S k) <? length (x :: rs))%nat with (S k <? length rs)%nat by reflexivity.
      destruct k as [|k]; reflexivity.
  Qed.
  Lemma clip3_bounded v : clip3 v = bounded 3 v.
  Proof.
    unfold clip3, bounded, Rmax, Rmin. destruct (Rlt_dec 3 v).
    - destruct (Rle_dec 3 v); [|lra]. destruct (Rlt_dec 3 (-3)); [lra|]. destruct (Rle_dec (- (3)) 3); lra.
    - destruct (Rle_dec 3 v); destruct (Rlt_dec v (-3)); repeat (destruct (Rle_dec _ _)); lra.
  Qed.
  Lemma between_chord F x_l x_r x : x_r - x_l <> 0 -> between x_l x_r (F x_l) (F x_r) x = chord F x_l x_r x.
  Proof. intros N. unfold between, chord. field. assumption. Qed.

  Lemma fieldA_zero : fieldA p idx shot 0 = 0.
  Proof.
    unfold fieldA. replace (count (srt p idx) 0) with 0%nat.
    - unfold piece, st, inh_end. cbn [firstn fold_left fst snd]. unfold Rdiv. ring.
    - symmetry. apply count_unique; [lia|intros; lia|]. intros m M. left. apply (srt_pos p idx ORD REG). lia.
  Qed.

  Lemma particle_field f dr_p : 0 < dr_p ->
    exists v, b_theta_at_particles exact (S (S f)) p idx dr_p = Some v /\ length v = n /\
      forall k, (k < n)%nat -> nth (nth k idx 0%nat) v 0 =
        bounded 3 (chord (fieldA p idx shot) (mid_left idx (e_r p) k) (mid_right (dr_p / 2) idx (e_r p) k)
                     (nth (nth k idx 0%nat) (e_r p) 0)).
  Proof.
    intros DP. destruct (axis_result f) as (a & b & E & LA & LB & AB). unfold b_theta_at_particles. rewrite E.
    eexists. split; [reflexivity|]. rewrite put_length, repeat_length. split; [reflexivity|]. intros k K.
    fold (srt p idx). pose proof (srt_length p idx ORD) as SL. pose proof (idx_length p idx ORD) as IL. fold n in SL, IL.
    set (ab := combine (take idx a) (take idx b)).
    assert (LAB : length ab = length (srt p idx)).
    { unfold ab. rewrite combine_length, !take_length, SL, IL. apply Nat.min_id. }
    assert (ABN : forall m, (m < n)%nat -> nth m ab (0, 0) = st p idx shot (S m)).
    { intros m M. unfold ab. rewrite combine_nth by (rewrite !take_length; reflexivity).
      rewrite !take_nth by lia. destruct (AB m M) as [-> ->]. symmetry. apply surjective_pairing. }
    rewrite put_nth.
    2: { eapply orders_nodup; eauto. }
    2: { intros i I. rewrite repeat_length. eapply orders_lt; eauto. }
    2: { rewrite map_length, at_loop_length; auto. lia. }
    2: { rewrite IL. exact K. }
    rewrite (nth_indep _ 0 (clip3 0)) by (rewrite map_length, at_loop_length; auto; lia).
    rewrite map_nth, clip3_bounded. f_equal. rewrite at_loop_nth by (auto; lia). cbv zeta.
    pose proof (srt_inc p idx ORD REG) as INC. pose proof (srt_pos p idx ORD REG) as POS.
    assert (SN : forall m, (m < n)%nat -> nth m (srt p idx) 0 = nth (nth m idx 0%nat) (e_r p) 0) by (intros m M; apply (srt_nth p idx ORD m M)).
    assert (MR : (nth k (srt p idx) 0 + (if (S k <? length (srt p idx))%nat then nth (S k) (srt p idx) 0 else nth k (srt p idx) 0 + dr_p / 2)) / 2
                 = mid_right (dr_p / 2) idx (e_r p) k).
    { unfold mid_right. rewrite SL. fold n. destruct (Nat.ltb_spec (S k) n); rewrite !SN by lia; lra. }
    rewrite MR. assert (RK : nth k (srt p idx) 0 < mid_right (dr_p / 2) idx (e_r p) k).
    { rewrite <- MR. rewrite SL. destruct (Nat.ltb_spec (S k) n) as [L|L]; [|lra]. pose proof (INC k (S k) ltac:(lia)). lra. }
    assert (FR : piece (nth k ab (0, 0)) (mid_right (dr_p / 2) idx (e_r p) k) = fieldA p idx shot (mid_right (dr_p / 2) idx (e_r p) k)).
    { symmetry. rewrite ABN by auto. apply (fieldA_on p idx ORD REG); [fold n; lia|]. split; [cbn [lo]; exact RK|].
      intros KS. rewrite SL in KS. rewrite <- MR, SL. destruct (Nat.ltb_spec (S k) n) as [L|L]; [|lia]. pose proof (INC k (S k) ltac:(lia)). lra. }
    rewrite FR. rewrite <- (SN k K).
    destruct k as [|k].
    - cbn [mid_left]. rewrite <- between_chord; [rewrite fieldA_zero; reflexivity|].
      pose proof (POS 0%nat ltac:(lia)). lra.
    - assert (ML : (nth k (srt p idx) 0 + nth (S k) (srt p idx) 0) / 2 = mid_left idx (e_r p) (S k)) by (cbn [mid_left]; rewrite !SN by lia; reflexivity).
      rewrite ML. pose proof (INC k (S k) ltac:(lia)) as I1.
      replace (piece (nth k ab (0, 0)) (mid_left idx (e_r p) (S k))) with (fieldA p idx shot (mid_left idx (e_r p) (S k))).
      + apply between_chord. rewrite <- ML. lra.
      + rewrite ABN by lia. apply (fieldA_on p idx ORD REG); [fold n; lia|]. rewrite <- ML. split; [cbn [lo]; lra|intros; lra].
  Qed.
End Results.
