(** Proofs about the ranges of the trajectory used in the steps, the retarded distance and
    the start index. *)
From Coq Require Import QArith Qround Qreals Reals List Arith Lqa Lra Lia ZArith.
From Verif Require Import Model_Float32 Model_Push Model_Bunch Model_CSR Spec_CSR Proofs_CSR
  Proofs_CSR2.
Import ListNotations.
Open Scope R_scope.

(** ** Nearest point *)
Lemma argmin_exact l best ib i j : 0 <= best -> 0 < best ->
  (forall a, In a l -> 0 <= a) -> (j < length l)%nat -> nth j l 1 = 0 ->
  (forall k, (k < j)%nat -> 0 < nth k l 1) -> argmin_from best ib i l = (i + j)%nat.
Proof.
  intros _. revert best ib i j. induction l as [|a l IH]; intros best ib i j Hb Hp Hj Hz Hk;
    [cbn in Hj; lia|]. cbn [argmin_from]. destruct j as [|j].
  - cbn in Hz. subst a. destruct (Rlt_dec 0 best) as [_|F]; [|lra].
    rewrite Nat.add_0_r. clear IH Hb Hk Hj.
    assert (G : forall l i0, (forall a, In a l -> 0 <= a) -> argmin_from 0 i i0 l = i).
    { clear. induction l as [|a l IH]; intros i0 H; [reflexivity|]. cbn [argmin_from].
      destruct (Rlt_dec a 0) as [F|_].
      - specialize (H a (or_introl eq_refl)). lra.
      - apply IH. intros b Hb. apply H. right. exact Hb. }
    apply G. intros b Hb'. apply Hp. right. exact Hb'.
  - pose proof (Hk 0%nat ltac:(lia)) as H0. cbn in H0.
    replace (i + S j)%nat with (S i + j)%nat by lia.
    assert (P : forall b, In b l -> 0 <= b) by (intros b Hb'; apply Hp; right; exact Hb').
    assert (K : forall k, (k < j)%nat -> 0 < nth k l 1)
      by (intros k Hkj; apply (Hk (S k)); lia).
    cbn in Hj. destruct (Rlt_dec a best); apply IH; try assumption; lia.
Qed.

Lemma increasing_lt t i j : increasing t -> (i < j < length t)%nat ->
  t_s (nth i t origin) < t_s (nth j t origin).
Proof.
  intros H [Hi Hj].
  assert (S1 : forall k, (S k < length t)%nat -> t_s (nth k t origin) < t_s (nth (S k) t origin)).
  { clear i j Hi Hj. induction t as [|a t IH]; intros k Hk; [cbn in Hk; lia|].
    destruct t as [|b t]; [cbn in Hk; lia|]. apply increasing_cons in H as (A & _ & C).
    destruct k as [|k]; [exact A|]. apply (IH C k). cbn in *. lia. }
  induction j as [|j IH]; [lia|]. destruct (Nat.eq_dec i j) as [->|N]; [apply S1; lia|].
  apply Rlt_trans with (t_s (nth j t origin)); [apply IH; lia|apply S1; lia].
Qed.
Lemma nearest_exact t j : increasing t -> (j < length t)%nat ->
  nearest (t_s (nth j t origin)) t = j.
Proof.
  intros H Hj. unfold nearest. set (s := t_s (nth j t origin)).
  set (l := map (fun p => Rabs (t_s p - s)) t).
  assert (N : forall k, (k < length t)%nat -> nth k l 1 = Rabs (t_s (nth k t origin) - s)).
  { intros k Hk. unfold l. rewrite (nth_indep _ 1 (Rabs (t_s origin - s))) by
      (rewrite map_length; exact Hk). rewrite (map_nth (fun p => Rabs (t_s p - s))). reflexivity. }
  assert (Z : nth j l 1 = 0) by (rewrite N by exact Hj; unfold s; rewrite (Rminus_diag_eq _ _ eq_refl), Rabs_R0; reflexivity).
  assert (Q : forall k, (k < j)%nat -> 0 < nth k l 1).
  { intros k Hk. rewrite N by lia. apply Rabs_pos_lt.
    pose proof (increasing_lt t k j H ltac:(lia)). unfold s. lra. }
  assert (A : forall a, In a l -> 0 <= a).
  { intros a Ha. unfold l in Ha. apply in_map_iff in Ha. destruct Ha as (p & <- & _).
    apply Rabs_pos. }
  assert (Hl : length l = length t) by apply map_length.
  destruct l as [|a r]; [cbn in Hl; lia|]. destruct j as [|j].
  - cbn in Z. subst a.
    assert (G : forall r i, (forall a, In a r -> 0 <= a) -> argmin_from 0 0 i r = 0%nat).
    { clear. induction r as [|a r IH]; intros i A; [reflexivity|]. cbn [argmin_from].
      destruct (Rlt_dec a 0) as [F|_]; [specialize (A a (or_introl eq_refl)); lra|].
      apply IH. intros b Hb. apply A. right. exact Hb. }
    apply G. intros b Hb. apply A. right. exact Hb.
  - pose proof (Q 0%nat ltac:(lia)) as Q0. cbn in Q0.
    replace (S j) with (1 + j)%nat by reflexivity. apply argmin_exact; try lra.
    + intros b Hb. apply A. right. exact Hb.
    + cbn in Hl. lia.
    + exact Z.
    + intros k Hk. apply (Q (S k)). lia.
Qed.

(** ** Own step sizes *)
(** No element of the lattice is [e], and no step sizes are left over. *)
Definition own (c : csr) (e : elem) : Prop :=
  length (c_traj_steps c) = length (c_elems c) /\
  (forall a, In a (c_elems c) -> e_id a <> e_id e).
Lemma index_app l e : (forall a, In a l -> e_id a <> e_id e) -> index (l ++ [e]) e = length l.
Proof.
  intros H. induction l as [|a l IH]; cbn; [rewrite Nat.eqb_refl; reflexivity|].
  rewrite (proj2 (Nat.eqb_neq _ _) (H a (or_introl eq_refl))). f_equal. apply IH.
  intros b Hb. apply H. right. exact Hb.
Qed.
Lemma s_before_app l e : (forall a, In a l -> e_id a <> e_id e) ->
  s_before (l ++ [e]) e = total_length l.
Proof.
  intros H. unfold total_length. induction l as [|a l IH]; cbn; [rewrite Nat.eqb_refl; reflexivity|].
  rewrite (proj2 (Nat.eqb_neq _ _) (H a (or_introl eq_refl))). f_equal. apply IH.
  intros b Hb. apply H. right. exact Hb.
Qed.
Definition own_last (c : csr) : nat := last (c_steps c) 0%nat.
Lemma own_steps rnd c e : own c e ->
  steps_of (add_lattice_element rnd c e) e =
  element_steps rnd (c_step c) (c_traj_step c) (e_length e) (e_n_out e) /\
  own_last (add_lattice_element rnd c e) =
    traj_points rnd (e_length e)
      (snd (element_steps rnd (c_step c) (c_traj_step c) (e_length e) (e_n_out e))).
Proof.
  intros [H1 H2].
  assert (S0 : nth (index (c_elems c ++ [e]) e)
    (c_traj_steps c ++ [element_steps rnd (c_step c) (c_traj_step c) (e_length e) (e_n_out e)])
    (0, 0)%Q = element_steps rnd (c_step c) (c_traj_step c) (e_length e) (e_n_out e)).
  { rewrite index_app by exact H2. rewrite <- H1. rewrite app_nth2 by lia.
    rewrite Nat.sub_diag. reflexivity. }
  split; [exact S0|]. unfold own_last, add_lattice_element, steps_of. cbv zeta.
  cbn [c_elems c_traj_steps c_steps]. rewrite last_last. rewrite S0. reflexivity.
Qed.

Lemma Q2R_qn n : Q2R (qn n) = INR n.
Proof. unfold qn, Q2R, inject_Z. cbn. rewrite INR_IZR_INZ. field. Qed.

Section Ranges.
Variables (c : csr) (e : elem).
Hypothesis (W : wf c) (O : own c e) (HL : (0 < e_length e)%Q) (Hn : e_n_out e <> Some 0%nat).
Let c' := add_lattice_element noround c e.
Let t0 := match c_traj c with None => [origin] | Some t => t end.
Let S0 := total_length (c_elems c).
Let L := Q2R (e_length e).

Lemma t0_good : good_traj t0 S0.
Proof.
  destruct W as (_ & _ & _ & _ & H). unfold t0, S0. destruct (c_traj c); [exact H|].
  rewrite H. exact good_origin.
Qed.

Lemma ranges : exists k m,
  (0 < k)%nat /\ (0 < m)%nat /\
  (e_length e == qn k * get_csr_step c' e)%Q /\
  (exists t, c_traj c' = Some t /\ length t = (length t0 + k * m)%nat) /\
  forall i, (i < k)%nat ->
    it_range c' e (INR (i + 1) * Q2R (get_csr_step c' e)) =
    seq (length t0 + i * m) m.
Proof.
  pose proof W as (W1 & W2 & _). destruct (own_steps noround c e O) as [E1 _]. fold c' in E1.
  destruct (steps_exact (c_step c) (c_traj_step c) (e_length e) (e_n_out e) W1 W2 HL Hn)
    as (D1 & D2 & D3 & D4 & (k & K1 & K2 & _) & (m & M1 & M2)).
  set (st := element_steps noround (c_step c) (c_traj_step c) (e_length e) (e_n_out e)) in *.
  exists k, m. split; [exact K1|]. split; [exact M1|].
  assert (G : get_csr_step c' e = fst st) by (unfold get_csr_step; rewrite E1; reflexivity).
  rewrite G. split; [exact K2|].
  assert (N : traj_points noround (e_length e) (snd st) = (k * m)%nat).
  { unfold traj_points, noround. rewrite (Qceil_eq _ (Z.of_nat (k * m))); [apply Nat2Z.id|].
    apply div_exact; [exact D3|]. rewrite K2, M2, qn_mult. ring. }
  assert (T : c_traj c' = Some (t0 ++ points (last t0 origin) L (e_theta e) (k * m))).
  { unfold c', add_lattice_element. cbv zeta. cbn [c_traj]. f_equal. unfold points.
    fold t0. fold L.
    assert (X : forall tr cs, snd (steps_of (mkcsr tr (c_elems c ++ [e]) cs
       (c_traj_steps c ++ [st]) (c_step c) (c_traj_step c) (c_bins c)) e) = snd st).
    { intros tr cs. transitivity (snd (steps_of c' e)); [reflexivity|rewrite E1; reflexivity]. }
    fold st. rewrite X, N. reflexivity. }
  pose proof t0_good as (G1 & G2 & G3 & G4).
  assert (Ht : t0 <> []) by (destruct t0; [discriminate|congruence]).
  assert (Lp : length (points (last t0 origin) L (e_theta e) (k * m)) = (k * m)%nat)
    by (unfold points; rewrite map_length, seq_length; reflexivity).
  split; [eexists; split; [exact T|]; rewrite app_length, Lp; reflexivity|].
  set (t := t0 ++ points (last t0 origin) L (e_theta e) (k * m)) in *.
  assert (HLr : 0 < L) by (apply Q2R_pos; exact HL).
  assert (KM : (0 < k * m)%nat) by nia.
  assert (It : increasing t).
  { destruct (proj1 (Forall_forall _ _) G3 _ (last_in t0 origin Ht)).
    apply increasing_app; [exact Ht|exact G2|]. apply points_increasing; assumption. }
  assert (Len : length t = (length t0 + k * m)%nat) by (unfold t; rewrite app_length, Lp; reflexivity).
  assert (P : forall q, (q <= k * m)%nat ->
    t_s (nth (length t0 - 1 + q) t origin) = S0 + INR q * (L / INR (k * m))).
  { intros q Hq. destruct q as [|q].
    - rewrite Nat.add_0_r. unfold t. rewrite app_nth1 by (destruct t0; [congruence|cbn; lia]).
      replace (nth (length t0 - 1) t0 origin) with (last t0 origin); [rewrite G4; cbn [INR]; ring|].
      clear - Ht. induction t0 as [|a l IH]; [congruence|]. destruct l as [|b l]; [reflexivity|].
      change (last (b :: l) origin = nth (length (b :: l)) (a :: b :: l) origin).
      rewrite IH by discriminate. cbn. rewrite Nat.sub_0_r. reflexivity.
    - unfold t. rewrite app_nth2 by lia. assert (0 < length t0)%nat by (destruct t0; [congruence|cbn; lia]).
      replace (length t0 - 1 + S q - length t0)%nat with q by lia. unfold points.
      rewrite (nth_indep _ origin (arc_point (last t0 origin) L (e_theta e) (l_traj L (k * m) 0)))
        by (rewrite map_length, seq_length; lia).
      rewrite (map_nth (fun k0 => arc_point (last t0 origin) L (e_theta e) (l_traj L (k * m) k0))).
      rewrite seq_nth by lia. rewrite arc_s, G4, l_traj_eq by lia. reflexivity. }
  assert (HkR : INR k <> 0) by (apply not_0_INR; lia).
  assert (HmR : INR m <> 0) by (apply not_0_INR; lia).
  assert (Ds : Q2R (fst st) = INR m * (L / INR (k * m))).
  { unfold L. rewrite K2, Q2R_mult, Q2R_qn, mult_INR. field. split; assumption. }
  assert (Lt : (0 < length t0)%nat) by (destruct t0; [congruence|cbn; lia]).
  intros i Hi. unfold it_range. rewrite T, E1.
  assert (SB : s_before (c_elems c') e = S0).
  { change (c_elems c') with (c_elems c ++ [e]). apply s_before_app, O. }
  rewrite SB, Ds.
  replace (S0 + INR (i + 1) * (INR m * (L / INR (k * m)))) with
    (t_s (nth (length t0 - 1 + (i + 1) * m) t origin)).
  2: { rewrite P by nia. rewrite (mult_INR (i + 1) m). ring. }
  replace (t_s (nth (length t0 - 1 + (i + 1) * m) t origin) - INR m * (L / INR (k * m))) with
    (t_s (nth (length t0 - 1 + i * m) t origin)).
  2: { rewrite !P by nia. rewrite !mult_INR, plus_INR. cbn [INR]. ring. }
  assert ((i + 1) * m <= k * m)%nat by nia.
  rewrite !nearest_exact by (try exact It; rewrite Len; nia).
  replace (length t0 - 1 + (i + 1) * m - (length t0 - 1 + i * m))%nat with m by nia.
  rewrite seq_shift. f_equal. lia.
Qed.
End Ranges.
