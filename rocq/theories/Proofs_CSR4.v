(** Proofs about the CSR kernel: retarded distance, start index, straight lattices. *)
From Coq Require Import QArith Qround Qreals Reals List Arith Lqa Lra Lia ZArith.
From Verif Require Import Model_Float32 Model_Push Model_Bunch Model_CSR Spec_CSR Proofs_CSR
  Proofs_CSR2 Proofs_CSR3.
Import ListNotations.
Open Scope R_scope.

Lemma sqrt_le_sum a b c : 0 <= b -> 0 <= c -> a <= (b + c) ^ 2 -> sqrt a <= b + c.
Proof.
  intros Hb Hc H. rewrite <- (sqrt_pow2 (b + c)) by lra. apply sqrt_le_1_alt. exact H.
Qed.
Lemma dist_triangle a b c : dist a c <= dist a b + dist b c.
Proof.
  unfold dist.
  set (u1 := t_x a - t_x b). set (u2 := t_y a - t_y b). set (u3 := t_z a - t_z b).
  set (v1 := t_x b - t_x c). set (v2 := t_y b - t_y c). set (v3 := t_z b - t_z c).
  replace (t_x a - t_x c) with (u1 + v1) by (unfold u1, v1; ring).
  replace (t_y a - t_y c) with (u2 + v2) by (unfold u2, v2; ring).
  replace (t_z a - t_z c) with (u3 + v3) by (unfold u3, v3; ring).
  clearbody u1 u2 u3 v1 v2 v3.
  set (U := u1 * u1 + u2 * u2 + u3 * u3). set (V := v1 * v1 + v2 * v2 + v3 * v3).
  assert (HU : 0 <= U) by (unfold U; nra). assert (HV : 0 <= V) by (unfold V; nra).
  apply sqrt_le_sum; try apply sqrt_pos.
  assert (CS : (u1 * v1 + u2 * v2 + u3 * v3) <= sqrt U * sqrt V).
  { rewrite <- sqrt_mult by assumption.
    apply Rle_trans with (Rabs (u1 * v1 + u2 * v2 + u3 * v3)); [apply Rle_abs|].
    rewrite <- sqrt_Rsqr_abs. apply sqrt_le_1_alt. unfold Rsqr, U, V.
    assert (0 <= (u1 * v2 - u2 * v1) ^ 2 + (u1 * v3 - u3 * v1) ^ 2 + (u2 * v3 - u3 * v2) ^ 2)
      by (apply Rplus_le_le_0_compat; [apply Rplus_le_le_0_compat|]; apply pow2_ge_0).
    lra. }
  replace ((sqrt U + sqrt V) ^ 2) with (sqrt U * sqrt U + 2 * (sqrt U * sqrt V) + sqrt V * sqrt V) by ring.
  rewrite !sqrt_sqrt by assumption. set (P := sqrt U * sqrt V) in *. clearbody P.
  unfold U, V. lra.
Qed.
Lemma dist_sym a b : dist a b = dist b a.
Proof. unfold dist. f_equal. ring. Qed.
Lemma dist_self a : dist a a = 0.
Proof. unfold dist. rewrite <- sqrt_0. f_equal. ring. Qed.
Lemma dist_pos a b : 0 <= dist a b.
Proof. apply sqrt_pos. Qed.
Lemma retard_self beta p : retard beta p p = 0.
Proof. unfold retard. rewrite dist_self. ring. Qed.

Lemma increasing_step t k : increasing t -> (S k < length t)%nat ->
  t_s (nth k t origin) < t_s (nth (S k) t origin) /\
  dist (nth (S k) t origin) (nth k t origin) <= t_s (nth (S k) t origin) - t_s (nth k t origin).
Proof.
  revert k. induction t as [|a t IH]; intros k H Hk; [cbn in Hk; lia|].
  destruct t as [|b t]; [cbn in Hk; lia|]. apply increasing_cons in H as (A & B & C).
  destruct k as [|k]; [split; assumption|]. apply (IH k C). cbn in *. lia.
Qed.
Lemma retard_increasing t beta cur : increasing t -> 0 <= beta < 1 ->
  forall i j, (i < j < length t)%nat ->
  retard beta cur (nth i t origin) < retard beta cur (nth j t origin).
Proof.
  intros H Hb i j [Hi Hj].
  assert (S1 : forall k, (S k < length t)%nat ->
    retard beta cur (nth k t origin) < retard beta cur (nth (S k) t origin)).
  { intros k Hk. destruct (increasing_step t k H Hk) as [A B]. unfold retard.
    pose proof (dist_triangle cur (nth (S k) t origin) (nth k t origin)) as T.
    set (a := nth k t origin) in *. set (b := nth (S k) t origin) in *.
    pose proof (dist_pos b a).
    assert (beta * (dist cur a - dist cur b) <= beta * (t_s b - t_s a))
      by (apply Rmult_le_compat_l; lra).
    assert (beta * (t_s b - t_s a) < 1 * (t_s b - t_s a))
      by (apply Rmult_lt_compat_r; lra). lra. }
  induction j as [|j IH]; [lia|]. destruct (Nat.eq_dec i j) as [->|N]; [apply S1; lia|].
  apply Rlt_trans with (retard beta cur (nth j t origin)); [apply IH; lia|apply S1; lia].
Qed.

(** ** Start index *)
Lemma last_le_cases wmin l : match last_le wmin l with
  | Some j => (j < length l)%nat /\ nth j l 0 <= wmin
  | None => forall a, In a l -> wmin < a
  end.
Proof.
  induction l as [|a l IH]; [intros b []|]. cbn [last_le]. destruct (last_le wmin l) as [j|].
  - destruct IH. split; [cbn; lia|assumption].
  - destruct (Rle_dec a wmin) as [F|F]; [split; [cbn; lia|exact F]|].
    intros b [<-|Hb]; [lra|apply IH; exact Hb].
Qed.
Lemma last_le_skipn wmin l i : (i < length l)%nat -> nth i l 0 <= wmin ->
  exists j, last_le wmin (skipn i l) = Some j /\ last_le wmin l = Some (i + j)%nat.
Proof.
  revert i. induction l as [|a l IH]; intros i Hi H; [cbn in Hi; lia|]. destruct i as [|i].
  - cbn [skipn]. pose proof (last_le_cases wmin (a :: l)) as C.
    destruct (last_le wmin (a :: l)) as [j|]; [exists j; split; reflexivity|].
    specialize (C a (or_introl eq_refl)). cbn in H. lra.
  - cbn in Hi, H. destruct (IH i ltac:(lia) H) as (j & A & B). exists j. split; [exact A|].
    cbn [last_le]. rewrite B. reflexivity.
Qed.
Lemma skipn_add {A} (i j : nat) (l : list A) : skipn j (skipn i l) = skipn (i + j) l.
Proof.
  revert l. induction i as [|i IH]; intros l; [reflexivity|]. destruct l as [|a l]; [|apply IH].
  cbn. apply skipn_nil.
Qed.
Lemma start_free i_0 i t wmin gamma : (i_0 < i < length t)%nat ->
  retard (beta_r gamma) (nth i t origin) (nth i_0 t origin) <= wmin ->
  long_range_from i_0 i t wmin gamma = long_range_from 0 i t wmin gamma.
Proof.
  intros Hi H. unfold long_range_from. set (cur := nth i t origin) in *.
  assert (E : firstn (i - i_0) (skipn i_0 t) = skipn i_0 (firstn i t)) by (symmetry; apply skipn_firstn_comm).
  rewrite E. cbn [skipn]. rewrite Nat.sub_0_r. set (pts := firstn i t).
  set (l := map (retard (beta_r gamma) cur) pts).
  rewrite <- skipn_map. fold l.
  assert (Hl : length pts = i) by (unfold pts; rewrite firstn_length; lia).
  destruct (last_le_skipn wmin l i_0) as (j & A & B).
  { unfold l. rewrite map_length. lia. }
  { unfold l. rewrite (nth_indep _ 0 (retard (beta_r gamma) cur origin)) by
      (rewrite map_length; lia). rewrite map_nth. unfold pts.
    replace (nth i_0 (firstn i t) origin) with (nth i_0 t origin); [exact H|].
    rewrite <- (firstn_skipn i t) at 1. rewrite app_nth1; [reflexivity|]. fold pts. lia. }
  rewrite A, B. rewrite skipn_add. reflexivity.
Qed.
Lemma estimate_free i t wmin gamma : (i < length t)%nat -> wmin < 0 ->
  long_range i t wmin gamma = long_range_from 0 i t wmin gamma.
Proof.
  intros Hi Hw. unfold long_range, estimate_start_index.
  destruct (Nat.ltb_spec 1000 i) as [I|I]; [|reflexivity].
  set (idx := map (fun k => (k * i / 9)%nat) (seq 0 10)).
  set (l := map _ idx). pose proof (last_le_cases wmin l) as C.
  destruct (last_le wmin l) as [j|]; [|reflexivity]. destruct C as [C1 C2].
  assert (Hl : (j < 10)%nat) by (unfold l, idx in C1; rewrite !map_length, seq_length in C1; exact C1).
  assert (N : nth j idx 0%nat = (j * i / 9)%nat).
  { unfold idx. rewrite (nth_indep _ 0%nat ((fun k => (k * i / 9)%nat) 0%nat)) by
      (rewrite map_length, seq_length; exact Hl).
    rewrite (map_nth (fun k => (k * i / 9)%nat)). rewrite seq_nth by exact Hl. reflexivity. }
  unfold l in C2.
  rewrite (nth_indep _ 0 ((fun a => retard (beta_r gamma) (nth i t origin) (nth a t origin)) 0%nat))
    in C2 by exact C1.
  rewrite (map_nth (fun a => retard (beta_r gamma) (nth i t origin) (nth a t origin))) in C2.
  assert (LE : (nth j idx 0 <= i)%nat).
  { rewrite N. apply Nat.div_le_upper_bound; [lia|]. nia. }
  assert (NE : nth j idx 0%nat <> i) by (intros F; rewrite F, retard_self in C2; lra).
  apply start_free; [lia|exact C2].
Qed.
