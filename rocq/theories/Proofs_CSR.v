(** Proofs about the step sizes and the trajectory table of the CSR calculator. *)
From Coq Require Import QArith Qround Qreals Reals List Arith Lqa Lra Lia ZArith.
From Verif Require Import Model_Float32 Model_Push Model_Bunch Model_CSR Spec_CSR.
Import ListNotations.

(** ** Step sizes *)
Open Scope Q_scope.

Lemma qn_pos n : (0 < n)%nat -> 0 < qn n.
Proof. intros H. unfold qn. change 0 with (inject_Z 0). rewrite <- Zlt_Qlt. lia. Qed.
Lemma qn_mult a b : qn (a * b) == qn a * qn b.
Proof. unfold qn. rewrite Nat2Z.inj_mul, inject_Z_mult. reflexivity. Qed.

(** dividing by the ceiling of the quotient *)
Lemma ceil_div x s : 0 < x -> 0 < s ->
  exists k, (0 < k)%nat /\ Qceiling (x / s) = Z.of_nat k /\
    0 < x / qn k /\ x / qn k <= s /\ qn k * (x / qn k) == x.
Proof.
  intros Hx Hs.
  assert (Hq : 0 < x / s) by (apply Qlt_shift_div_l; [exact Hs|]; Lqa.lra).
  assert (Hc : (0 < Qceiling (x / s))%Z).
  { rewrite Zlt_Qlt. apply Qlt_le_trans with (x / s); [exact Hq|apply Qle_ceiling]. }
  exists (Z.to_nat (Qceiling (x / s))).
  assert (Hk : (0 < Z.to_nat (Qceiling (x / s)))%nat) by lia.
  pose proof (qn_pos _ Hk) as Hp. split; [exact Hk|]. split; [rewrite Z2Nat.id by lia; reflexivity|].
  split; [apply Qlt_shift_div_l; [exact Hp|]; Lqa.lra|]. split.
  - apply Qle_shift_div_r; [exact Hp|]. unfold qn. rewrite Z2Nat.id by lia.
    pose proof (Qle_ceiling (x / s)) as C.
    setoid_replace x with (s * (x / s)) at 1 by (field; Lqa.lra).
    apply Qmult_le_l; [exact Hs|exact C].
  - field. Lqa.lra.
Qed.

Lemma steps_exact cs ts L n_out : 0 < cs -> 0 < ts -> 0 < L -> n_out <> Some 0%nat ->
  let ds := fst (element_steps noround cs ts L n_out) in
  let dt := snd (element_steps noround cs ts L n_out) in
  0 < ds /\ ds <= cs /\ 0 < dt /\ dt <= ts /\
  (exists k, (0 < k)%nat /\ L == qn k * ds /\
     match n_out with Some n => exists j, k = (n * j)%nat | None => True end) /\
  (exists m, (0 < m)%nat /\ ds == qn m * dt).
Proof.
  intros Hc Ht HL Hn.
  assert (E : let ds := fst (element_steps noround cs ts L n_out) in 0 < ds /\ ds <= cs /\
     exists k, (0 < k)%nat /\ L == qn k * ds /\
     match n_out with Some n => exists j, k = (n * j)%nat | None => True end).
  { unfold element_steps, noround. cbn [fst]. cbv zeta. destruct n_out as [n|].
    - assert (Hn' : (0 < n)%nat) by (destruct n; [congruence|lia]).
      pose proof (qn_pos n Hn') as Hp.
      assert (H1 : 0 < L / qn n) by (apply Qlt_shift_div_l; [exact Hp|]; Lqa.lra).
      destruct (ceil_div (L / qn n) cs H1 Hc) as (k & K1 & K2 & K3 & K4 & K5). rewrite K2.
      change (inject_Z (Z.of_nat k)) with (qn k). repeat split; [exact K3|exact K4|].
      exists (n * k)%nat. repeat split; [nia| |exists k; reflexivity].
      rewrite qn_mult, <- Qmult_assoc, K5. field. Lqa.lra.
    - destruct (Qle_bool cs L) eqn:EL; cbn [negb].
      + apply Qle_bool_iff in EL.
        destruct (Qeq_bool (L - cs * inject_Z (Qfloor (L / cs))) 0) eqn:EM.
        * apply Qeq_bool_iff in EM. split; [exact Hc|]. split; [Lqa.lra|].
          assert (F : (0 < Qfloor (L / cs))%Z).
          { assert (G : (1 <= Qfloor (L / cs))%Z); [|lia].
            replace 1%Z with (Qfloor 1) by reflexivity. apply Qfloor_resp_le.
            apply Qle_shift_div_l; [exact Hc|]. Lqa.lra. }
          exists (Z.to_nat (Qfloor (L / cs))). split; [lia|]. split; [|exact I].
          unfold qn. rewrite Z2Nat.id by lia. Lqa.lra.
        * destruct (ceil_div L cs HL Hc) as (k & K1 & K2 & K3 & K4 & K5). rewrite K2.
          change (inject_Z (Z.of_nat k)) with (qn k). repeat split; [exact K3|exact K4|].
          exists k. repeat split; [exact K1|symmetry; exact K5].
      + assert (L < cs).
        { apply Qnot_le_lt. intros F. apply Qle_bool_iff in F. congruence. }
        split; [exact HL|]. split; [Lqa.lra|]. exists 1%nat. split; [lia|].
        split; [change (qn 1) with 1; Lqa.lra|exact I]. }
  cbv zeta in E. destruct E as (E1 & E2 & E3). cbv zeta.
  set (ds := fst (element_steps noround cs ts L n_out)) in *.
  assert (D : snd (element_steps noround cs ts L n_out)
              = ds / inject_Z (Qceiling (ds / ts))) by reflexivity.
  rewrite D. destruct (ceil_div ds ts E1 Ht) as (m & K1 & K2 & K3 & K4 & K5). rewrite K2.
  change (inject_Z (Z.of_nat m)) with (qn m). repeat split; try assumption.
  exists m. split; [exact K1|symmetry; exact K5].
Qed.

Lemma Qfloor_eq x k : x == inject_Z k -> Qfloor x = k.
Proof. intros ->. apply Qfloor_Z. Qed.
Lemma Qceil_eq x k : x == inject_Z k -> Qceiling x = k.
Proof. intros ->. apply Qceiling_Z. Qed.

(** an exact quotient *)
Lemma div_exact L ds k : 0 < ds -> L == qn k * ds -> L / ds == inject_Z (Z.of_nat k).
Proof. intros Hd H. rewrite H. unfold qn. field. Lqa.lra. Qed.

Lemma every_in n f i : In i (every n f) <-> (i < n)%nat /\ ((n - 1 - i) mod f = 0)%nat.
Proof.
  unfold every. rewrite filter_In, <- in_rev, in_seq, Nat.eqb_eq. lia.
Qed.

Lemma plan_csr L n_out ds k : 0 < ds -> (0 < k)%nat -> L == qn k * ds -> n_out <> Some 0%nat ->
  match n_out with Some n => exists j, k = (n * j)%nat | None => True end ->
  exists outs, determine_steps noround L n_out (Some ds) = Some (ds, k, outs) /\
    forall i, In i outs <->
      match n_out with
      | None => False
      | Some n => (i < k)%nat /\ exists p, (1 <= p <= n)%nat /\ qn (i + 1) * ds == qn p * (L / qn n)
      end.
Proof.
  intros Hd Hk HL Hn Hj. pose proof (div_exact L ds k Hd HL) as D.
  assert (F : Z.to_nat (Qfloor (L / ds)) = k) by (rewrite (Qfloor_eq _ _ D); apply Nat2Z.id).
  destruct n_out as [n|].
  - destruct Hj as [j Hj]. destruct n as [|n]; [congruence|]. set (N := S n) in *.
    assert (HN : (0 < N)%nat) by (unfold N; lia). pose proof (qn_pos N HN) as HNp.
    assert (J : (0 < j)%nat) by nia.
    assert (FF : Z.to_nat (Qfloor (qn k / qn N)) = j).
    { rewrite (Qfloor_eq _ (Z.of_nat j)); [apply Nat2Z.id|].
      rewrite Hj, qn_mult. change (inject_Z (Z.of_nat j)) with (qn j). field. Lqa.lra. }
    exists (every k j). split.
    { unfold determine_steps, noround. fold N. change (match Some N with Some O => None | _ => _ end)
        with (match Some N with Some O => @None (Q * nat * list nat) | _ =>
         let '(l_step, n_track, frac_out) := (L / qn N, N, 1%nat) in
         Some (ds, Z.to_nat (Qfloor (L / ds)),
           if Nat.eqb (Z.to_nat (Qfloor (qn (Z.to_nat (Qfloor (L / ds))) / qn N))) 0 then []
           else every (Z.to_nat (Qfloor (L / ds)))
                  (Z.to_nat (Qfloor (qn (Z.to_nat (Qfloor (L / ds))) / qn N)))) end).
      cbv zeta beta iota. unfold N at 1. cbv iota. rewrite F, FF.
      destruct (Nat.eqb_spec j 0); [lia|]. reflexivity. }
    intros i. rewrite every_in.
    assert (X : forall p, qn (i + 1) * ds == qn p * (L / qn N) <-> (i + 1 = p * j)%nat).
    { intros p. assert (L / qn N == qn j * ds).
      { rewrite HL, Hj, qn_mult. field. Lqa.lra. }
      rewrite H. rewrite Qmult_assoc, <- qn_mult. split.
      - intros E. apply Qmult_inj_r in E; [|Lqa.lra]. unfold qn in E.
        apply (proj1 (inject_Z_injective _ _)) in E. apply Nat2Z.inj. exact E.
      - intros ->. reflexivity. }
    split.
    + intros [Hi M]. split; [exact Hi|].
      apply Nat.mod_divides in M; [|lia]. destruct M as [c M].
      exists (N - c)%nat. assert (Hc : (c < N)%nat).
      { destruct (le_lt_dec N c) as [G|G]; [|exact G].
        pose proof (Nat.mul_le_mono_r _ _ j G). rewrite (Nat.mul_comm j c) in M. lia. }
      split; [lia|]. apply X. rewrite Nat.mul_sub_distr_r, (Nat.mul_comm c j), <- M. lia.
    + intros [Hi (p & Hp & E)]. apply X in E. split; [exact Hi|].
      replace (k - 1 - i)%nat with ((N - p) * j)%nat by (rewrite Nat.mul_sub_distr_r; lia). apply Nat.mod_mul. lia.
  - exists []. split.
    { unfold determine_steps, noround. rewrite F. reflexivity. }
    intros i. cbn. tauto.
Qed.
