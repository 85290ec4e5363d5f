(** Tracking with rounded times: it ends; binary64 and binary32 are such roundings. *)
From Coq Require Import QArith Qround List Bool Arith ZArith Lia Lqa Qabs.
From Verif Require Import Model_Tracker Spec_Tracker Proofs_Tracker Model_TrackFl Spec_TrackFl Proofs_TrackFl Proofs_TrackFl2.
From Verif Require Import Model_Float32 Proofs_Float32.
From Verif Require Model_CSR.
Import ListNotations.
Open Scope Q_scope.

(** ** Sums over the objects *)
Definition sum_to (n : nat) (f : nat -> nat) : nat := list_sum (map f (seq 0 n)).
Lemma sum_to_S n f : sum_to (S n) f = (sum_to n f + f n)%nat.
Proof. unfold sum_to. rewrite seq_S, map_app, list_sum_app. cbn. lia. Qed.
Lemma sum_to_le n f g : (forall k, (k < n)%nat -> (f k <= g k)%nat) -> (sum_to n f <= sum_to n g)%nat.
Proof.
  induction n as [|n IH]; intros H; [reflexivity|]. rewrite !sum_to_S.
  specialize (IH (fun k h => H k ltac:(lia))). specialize (H n ltac:(lia)). lia.
Qed.
Lemma sum_to_lt n f g i : (i < n)%nat -> (f i < g i)%nat -> (forall k, (k < n)%nat -> k <> i -> f k = g k) ->
  (sum_to n f < sum_to n g)%nat.
Proof.
  induction n as [|n IH]; intros Hi Hlt H; [lia|]. rewrite !sum_to_S.
  destruct (Nat.eq_dec i n) as [->|Hne].
  - assert (sum_to n f <= sum_to n g)%nat; [|lia]. apply sum_to_le. intros k Hk. rewrite H by lia. lia.
  - specialize (IH ltac:(lia) Hlt (fun k h hn => H k ltac:(lia) hn)). rewrite (H n) by lia. lia.
Qed.
Lemma sum_to_reset n m f g W : (m <= n)%nat -> (forall k, (k < m)%nat -> (f k <= W)%nat) ->
  (forall k, (m <= k < n)%nat -> f k = g k) -> (sum_to n f <= sum_to n g + m * W)%nat.
Proof.
  revert m. induction n as [|n IH]; intros m Hm H1 H2.
  - replace m with 0%nat by lia. cbn. lia.
  - rewrite !sum_to_S. destruct (Nat.eq_dec m (S n)) as [->|Hne].
    + specialize (IH n ltac:(lia) (fun k h => H1 k ltac:(lia)) (fun k h => ltac:(lia))).
      specialize (H1 n ltac:(lia)). nia.
    + specialize (IH m ltac:(lia) H1 (fun k h => H2 k ltac:(lia))). rewrite (H2 n) by lia. lia.
Qed.

Section Terminate.
  Variables B F : Type.
  Variable evolve : F -> B -> Q -> Q -> B.
  Variable update : nat -> F -> list B -> F.
  Variable auto_dt : B -> Q.
  Variable copy : B -> B.
  Variable fl rnd : Q -> Q.
  Variable c : config.
  Variable bs0 : list B.
  Variable fs0 : F.
  Variables e : Q.
  Notation T := (c_tfinal c).
  Notation nb := (n_bunches c).
  Notation nf := (n_fields c).
  Notation n := (c_ndiags c).
  Hypothesis Hg : good_config c bs0.
  Hypothesis Hnd : (0 < n)%nat.
  Hypothesis Hnd' : (Z.of_nat n <= 100000)%Z.
  Hypothesis He : 0 < e.
  Hypothesis Het : e <= T * (1 # 1000000000000).
  Hypothesis Hfl : rounds_times T e fl.
  Hypothesis Hct : compares_times T rnd.
  Hypothesis Hclear : clear_of_jumps rnd T ((2 * inject_Z (Z.of_nat n) + 4) * e).
  Hypothesis Hauto : forall b, 2 * e <= auto_dt b.
  Hypothesis Hconst : forall d, In (Some d) (c_dtb c) -> 2 * e <= d.
  Hypothesis Hfields : forall d f, In (d, f) (c_fields c) -> 2 * e <= adjust_dt_fl fl f T d.
  Notation begin := (generate_diagnostics B F copy 0 (start_fl B F update auto_dt fl c bs0 fs0)).
  Notation step := (step_fl B F evolve update auto_dt copy fl rnd).
  Notation loop := (loop_fl B F evolve update auto_dt copy fl rnd).
  Notation JInv := (JInv B F auto_dt fl rnd c bs0 e).
  Let HT : 0 < T := proj1 Hg.
  Let Hlen : length bs0 = length (c_dtb c) := proj1 (proj2 Hg).
  Let He' : 0 <= e := Qlt_le_weak _ _ He.
  Let Hauto' : forall b, 0 <= auto_dt b.
  Proof. intros b. specialize (Hauto b). lra. Qed.

  Definition TInv (s : state B F) : Prop :=
    JInv s /\ forall k, (k < length (objects c))%nat ->
      2 * e <= nth k (dtobj s) 0 /\ nth k (tobj s) 0 <= T * (3 # 2).

  Lemma new_step_big i tn d d' : new_step B auto_dt fl rnd c i tn d d' -> 0 <= tn -> rnd tn <= rnd T ->
    2 * e <= d -> 2 * e <= d'.
  Proof.
    intros (a & Ha & ->) Pt Hr Hd.
    assert (Pa : 2 * e <= a) by (destruct Ha as [[-> _]|(_ & b & ->)]; auto).
    destruct (Qeq_bool (rnd tn) (rnd T)) eqn:E; cbn; [exact Pa|]. apply Qeqb_false in E.
    destruct (Qltb T _); [|exact Pa].
    assert (N1 : 1 <= inject_Z (Z.of_nat n)) by (apply (iz_le 1 n); lia).
    destruct (Qlt_le_dec tn (T - (2 * inject_Z (Z.of_nat n) + 4) * e)) as [Hl|Hl].
    - assert (6 * e <= T - tn) by nra. destruct (fl_near T e fl Hfl (T - tn)); lra.
    - destruct (Qlt_le_dec T tn) as [Hl2|Hl2].
      + exfalso. assert (rnd T <= rnd tn) by (apply (ct_mono _ _ Hct); lra). lra.
      + exfalso. apply E. apply Hclear. split; [exact Hl|]. nra.
  Qed.

  Lemma TInv_begin : TInv begin.
  Proof.
    split; [apply JInv_begin; auto|]. intros k Hk.
    destruct (begin_props B F update auto_dt copy fl c bs0 fs0 Hlen Hnd) as (S1 & T1 & D1 & _).
    rewrite T1, D1, (map_nth (fun _ : Q => 0) (initial_dt_fl B auto_dt fl c bs0) 0 k). split; [|lra].
    destruct (index_cases c k Hk) as [Hb|[(j & Hj & ->)|(-> & _)]].
    - destruct (nth_error (c_dtb c) k) as [d|] eqn:Ed; [|apply nth_error_None in Ed; unfold n_bunches in Hb; lia].
      destruct (nth_error bs0 k) as [b|] eqn:Eb; [|apply nth_error_None in Eb; unfold n_bunches in Hb; lia].
      rewrite (initial_bunch B auto_dt fl c bs0 Hlen Hnd k d b Ed Eb). destruct d as [q|]; [|apply Hauto].
      apply Hconst. apply nth_error_In in Ed. exact Ed.
    - destruct (nth_error (c_fields c) j) as [[d f]|] eqn:Ed; [|apply nth_error_None in Ed; unfold n_fields in Hj; lia].
      rewrite (initial_field B auto_dt fl c bs0 Hlen Hnd j d f Ed). apply Hfields. eapply nth_error_In; eauto.
    - rewrite (initial_diag B auto_dt fl c bs0 Hlen Hnd). unfold dt_diags_fl.
      destruct (d_near T e fl HT He' Het Hfl n Hnd Hnd') as [A _].
      destruct (q_pos T e HT He' Het n Hnd Hnd') as (_ & _ & _ & P3). lra.
  Qed.

  Lemma TInv_step s s' : TInv s -> step c s = Continue s' -> TInv s'.
  Proof.
    intros (J1 & K1) H. pose proof J1 as ((Sh & I1) & B1).
    assert (J2 : JInv s').
    { eapply (JInv_step B F evolve update auto_dt copy fl rnd c bs0 e Hg Hnd Hnd' Hauto' He' Het Hfl Hct); eauto. }
    split; [exact J2|]. intros k Hk.
    destruct (K1 k Hk) as [Kd Kt].
    assert (Kt' : forall tn, rnd tn <= rnd T -> tn <= T * (3 # 2)).
    { intros tn Hr. pose proof (not_above T rnd Hct _ Hr). lra. }
    destruct (step_happens _ _ _ _ _ _ _ _ _ bs0 Hlen Hnd s s' Sh H) as (Sh' & Hh).
    destruct Hh as [i Hi Hr [P1 P2 P3 P4 P5]|j tn Hj Et Hr P1 P2 P3 P4|tn Et Hr P1 P2 P3 P4 P5 P6].
    - destruct (Nat.eq_dec k i) as [->|Hne]; [|rewrite P2, P4 by assumption; auto].
      destruct (B1 i Hi) as ((A1 & A2 & A3 & _) & _). rewrite P1. split; [|apply Kt'; exact Hr].
      eapply new_step_big; eauto. apply (fl_nonneg T e fl Hfl). lra.
    - rewrite P3. split; [exact Kd|]. destruct (Nat.eq_dec k (nb + j)) as [->|Hne].
      + rewrite P1. apply Kt'. exact Hr.
      + rewrite P2 by assumption. exact Kt.
    - destruct (le_lt_dec nb k) as [Hb|Hb].
      + rewrite P3 by assumption. split; [exact Kd|]. destruct (Nat.eq_dec k (nb + nf)) as [->|Hne].
        * rewrite P1. apply Kt'. exact Hr.
        * rewrite P2 by assumption. exact Kt.
      + destruct J2 as (_ & B2). destruct (B2 k Hb) as ((_ & A2 & _) & _). split; [|exact A2].
        specialize (P6 k Hb). cbv zeta in P6. destruct (c_push_before c).
        * destruct P6 as (_ & Q2 & _). eapply new_step_big; eauto.
          assert (Ld : (nb + nf < length (objects c))%nat) by (rewrite (obj_len B c bs0 Hlen Hnd); lia).
          destruct I1 as (_ & (G0 & m & G1 & _)).
          assert (0 <= ticks fl (dt_diags_fl fl c) m).
          { clear - G0 K1 Ld Hfl He. assert (P : 0 <= dt_diags_fl fl c).
            { rewrite <- G0. destruct (K1 _ Ld) as [A _]. lra. }
            induction m; cbn; [lra|]. apply (fl_nonneg (c_tfinal c) e fl Hfl). lra. }
          rewrite Et, G1, G0. apply (fl_nonneg T e fl Hfl).
          destruct (K1 _ Ld) as [A _]. rewrite G0 in A. lra.
        * destruct P6 as (_ & -> & _). exact Kd.
  Qed.

  (** Number of steps an object can still make. *)
  Definition left (t : Q) : nat := Z.to_nat (Qfloor ((3 * T - t) / e)).
  Lemma left_less t t' : t + e <= t' -> t' <= T * (3 # 2) -> (left t' < left t)%nat.
  Proof.
    intros H H'. unfold left.
    assert (A : (0 <= Qfloor ((3 * T - t') / e))%Z).
    { change 0%Z with (Qfloor (inject_Z 0)). apply Qfloor_resp_le. apply Qle_shift_div_l; [exact He|]. change (inject_Z 0) with 0. pose proof HT. lra. }
    assert (C : (Qfloor ((3 * T - t') / e) + 1 <= Qfloor ((3 * T - t) / e))%Z).
    { assert (E : (Qfloor ((3 * T - t') / e) + 1)%Z = Qfloor (inject_Z (Qfloor ((3 * T - t') / e) + 1)))
        by (rewrite Qfloor_Z; reflexivity).
      rewrite E. apply Qfloor_resp_le. rewrite inject_Z_plus.
      pose proof (Qfloor_le ((3 * T - t') / e)) as Hf. change (inject_Z 1) with 1.
      assert ((3 * T - t') / e + 1 <= (3 * T - t) / e); [|lra].
      apply Qle_shift_div_l; [exact He|]. assert (E2 : ((3 * T - t') / e + 1) * e == 3 * T - t' + e) by (field; lra).
      rewrite E2. lra. }
    lia.
  Qed.
  Lemma left_bound t : 0 <= t -> (left t <= left (0 # 1))%nat.
  Proof.
    intros H. unfold left.
    assert (Qfloor ((3 * T - t) / e) <= Qfloor ((3 * T - 0) / e))%Z; [|lia].
    apply Qfloor_resp_le. unfold Qdiv. apply Qmult_le_compat_r; [lra|]. apply Qlt_le_weak, Qinv_lt_0_compat, He.
  Qed.
  Definition measure (s : state B F) : nat :=
    (sum_to (nb + nf) (fun k => left (nth k (tobj s) (0 # 1))) +
     left (nth (nb + nf) (tobj s) (0 # 1)) * (nb * left (0 # 1) + 1))%nat.

  Lemma progress t d : - (T * (3 # 2)) <= t -> t <= T * (3 # 2) -> 2 * e <= d -> rnd (fl (t + d)) <= rnd T ->
    t + e <= fl (t + d).
  Proof.
    intros H0 H1 H2 Hr. pose proof (not_above T rnd Hct _ Hr) as Hab.
    assert (Hb : t + d <= fl (t + d) + e) by (apply (fl_below T e fl HT Het Hfl); lra). lra.
  Qed.

  Lemma ticks_nonneg d m : 0 <= d -> 0 <= ticks fl d m.
  Proof. intros H. induction m; cbn; [lra|]. apply (fl_nonneg T e fl Hfl). lra. Qed.

  Lemma measure_step s s' : TInv s -> step c s = Continue s' -> (measure s' < measure s)%nat.
  Proof.
    intros HI H. pose proof (TInv_step s s' HI H) as HI'. destruct HI as (J1 & K1). destruct HI' as (J2 & K2).
    pose proof J1 as ((Sh & I1) & B1). pose proof (obj_len B c bs0 Hlen Hnd) as L.
    destruct (step_happens _ _ _ _ _ _ _ _ _ bs0 Hlen Hnd s s' Sh H) as (Sh' & Hh).
    unfold measure.
    destruct Hh as [i Hi Hr [P1 P2 P3 P4 P5]|j tn Hj Et Hr P1 P2 P3 P4|tn Et Hr P1 P2 P3 P4 P5 P6].
    - rewrite (P2 (nb + nf)%nat) by lia. apply Nat.add_lt_mono_r.
      apply (sum_to_lt _ _ _ i); [lia| |intros k Hk Hn; rewrite P2 by assumption; reflexivity].
      destruct (B1 i Hi) as ((A1 & A2 & A3 & _) & _). destruct (K1 i ltac:(lia)) as [C1 C2].
      apply left_less; [|apply K2; lia]. rewrite P1. apply progress; auto. lra.
    - rewrite (P2 (nb + nf)%nat) by lia. apply Nat.add_lt_mono_r.
      apply (sum_to_lt _ _ _ (nb + j)%nat); [lia| |intros k Hk Hn; rewrite P2 by assumption; reflexivity].
      destruct (K1 (nb + j)%nat ltac:(lia)) as [C1 C2].
      assert (P0 : 0 <= nth (nb + j) (tobj s) (0 # 1)).
      { destruct (nth_error (c_fields c) j) as [[d f]|] eqn:Ed; [|apply nth_error_None in Ed; unfold n_fields in Hj; lia].
        destruct I1 as (I1 & _). destruct (I1 j d f Ed) as (G0 & m & G1 & _). rewrite G1. apply ticks_nonneg.
        rewrite <- G0. lra. }
      apply left_less; [|apply K2; lia]. rewrite P1, Et. apply progress; auto; [lra|]. rewrite <- Et. exact Hr.
    - destruct (K1 (nb + nf)%nat ltac:(lia)) as [C1 C2].
      assert (P0 : 0 <= nth (nb + nf) (tobj s) (0 # 1)).
      { destruct I1 as (_ & (G0 & m & G1 & _)). rewrite G1. apply ticks_nonneg. rewrite <- G0. lra. }
      assert (Hl : (left (nth (nb + nf) (tobj s') (0 # 1)) < left (nth (nb + nf) (tobj s) (0 # 1)))%nat).
      { apply left_less; [|apply K2; lia]. rewrite P1, Et. apply progress; auto; [lra|]. rewrite <- Et. exact Hr. }
      assert (Hs : (sum_to (nb + nf) (fun k => left (nth k (tobj s') (0 # 1))) <=
                    sum_to (nb + nf) (fun k => left (nth k (tobj s) (0 # 1))) + nb * left (0 # 1))%nat).
      { apply sum_to_reset; [lia| |].
        - intros k Hk. destruct J2 as (_ & B2). destruct (B2 k Hk) as ((A1 & _) & _). apply left_bound. exact A1.
        - intros k Hk. rewrite P2 by lia. reflexivity. }
      nia.
  Qed.

  Lemma terminates_from : forall m s, TInv s -> (measure s < m)%nat -> exists s', loop m c s = Done s'.
  Proof.
    induction m as [|m IH]; intros s HI Hm; [lia|]. cbn [loop_fl].
    destruct (step c s) as [s1|s1|er s1] eqn:E.
    - apply IH; [eapply TInv_step; eauto|]. pose proof (measure_step s s1 HI E). lia.
    - eauto.
    - exfalso. unfold step_fl in E. destruct (argmin _) as [i|] eqn:Ea; [destruct (Qltb _ _); discriminate|].
      apply argmin_none in Ea. apply (f_equal (@length Q)) in Ea. unfold next_times in Ea.
      destruct HI as (((Sh & _) & _) & _). destruct Sh as (S1 & S2 & _). pose proof (obj_len B c bs0 Hlen Hnd).
      rewrite !map_length, vadd_length in Ea by lia. cbn in Ea. lia.
  Qed.
  Lemma terminates_lemma : exists fuel s, loop fuel c begin = Done s.
  Proof.
    exists (S (measure begin)). apply terminates_from; [apply TInv_begin|lia].
  Qed.
End Terminate.

(** ** binary64 and binary32 *)
From Verif Require Import Proofs_Float64.
Notation f64 := Model_CSR.f64.
Notation ulp64 := Model_CSR.ulp64.

Lemma f64_opp x : x < 0 -> f64 x == - f64 (- x).
Proof.
  intros H. unfold Model_CSR.f64.
  replace (Qle_bool x 0) with true by (symmetry; apply Qle_bool_iff; lra).
  destruct (Qle_bool 0 x) eqn:E; [apply Qle_bool_iff in E; lra|].
  destruct (Qle_bool (- x) 0) eqn:E2; [apply Qle_bool_iff in E2; lra|]. reflexivity.
Qed.
Lemma half_ulp64 x T : 0 < x -> x <= 3 * T -> pow2 (-100) <= T -> ulp64 x / 2 <= T * pow2 (-51).
Proof.
  intros Hx Hl HT. unfold Model_CSR.ulp64.
  assert (E : pow2 (Z.max (expo x) (-1022) - 52) / 2 == pow2 (Z.max (expo x) (-1022)) * pow2 (-53)).
  { replace (Z.max (expo x) (-1022) - 52)%Z with (Z.max (expo x) (-1022) + -53 + 1)%Z by lia.
    rewrite pow2_S, pow2_plus. field. }
  rewrite E. assert (E2 : pow2 (-51) == 4 * pow2 (-53)) by reflexivity. rewrite E2.
  pose proof (pow2_pos (-53)) as P.
  assert (M : pow2 (Z.max (expo x) (-1022)) <= 3 * T).
  { destruct (Z.max_spec (expo x) (-1022)) as [[_ ->]|[_ ->]].
    - assert (pow2 (-1022) <= pow2 (-100)) by (apply pow2_le; lia). pose proof (pow2_pos (-1022)). lra.
    - destruct (expo_spec x Hx) as [A _]. lra. }
  set (a := pow2 (Z.max _ _)) in *. set (b := pow2 (-53)) in *. clearbody a b.
  assert (0 < T) by (pose proof (pow2_pos (-100)); lra). nra.
Qed.
Lemma f64_times T : pow2 (-100) <= T -> rounds_times T (T * pow2 (-51)) f64.
Proof.
  intros HT. assert (P : 0 < T) by (pose proof (pow2_pos (-100)); lra). pose proof (pow2_pos (-51)) as P2.
  split.
  - intros x y H. apply f64_mono. exact H.
  - reflexivity.
  - intros x [H1 H2]. destruct (Q_dec x 0) as [[Hn|Hp]|Hz].
    + rewrite (f64_opp x Hn). destruct (f64_error (- x) ltac:(lra)) as [A1 A2].
      pose proof (half_ulp64 (- x) T ltac:(lra) ltac:(lra) HT). lra.
    + destruct (f64_error x Hp) as [A1 A2]. pose proof (half_ulp64 x T Hp ltac:(lra) HT). lra.
    + assert (E : f64 x == 0).
      { unfold Model_CSR.f64. replace (Qle_bool x 0) with true by (symmetry; apply Qle_bool_iff; lra).
        replace (Qle_bool 0 x) with true by (symmetry; apply Qle_bool_iff; lra). reflexivity. }
      rewrite E. nra.
Qed.
Lemma half_ulp32 x : pow2 (-120) <= x -> ulp32 x / 2 <= x * pow2 (-24).
Proof.
  intros Hx. assert (Px : 0 < x) by (pose proof (pow2_pos (-120)); lra).
  destruct (expo_spec x Px) as [A1 A2]. unfold ulp32.
  assert (Ex : (-126 <= expo x)%Z).
  { assert (pow2 (-120) < pow2 (expo x + 1)) by lra. apply pow2_lt_inv in H. lia. }
  rewrite Z.max_l by lia.
  assert (E : pow2 (expo x - 23) / 2 == pow2 (expo x) * pow2 (-24)).
  { replace (expo x - 23)%Z with (expo x + -24 + 1)%Z by lia. rewrite pow2_S, pow2_plus. field. }
  rewrite E. pose proof (pow2_pos (-24)). apply Qmult_le_compat_r; lra.
Qed.
Lemma f32_near x : pow2 (-120) <= x -> x * (1 - pow2 (-24)) <= f32 x /\ f32 x <= x * (1 + pow2 (-24)).
Proof.
  intros Hx. assert (Px : 0 < x) by (pose proof (pow2_pos (-120)); lra).
  destruct (f32_error x Px). pose proof (half_ulp32 x Hx). lra.
Qed.
Lemma f32_times T : pow2 (-100) <= T -> compares_times T f32.
Proof.
  intros HT. assert (H0 : pow2 (-120) <= pow2 (-101)) by (apply pow2_le; lia).
  assert (H1 : pow2 (-100) == 2 * pow2 (-101)) by reflexivity.
  assert (P : 0 < T) by (pose proof (pow2_pos (-100)); lra).
  assert (P24 : pow2 (-24) == 1 # 16777216) by reflexivity.
  destruct (f32_near T ltac:(lra)) as [A1 A2]. rewrite P24 in A1, A2.
  pose proof (pow2_pos (-101)).
  split.
  - exact f32_mono.
  - intros x Hx. destruct (f32_near x ltac:(lra)) as [B1 B2]. rewrite P24 in B1. lra.
  - intros x Hx. pose proof (f32_mono _ _ Hx) as M.
    destruct (f32_near (T * (1 - (1 # 1000000))) ltac:(lra)) as [B1 B2]. rewrite P24 in B2. lra.
Qed.

(** ** Without rounding *)
Section Exact.
  Variables B F : Type.
  Variable evolve : F -> B -> Q -> Q -> B.
  Variable update : nat -> F -> list B -> F.
  Variable auto_dt : B -> Q.
  Variable copy : B -> B.
  Variable fl rnd : Q -> Q.
  Hypothesis Hid : forall x, fl x = x.
  Lemma map_fl l : map fl l = l.
  Proof. induction l; cbn; rewrite ?Hid; congruence. Qed.
  Lemma adjust_exact f T d : adjust_dt_fl fl f T d = adjust_dt f T d.
  Proof. unfold adjust_dt_fl, adjust_dt. destruct f; [|reflexivity]. rewrite !Hid. reflexivity. Qed.
  Lemma initial_exact c bs0 : initial_dt_fl B auto_dt fl c bs0 = initial_dt B auto_dt c bs0.
  Proof.
    unfold initial_dt_fl, initial_dt. f_equal. f_equal.
    - unfold dt_fields_fl, dt_fields. apply map_ext. intros [d f]. apply adjust_exact.
    - unfold dt_diags_fl, dt_diags. rewrite Hid. reflexivity.
  Qed.
  Lemma evolve_exact c sync i t tn d s :
    evolve_bunch_fl B F evolve auto_dt fl rnd c sync i t tn d s = evolve_bunch B F evolve auto_dt rnd c sync i t tn d s.
  Proof. unfold evolve_bunch_fl, evolve_bunch. destruct (nth_error (bs s) i); [|reflexivity]. rewrite !Hid. reflexivity. Qed.
  Lemma advance_exact i d s : advance_fl B F fl i d s = advance B F i d s.
  Proof. unfold advance_fl, advance. rewrite Hid. reflexivity. Qed.
  Lemma fold_exact c tn l s : fold_left (push_to_fl B F evolve auto_dt fl rnd c tn) l s =
    fold_left (push_to B F evolve auto_dt rnd c tn) l s.
  Proof.
    revert s. induction l as [|i l IH]; intros s; [reflexivity|]. cbn [fold_left]. rewrite IH. f_equal.
    unfold push_to_fl, push_to. rewrite Hid, evolve_exact, advance_exact. reflexivity.
  Qed.
  Lemma step_exact c s : step_fl B F evolve update auto_dt copy fl rnd c s = step B F evolve update auto_dt copy rnd c s.
  Proof.
    unfold step_fl, step, next_times. rewrite map_fl. destruct (argmin _) as [k|]; [|reflexivity].
    destruct (Qltb _ _); [reflexivity|]. f_equal. rewrite advance_exact. f_equal.
    destruct (nth_error (objects c) k) as [[i|j|]|]; [apply evolve_exact|reflexivity| |reflexivity].
    f_equal. destruct (c_push_before c); [apply fold_exact|reflexivity].
  Qed.
  Lemma loop_exact fuel c s : loop_fl B F evolve update auto_dt copy fl rnd fuel c s =
    loop B F evolve update auto_dt copy rnd fuel c s.
  Proof.
    revert s. induction fuel as [|k IH]; intros s; [reflexivity|]. cbn [loop_fl loop]. rewrite step_exact.
    destruct (step _ _ _ _ _ _ _ _ _); auto.
  Qed.
  Lemma tracking_exact fuel c bs0 fs0 : (0 < c_ndiags c)%nat ->
    do_tracking_fl B F evolve update auto_dt copy fl rnd fuel c bs0 fs0 =
    do_tracking B F evolve update auto_dt copy rnd fuel c bs0 fs0.
  Proof.
    intros H. unfold do_tracking_fl, do_tracking, start_fl, start. rewrite initial_exact.
    destruct (c_ndiags c); [lia|]. apply loop_exact.
  Qed.
End Exact.

(** ** Testing that a number is clear of the jumps *)
Lemma clear_test (rnd : Q -> Q) T r : 0 <= r -> monotone rnd -> rnd (T - r) == rnd (T + r) -> clear_of_jumps rnd T r.
Proof.
  intros Hr Hm E x [H1 H2]. pose proof (Hm _ _ H1). pose proof (Hm _ _ H2).
  pose proof (Hm (T - r) T ltac:(lra)). pose proof (Hm T (T + r) ltac:(lra)). lra.
Qed.
