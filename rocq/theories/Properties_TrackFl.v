(** C96: tracking in the arithmetic of the machine. *)
From Coq Require Import QArith Qround List Bool Arith ZArith Lia Lqa.
From Verif Require Import Model_Tracker Spec_Tracker Model_TrackFl Spec_TrackFl.
From Verif Require Import Model_Float32 Proofs_Float32 Proofs_Tracker Proofs_TrackFl Proofs_TrackFl2 Proofs_TrackFl3.
Import ListNotations.
Open Scope Q_scope.

(** If no operation rounds, this is the tracking of C01-C10. *)
Theorem C96_exact :
  forall B F evolve update auto_dt copy (fl rnd : Q -> Q) fuel (c : config) (bs0 : list B) (fs0 : F),
  (forall x, fl x = x) -> (0 < c_ndiags c)%nat ->
  do_tracking_fl B F evolve update auto_dt copy fl rnd fuel c bs0 fs0 =
  do_tracking B F evolve update auto_dt copy rnd fuel c bs0 fs0.
Proof. intros. apply tracking_exact; assumption. Qed.

(** Whatever the roundings, outputs and updates come at the ticks of their step, until the first tick that the
    coarser type places after the end. *)
Theorem C96_ticks :
  forall B F evolve update auto_dt copy (fl rnd : Q -> Q) fuel (c : config) (bs0 : list B) (fs0 : F) s,
  length bs0 = length (c_dtb c) -> (0 < c_ndiags c)%nat ->
  do_tracking_fl B F evolve update auto_dt copy fl rnd fuel c bs0 fs0 = Done s ->
  (exists N, all_ticks fl rnd (c_tfinal c) (fl (c_tfinal c / inject_Z (Z.of_nat (c_ndiags c)))) N (diag_times (log s))) /\
  (forall j d f, nth_error (c_fields c) j = Some (d, f) ->
     exists N, all_ticks fl rnd (c_tfinal c)
                 (if f then fl (c_tfinal c / inject_Z (Qceiling (fl (c_tfinal c / d)))) else d)
                 N (field_times j (log s))).
Proof. intros. eapply ticks_lemma; eassumption. Qed.

(** The hypotheses below, for binary64 and binary32: the run lasts at least 2^-100 s and has at most 100000 outputs. *)
Lemma machine_e T : pow2 (-100) <= T -> 0 < T /\ 0 < T * pow2 (-51) /\ T * pow2 (-51) <= T * (1 # 1000000000000).
Proof.
  intros H. assert (P : 0 < T) by (pose proof (pow2_pos (-100)); lra).
  assert (E : pow2 (-51) == 1 # 2251799813685248) by reflexivity. rewrite E. repeat split; lra.
Qed.

(** On the machine there are [n_out + 1] outputs or [n_out], the one at the start included; the k-th comes at k
    n_out-ths of the total time, within k 2^-50 of the total time. *)
Theorem C96_output_count :
  forall B F evolve update auto_dt copy fuel (c : config) (bs0 : list B) (fs0 : F) s,
  let T := c_tfinal c in let n := c_ndiags c in
  length bs0 = length (c_dtb c) -> pow2 (-100) <= T -> (0 < n)%nat -> (Z.of_nat n <= 100000)%Z ->
  do_tracking_fl B F evolve update auto_dt copy f64 f32 fuel c bs0 fs0 = Done s ->
  (length (diag_times (log s)) = n \/ length (diag_times (log s)) = S n) /\
  (forall k t, nth_error (diag_times (log s)) k = Some t ->
     let exact := inject_Z (Z.of_nat k) * (T / inject_Z (Z.of_nat n)) in
     let err := inject_Z (Z.of_nat k) * (T * pow2 (-50)) in
     exact - err <= t <= exact + err) /\
  (* none is lost if the end is not too close to a number where binary32 rounding jumps *)
  (clear_of_jumps f32 T ((2 * inject_Z (Z.of_nat n) + 4) * (T * pow2 (-51))) -> length (diag_times (log s)) = S n).
Proof.
  intros B F evolve update auto_dt copy fuel c bs0 fs0 s T n Hlen HT Hn Hn' H.
  destruct (machine_e T HT) as (PT & Pe & Pe2). apply Qlt_le_weak in Pe.
  destruct (C96_ticks _ _ _ _ _ _ _ _ _ _ _ _ _ Hlen Hn H) as ((N & Ha) & _). fold T n in Ha.
  pose proof Ha as (El & _).
  assert (L : length (diag_times (log s)) = S N) by (rewrite El, map_length, seq_length; reflexivity).
  split; [|split].
  - rewrite L. destruct (count_lemma T _ f64 f32 PT Pe Pe2 (f64_times T HT) (f32_times T HT) n Hn Hn' N _ Ha) as [->| ->]; lia.
  - intros k t Hk. cbv zeta.
    destruct (all_near T _ f64 f32 PT Pe Pe2 (f64_times T HT) (f32_times T HT) n Hn Hn' N _ k t Ha Hk) as [A1 A2].
    assert (E : inject_Z (Z.of_nat k) * (T * pow2 (-50)) == 2 * inject_Z (Z.of_nat k) * (T * pow2 (-51))).
    { assert (pow2 (-50) == 2 * pow2 (-51)) by reflexivity. rewrite H0. ring. }
    rewrite E. split; assumption.
  - intros Hc. rewrite L. f_equal.
    apply (count_all T _ f64 f32 PT Pe Pe2 (f64_times T HT) (f32_times T HT) n Hn Hn' N _ Hc Ha).
Qed.

(** The same for a field with forced even updates, [n] being the number of updates computed on the machine. *)
Theorem C96_update_count :
  forall B F evolve update auto_dt copy fuel (c : config) (bs0 : list B) (fs0 : F) s j d n,
  let T := c_tfinal c in
  length bs0 = length (c_dtb c) -> (0 < c_ndiags c)%nat -> pow2 (-100) <= T ->
  do_tracking_fl B F evolve update auto_dt copy f64 f32 fuel c bs0 fs0 = Done s ->
  nth_error (c_fields c) j = Some (d, true) ->
  Qceiling (f64 (T / d)) = Z.of_nat n -> (0 < n)%nat -> (Z.of_nat n <= 100000)%Z ->
  (length (field_times j (log s)) = n \/ length (field_times j (log s)) = S n) /\
  (forall k t, nth_error (field_times j (log s)) k = Some t ->
     let exact := inject_Z (Z.of_nat k) * (T / inject_Z (Z.of_nat n)) in
     let err := inject_Z (Z.of_nat k) * (T * pow2 (-50)) in
     exact - err <= t <= exact + err) /\
  (clear_of_jumps f32 T ((2 * inject_Z (Z.of_nat n) + 4) * (T * pow2 (-51))) -> length (field_times j (log s)) = S n).
Proof.
  intros B F evolve update auto_dt copy fuel c bs0 fs0 s j d n T Hlen Hnd HT H Hj Ec Hn Hn'.
  destruct (machine_e T HT) as (PT & Pe & Pe2). apply Qlt_le_weak in Pe.
  destruct (C96_ticks _ _ _ _ _ _ _ _ _ _ _ _ _ Hlen Hnd H) as (_ & Hf).
  destruct (Hf j d true Hj) as (N & Ha). cbv iota in Ha. fold T in Ha. rewrite Ec in Ha.
  pose proof Ha as (El & _).
  assert (L : length (field_times j (log s)) = S N) by (rewrite El, map_length, seq_length; reflexivity).
  split; [|split].
  - rewrite L. destruct (count_lemma T _ f64 f32 PT Pe Pe2 (f64_times T HT) (f32_times T HT) n Hn Hn' N _ Ha) as [->| ->]; lia.
  - intros k t Hk. cbv zeta.
    destruct (all_near T _ f64 f32 PT Pe Pe2 (f64_times T HT) (f32_times T HT) n Hn Hn' N _ k t Ha Hk) as [A1 A2].
    assert (E : inject_Z (Z.of_nat k) * (T * pow2 (-50)) == 2 * inject_Z (Z.of_nat k) * (T * pow2 (-51))).
    { assert (pow2 (-50) == 2 * pow2 (-51)) by reflexivity. rewrite H0. ring. }
    rewrite E. split; assumption.
  - intros Hc. rewrite L. f_equal.
    apply (count_all T _ f64 f32 PT Pe Pe2 (f64_times T HT) (f32_times T HT) n Hn Hn' N _ Hc Ha).
Qed.

(** The steps given to the pushes of a bunch add up to its clock, up to 2^-51 of the total time per push; and when
    the end is clear of jumps its clock is the end, as far as binary32 can tell. *)
Theorem C96_arrival :
  forall B F evolve update auto_dt copy fuel (c : config) (bs0 : list B) (fs0 : F) s i,
  let T := c_tfinal c in let n := c_ndiags c in
  good_config c bs0 -> (forall b, 0 <= auto_dt b) ->
  pow2 (-100) <= T -> (0 < n)%nat -> (Z.of_nat n <= 100000)%Z ->
  do_tracking_fl B F evolve update auto_dt copy f64 f32 fuel c bs0 fs0 = Done s -> (i < length bs0)%nat ->
  exists t, let err := inject_Z (Z.of_nat (length (pushes i (log s)))) * (T * pow2 (-51)) in
    t - err <= total_push i (log s) <= t + err /\ t <= T * (3 # 2) /\
    (clear_of_jumps f32 T ((2 * inject_Z (Z.of_nat n) + 4) * (T * pow2 (-51))) ->
     (c_push_before c = true \/
      exists b d, nth_error bs0 i = Some b /\ nth_error (c_dtb c) i = Some d /\
        match d with Some q => q | None => auto_dt b end <= T) ->
     f32 t == f32 T).
Proof.
  intros B F evolve update auto_dt copy fuel c bs0 fs0 s i T n Hg Ha HT Hn Hn' H Hi.
  destruct (machine_e T HT) as (PT & Pe & Pe2). apply Qlt_le_weak in Pe.
  destruct (arrive_lemma B F evolve update auto_dt copy f64 f32 c bs0 fs0 (T * pow2 (-51)) Hg Hn Hn' Ha Pe Pe2
              (f64_times T HT) (f32_times T HT) fuel s i H Hi) as (t & A1 & A2 & A3 & A4).
  exists t. cbv zeta. fold T in A3. split; [|split; [exact A3|]].
  - set (err := inject_Z _ * _) in *. lra.
  - intros Hc Hor. apply A4; [exact Hc|]. destruct Hor as [Hp|(b & d & Eb & Ed & Hd)]; [left; exact Hp|right].
    unfold short. rewrite (initial_bunch B auto_dt f64 c bs0 (proj1 (proj2 Hg)) Hn i d b Ed Eb). exact Hd.
Qed.

(** It ends: if no step is shorter than 2^-50 of the total time and the end is clear of jumps. *)
Theorem C96_terminates :
  forall B F evolve update auto_dt copy (c : config) (bs0 : list B) (fs0 : F),
  let T := c_tfinal c in let n := c_ndiags c in
  good_config c bs0 -> pow2 (-100) <= T -> (0 < n)%nat -> (Z.of_nat n <= 100000)%Z ->
  clear_of_jumps f32 T ((2 * inject_Z (Z.of_nat n) + 4) * (T * pow2 (-51))) ->
  (forall b, T * pow2 (-50) <= auto_dt b) ->
  (forall d, In (Some d) (c_dtb c) -> T * pow2 (-50) <= d) ->
  (forall d f, In (d, f) (c_fields c) -> T * pow2 (-50) <= if f then f64 (T / inject_Z (Qceiling (f64 (T / d)))) else d) ->
  exists fuel s, do_tracking_fl B F evolve update auto_dt copy f64 f32 fuel c bs0 fs0 = Done s.
Proof.
  intros B F evolve update auto_dt copy c bs0 fs0 T n Hg HT Hn Hn' Hc Ha Hd Hf.
  destruct (machine_e T HT) as (PT & Pe & Pe2).
  assert (E : T * pow2 (-50) == 2 * (T * pow2 (-51))).
  { assert (X : pow2 (-50) == 2 * pow2 (-51)) by reflexivity. rewrite X. ring. }
  unfold do_tracking_fl.
  apply (terminates_lemma B F evolve update auto_dt copy f64 f32 c bs0 fs0 (T * pow2 (-51)) Hg Hn Hn' Pe Pe2
              (f64_times T HT) (f32_times T HT) Hc).
  - intros b. rewrite <- E. apply Ha.
  - intros d Hi. rewrite <- E. apply Hd, Hi.
  - intros d f Hi. rewrite <- E. apply (Hf d f Hi).
Qed.

(** The condition on the end can be tested at two points. *)
Theorem C96_clear_test :
  forall T r, 0 <= r -> f32 (T - r) == f32 (T + r) -> clear_of_jumps f32 T r.
Proof. intros T r Hr. apply (clear_test f32 T r Hr f32_mono). Qed.

(** Without that condition the output at the end can be lost, in spite of the comparison in binary32: 7 outputs
    requested, the last one missing. *)
Definition ex_run_fl fuel c (bs0 : list Q) := do_tracking_fl Q unit (fun _ b _ d => b + d) (fun _ f _ => f) (fun _ => 1)
  (fun b => b) f64 f32 fuel c bs0 tt.
Definition bad_T : Q := (16777221 # 2) * pow2 (-60).
Theorem C96_last_output_refuted :
  exists c s, c_tfinal c = bad_T /\ f64 bad_T == bad_T /\ c_ndiags c = 7%nat /\ ex_run_fl 40 c [0] = Done s /\
    length (diag_times (log s)) = 7%nat.
Proof.
  exists {| c_tfinal := bad_T; c_dtb := [Some (bad_T / 3)]; c_fields := []; c_ndiags := 7; c_push_before := true |}.
  eexists. split; [reflexivity|]. split; [vm_compute; reflexivity|]. split; [reflexivity|].
  split; vm_compute; reflexivity.
Qed.

(** ** Non-vacuity: half a picosecond, three outputs, forced updates; steps that no binary fraction equals. *)
Definition ex_T : Q := 1 # 2199023255552.
Definition ex_fl_c : config :=
  {| c_tfinal := ex_T; c_dtb := [Some (f64 (ex_T / 5)); Some (2 * ex_T)]; c_fields := [(f64 (ex_T / (29 # 10)), true)];
     c_ndiags := 3; c_push_before := true |}.
Example C96_example : good_config ex_fl_c [0; 0] /\ pow2 (-100) <= ex_T /\
  clear_of_jumps f32 ex_T ((2 * inject_Z 3 + 4) * (ex_T * pow2 (-51))) /\
  Qceiling (f64 (ex_T / f64 (ex_T / (29 # 10)))) = 3%Z /\
  exists s, ex_run_fl 40 ex_fl_c [0; 0] = Done s /\ length (diag_times (log s)) = 4%nat /\
    length (field_times 0 (log s)) = 4%nat /\ (7 <= length (pushes 0 (log s)))%nat /\
    ~ (nth 1 (diag_times (log s)) 0 == ex_T / 3).
Proof.
  split; [|split; [|split; [|split]]].
  - split; [reflexivity|]. split; [reflexivity|]. split.
    + intros d [E|[E|[]]]; injection E as <-; vm_compute; reflexivity.
    + intros d b [E|[]]; injection E as <- <-; vm_compute; reflexivity.
  - vm_compute. discriminate.
  - apply C96_clear_test; [vm_compute; discriminate|vm_compute; reflexivity].
  - vm_compute. reflexivity.
  - eexists. split; [vm_compute; reflexivity|]. split; [reflexivity|]. split; [reflexivity|].
    split; [cbn; lia|]. vm_compute. discriminate.
Qed.

Print Assumptions C96_exact.
Print Assumptions C96_ticks.
Print Assumptions C96_output_count.
Print Assumptions C96_update_count.
Print Assumptions C96_arrival.
Print Assumptions C96_terminates.
Print Assumptions C96_clear_test.
Print Assumptions C96_last_output_refuted.
