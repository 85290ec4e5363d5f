(** Properties C01-C10 of the tracking loop.  Vocabulary: Spec_Tracker.
    [B] bunches, [F] fields; [evolve], [update], [auto_dt] and [copy] are
    arbitrary functions standing for the calls the tracker makes. *)
From Coq Require Import QArith Qround List Bool Arith ZArith Lia Lqa.
From Verif Require Import Model_Tracker Spec_Tracker Proofs_Tracker
  Model_Float32 Proofs_Float32.
Import ListNotations.
Open Scope Q_scope.

(** ** C01 *)
Theorem C01_tracking_terminates :
  forall B F evolve update auto_dt copy (c : config) (bs0 : list B) (fs0 : F) m,
  good_config c bs0 -> bounded_below auto_dt m -> (0 < c_ndiags c)%nat ->
  exists N s, forall fuel, (N <= fuel)%nat ->
    do_tracking B F evolve update auto_dt copy exact fuel c bs0 fs0 = Done s.
Proof. intros; eapply tracking_terminates_lemma; eassumption. Qed.

(** The same with the float32 comparisons of the code. *)
Theorem C01_tracking_terminates_float32 :
  forall B F evolve update auto_dt copy (c : config) (bs0 : list B) (fs0 : F) m,
  good_config c bs0 -> bounded_below auto_dt m -> (0 < c_ndiags c)%nat ->
  exists N s, forall fuel, (N <= fuel)%nat ->
    do_tracking B F evolve update auto_dt copy f32 fuel c bs0 fs0 = Done s.
Proof.
  intros B F evolve update auto_dt copy c bs0 fs0 m Hg Ha Hn.
  destruct (f32_unbounded (c_tfinal c)) as [T' HT].
  exact (tracking_terminates_rnd B F evolve update auto_dt copy c bs0 fs0 Hg m Ha
           f32 T' f32_mono HT Hn).
Qed.

(** ** C02, C03 *)
Theorem C02_bunch_pushed_over_whole_element :
  forall B F evolve update auto_dt copy (c : config) (bs0 : list B) (fs0 : F) m fuel s i,
  good_config c bs0 -> bounded_below auto_dt m ->
  do_tracking B F evolve update auto_dt copy exact fuel c bs0 fs0 = Done s ->
  (i < length bs0)%nat ->
  (c_push_before c = true \/
   exists b d, nth_error bs0 i = Some b /\ nth_error (c_dtb c) i = Some d /\
     match d with Some q => q | None => auto_dt b end <= c_tfinal c) ->
  total_push i (log s) == c_tfinal c.
Proof.
  intros B F evolve update auto_dt copy c bs0 fs0 m fuel s i Hg Ha H Hi Hf.
  destruct (arrival_lemma B F evolve update auto_dt copy c bs0 fs0 Hg m Ha exact fuel s i
              exact_mono H Hi Hf) as (t & Hc & Ht).
  apply chain_total in Hc. unfold total_push. unfold exact in Ht. lra.
Qed.

Theorem C03_pushes_tile_the_interval :
  forall B F evolve update auto_dt copy (c : config) (bs0 : list B) (fs0 : F) m fuel s i,
  good_config c bs0 -> bounded_below auto_dt m ->
  do_tracking B F evolve update auto_dt copy exact fuel c bs0 fs0 = Done s ->
  (i < length bs0)%nat -> c_push_before c = true ->
  chain 0 (pushes i (log s)) (c_tfinal c) /\
  Forall (fun p => 0 <= snd p /\ fst p + snd p <= c_tfinal c) (pushes i (log s)) /\
  (forall d, nth_error (c_dtb c) i = Some (Some d) ->
     Forall (fun p => snd p <= d) (pushes i (log s))) /\
  (forall d, nth_error (c_dtb c) i = Some None -> (forall b, auto_dt b <= d) ->
     Forall (fun p => snd p <= d) (pushes i (log s))).
Proof.
  intros B F evolve update auto_dt copy c bs0 fs0 m fuel s i Hg Ha H Hi Hf.
  destruct (arrival_lemma B F evolve update auto_dt copy c bs0 fs0 Hg m Ha exact fuel s i
              exact_mono H Hi (or_introl Hf)) as (t & Hc & Ht).
  destruct (push_lengths_lemma B F evolve update auto_dt copy c bs0 fs0 Hg m Ha fuel s i H Hi)
    as (P1 & P2 & P3).
  destruct (causality_lemma B F evolve update auto_dt copy c bs0 fs0 Hg m Ha fuel s H) as (C0 & _).
  repeat split; auto.
  - eapply chain_ext; [reflexivity|exact Ht|exact Hc].
  - rewrite Forall_forall in *. intros [a d] Hin. split; [apply (P1 _ Hin)|].
    apply in_pushes in Hin as [y Hin]. apply (C0 _ Hin).
Qed.

(** A bunch's own steps (those not made to synchronise an output) have exactly
    the requested length -- for adaptive bunches the length asked for by the
    step function for the bunch as it is at that moment -- unless the rest of
    the element is shorter, in which case the step ends exactly at the exit. *)
Theorem C03_own_steps_have_requested_length :
  forall B F evolve update auto_dt copy (c : config) (bs0 : list B) (fs0 : F) m fuel s
         l1 i t d l2,
  good_config c bs0 -> bounded_below auto_dt m ->
  do_tracking B F evolve update auto_dt copy exact fuel c bs0 fs0 = Done s ->
  log s = l1 ++ EPush i t d false :: l2 ->
  exists b, nth_error (snd (replay B F evolve update l1 (fs0, bs0))) i = Some b /\
    let r := match nth_error (c_dtb c) i with Some (Some q) => q | _ => auto_dt b end in
    d == r \/ (d <= r /\ t + d == c_tfinal c).
Proof.
  intros B F evolve update auto_dt copy c bs0 fs0 m fuel s l1 i t d l2 Hg Ha H El.
  exact (own_steps_lemma B F evolve update auto_dt copy c bs0 fs0 Hg m Ha fuel s l1 i t d l2 H El).
Qed.

(** ** C04, C05 *)
Theorem C04_output_times :
  forall B F evolve update auto_dt copy (c : config) (bs0 : list B) (fs0 : F) m fuel s,
  good_config c bs0 -> bounded_below auto_dt m ->
  do_tracking B F evolve update auto_dt copy exact fuel c bs0 fs0 = Done s ->
  multiples (c_tfinal c / inject_Z (Z.of_nat (c_ndiags c))) (S (c_ndiags c))
            (diag_times (log s)).
Proof.
  intros B F evolve update auto_dt copy c bs0 fs0 m fuel s Hg Ha H.
  destruct (diag_count_lemma B F evolve update auto_dt copy c bs0 fs0 Hg m Ha exact fuel s
              exact_mono H) as (n & H1 & H2 & H3).
  destruct (done_Inv B F evolve update auto_dt copy exact exact_mono c bs0 fs0 Hg m Ha fuel s H)
    as (Hdg & _).
  pose proof (dtdiag_pos B c bs0 Hg Hdg) as Hp. unfold dt_diags in Hp.
  assert (E : n = c_ndiags c) by (apply H3; unfold exact; lra).
  rewrite E in H2. exact H2.
Qed.

(** The [k]-th copy returned for a bunch is the copy of that bunch after the
    effects logged before the [k]-th output; these have pushed it exactly to
    the time [k * t_final / n] of the output. *)
Theorem C05_outputs_are_synchronous :
  forall B F evolve update auto_dt copy (c : config) (bs0 : list B) (fs0 : F) m fuel s i o,
  good_config c bs0 -> bounded_below auto_dt m ->
  do_tracking B F evolve update auto_dt copy exact fuel c bs0 fs0 = Done s ->
  c_push_before c = true ->
  nth_error (out s) i = Some o ->
  length o = S (c_ndiags c) /\
  forall k b, nth_error o k = Some b ->
    exists l1 t sn l2 b0,
      log s = l1 ++ EDiag t sn :: l2 /\
      length (diag_times l1) = k /\
      t == inject_Z (Z.of_nat k) * (c_tfinal c / inject_Z (Z.of_nat (c_ndiags c))) /\
      nth_error (snd (replay B F evolve update l1 (fs0, bs0))) i = Some b0 /\
      b = copy b0 /\
      chain 0 (pushes i l1) t.
Proof.
  intros B F evolve update auto_dt copy c bs0 fs0 m fuel s i o Hg Ha H Hpb Ho.
  pose proof (C04_output_times B F evolve update auto_dt copy c bs0 fs0 m fuel s Hg Ha H)
    as [M1 M2].
  destruct (outputs_lemma B F evolve update auto_dt copy c bs0 fs0 Hg m Ha exact fuel s i o
              exact_mono H Ho) as [L1 L2].
  split; [congruence|]. intros k b Hk.
  destruct (L2 k b Hk) as (l1 & t & sn & l2 & b0 & E1 & E2 & E3 & E4 & E5 & E6).
  exists l1, t, sn, l2, b0. repeat split; auto.
Qed.

(** There is one list of copies per bunch. *)
Theorem C05_one_output_list_per_bunch :
  forall B F evolve update auto_dt copy (c : config) (bs0 : list B) (fs0 : F) m fuel s rnd,
  good_config c bs0 -> bounded_below auto_dt m ->
  do_tracking B F evolve update auto_dt copy rnd fuel c bs0 fs0 = Done s ->
  length (out s) = length bs0 /\ length (bs s) = length bs0.
Proof.
  intros B F evolve update auto_dt copy c bs0 fs0 m fuel s rnd Hg Ha H.
  destruct (done_Rep B F evolve update auto_dt copy rnd c bs0 fs0 Hg fuel s H) as [W _ _ _].
  destruct Hg as (_ & Hl & _). rewrite Hl. split; apply W.
Qed.

(** ** C06 *)
Theorem C06_events_in_order :
  forall B F evolve update auto_dt copy (c : config) (bs0 : list B) (fs0 : F) m fuel s,
  good_config c bs0 -> bounded_below auto_dt m ->
  do_tracking B F evolve update auto_dt copy exact fuel c bs0 fs0 = Done s ->
  (* all events lie in the element, in order *)
  (forall e, In e (log s) -> 0 <= etime e <= c_tfinal c) /\
  (forall l1 e l2 e', log s = l1 ++ e :: l2 -> In e' l2 -> etime e <= etime e') /\
  (* at equal instants: own pushes of bunches before field updates before outputs *)
  (forall l1 j t l2 i t' d', log s = l1 ++ EField j t :: l2 ->
      In (EPush i t' d' false) l2 -> t < t' + d') /\
  (forall l1 t sn l2 e, log s = l1 ++ EDiag t sn :: l2 -> In e l2 -> t < etime e) /\
  (* no bunch is ahead of a field being updated *)
  (forall l1 j t l2 i, log s = l1 ++ EField j t :: l2 -> (i < length bs0)%nat ->
      exists u, chain 0 (pushes i l1) u /\ u <= t).
Proof.
  intros B F evolve update auto_dt copy c bs0 fs0 m fuel s Hg Ha H.
  destruct (causality_lemma B F evolve update auto_dt copy c bs0 fs0 Hg m Ha fuel s H)
    as (C0 & C1 & C2 & C3).
  repeat split; auto; try (apply C0; assumption).
  intros l1 j t l2 i El Hi.
  exact (field_sees_lemma B F evolve update auto_dt copy c bs0 fs0 Hg m Ha fuel s l1 j t l2 i H El Hi).
Qed.

(** The log is the whole story: the bunches and fields at the end are those
    obtained by performing the logged pushes and updates one after the other,
    each push with the fields as left by the preceding updates. *)
Theorem C06_log_explains_state :
  forall B F evolve update auto_dt copy (c : config) (bs0 : list B) (fs0 : F) fuel s rnd,
  good_config c bs0 ->
  do_tracking B F evolve update auto_dt copy rnd fuel c bs0 fs0 = Done s ->
  (fs s, bs s) = replay B F evolve update (log s) (fs0, bs0).
Proof.
  intros B F evolve update auto_dt copy c bs0 fs0 fuel s rnd Hg H.
  apply (done_Rep B F evolve update auto_dt copy rnd c bs0 fs0 Hg fuel s H).
Qed.

(** The run starts with one update of each field and the first output. *)
Theorem C06_start_of_the_log :
  forall B F evolve update auto_dt copy (c : config) (bs0 : list B) (fs0 : F) fuel s rnd,
  do_tracking B F evolve update auto_dt copy rnd fuel c bs0 fs0 = Done s ->
  exists rest, log s =
    (map (fun j => EField j 0) (seq 0 (length (c_fields c))) ++
     EDiag 0 (map copy bs0) :: rest)%list.
Proof.
  intros B F evolve update auto_dt copy c bs0 fs0 fuel s rnd H.
  destruct (first_output_lemma B F evolve update auto_dt copy c bs0 fs0 rnd fuel s H) as [r E].
  exists r. rewrite E, <- app_assoc. reflexivity.
Qed.

(** ** C07 *)
Theorem C07_field_update_times :
  forall B F evolve update auto_dt copy (c : config) (bs0 : list B) (fs0 : F) m fuel s j d f,
  good_config c bs0 -> bounded_below auto_dt m ->
  do_tracking B F evolve update auto_dt copy exact fuel c bs0 fs0 = Done s ->
  nth_error (c_fields c) j = Some (d, f) ->
  exists n,
    let d' := adjust_dt f (c_tfinal c) d in
    multiples d' (S n) (field_times j (log s)) /\
    inject_Z (Z.of_nat n) * d' <= c_tfinal c < inject_Z (Z.of_nat (S n)) * d' /\
    (* with forced even updates the last one is at the very end *)
    (f = true -> inject_Z (Z.of_nat n) * d' == c_tfinal c /\
                 Z.of_nat n = Qceiling (c_tfinal c / d)).
Proof.
  intros B F evolve update auto_dt copy c bs0 fs0 m fuel s j d f Hg Ha H Hj.
  destruct (field_count_lemma B F evolve update auto_dt copy c bs0 fs0 Hg m Ha exact fuel s j d f
              exact_mono H Hj) as (n & H1 & H2 & H3).
  exists n. cbv zeta. split; [exact H1|]. split; [split; assumption|].
  intros ->. pose proof Hg as (G1 & _ & _ & G4).
  apply even_updates_lemma; auto. apply (G4 d true). eapply nth_error_In; eassumption.
Qed.

(** ** C08 *)
Theorem C08_even_updates :
  forall T d, 0 < T -> 0 < d ->
  exists k, (1 <= k)%nat /\
    inject_Z (Z.of_nat k) * adjust_dt true T d == T /\
    adjust_dt true T d <= d /\
    (forall j, (1 <= j)%nat -> T / inject_Z (Z.of_nat j) <= d -> (k <= j)%nat).
Proof. exact adjust_lemma. Qed.
Theorem C08_readjusting_changes_nothing :
  forall T d, 0 < T -> 0 < d ->
  adjust_dt true T (adjust_dt true T d) == adjust_dt true T d.
Proof.
  intros T d HT Hd. destruct (adjust_lemma T d HT Hd) as (k & K1 & K2 & _).
  apply (adjust_fixed _ _ k); auto. apply adjust_pos; assumption.
Qed.
Theorem C08_not_forced_untouched : forall T d, adjust_dt false T d = d.
Proof. reflexivity. Qed.

(** ** C09 *)
(** Any monotone rounding: events are processed in rounded order, every pushed
    bunch ends at a time that rounds like the end of the element. *)
Theorem C09_rounded_arrival :
  forall B F evolve update auto_dt copy (c : config) (bs0 : list B) (fs0 : F) m fuel s i rnd,
  monotone rnd ->
  good_config c bs0 -> bounded_below auto_dt m ->
  do_tracking B F evolve update auto_dt copy rnd fuel c bs0 fs0 = Done s ->
  (i < length bs0)%nat -> c_push_before c = true ->
  exists t, chain 0 (pushes i (log s)) t /\ rnd t == rnd (c_tfinal c).
Proof.
  intros B F evolve update auto_dt copy c bs0 fs0 m fuel s i rnd Hr Hg Ha H Hi Hf.
  exact (arrival_lemma B F evolve update auto_dt copy c bs0 fs0 Hg m Ha rnd fuel s i
           Hr H Hi (or_introl Hf)).
Qed.
Theorem C09_rounded_order :
  forall B F evolve update auto_dt copy (c : config) (bs0 : list B) (fs0 : F) m fuel s rnd,
  monotone rnd ->
  good_config c bs0 -> bounded_below auto_dt m ->
  do_tracking B F evolve update auto_dt copy rnd fuel c bs0 fs0 = Done s ->
  (forall l1 e l2 e', log s = l1 ++ e :: l2 -> In e' l2 ->
     rnd (etime e) <= rnd (etime e')) /\
  (forall e, In e (log s) -> rnd (etime e) <= rnd (c_tfinal c)).
Proof.
  intros B F evolve update auto_dt copy c bs0 fs0 m fuel s rnd Hr Hg Ha H.
  exact (rounded_order_lemma B F evolve update auto_dt copy c bs0 fs0 Hg m Ha rnd fuel s Hr H).
Qed.
(** Outputs keep their exact times, and there are n+1 of them as soon as the
    rounding separates the end of the element from one output period later. *)
Theorem C09_rounded_outputs :
  forall B F evolve update auto_dt copy (c : config) (bs0 : list B) (fs0 : F) m fuel s rnd,
  monotone rnd ->
  good_config c bs0 -> bounded_below auto_dt m ->
  do_tracking B F evolve update auto_dt copy rnd fuel c bs0 fs0 = Done s ->
  exists n, (c_ndiags c <= n)%nat /\
    multiples (c_tfinal c / inject_Z (Z.of_nat (c_ndiags c))) (S n) (diag_times (log s)) /\
    (rnd (c_tfinal c) <
     rnd (c_tfinal c + c_tfinal c / inject_Z (Z.of_nat (c_ndiags c))) ->
     n = c_ndiags c).
Proof.
  intros B F evolve update auto_dt copy c bs0 fs0 m fuel s rnd Hr Hg Ha H.
  exact (diag_count_lemma B F evolve update auto_dt copy c bs0 fs0 Hg m Ha rnd fuel s Hr H).
Qed.
(** float32 is such a rounding; the error in the final time is at most the mean
    of the two float32 spacings. *)
Theorem C09_float32_monotone : monotone f32.
Proof. exact f32_mono. Qed.
Theorem C09_float32_arrival_error :
  forall t T, 0 < t -> 0 < T -> f32 t == f32 T ->
  t - T <= (ulp32 t + ulp32 T) / 2 /\ T - t <= (ulp32 t + ulp32 T) / 2.
Proof.
  intros t T Ht HT H. pose proof (f32_error t Ht). pose proof (f32_error T HT).
  assert (E1 : (ulp32 t + ulp32 T) / 2 == ulp32 t / 2 + ulp32 T / 2) by field.
  rewrite E1. lra.
Qed.

(** Example world used below: a bunch is its clock, the field counts updates. *)
Definition ex_evolve (f : nat) (b t d : Q) : Q := Qred (b + d).
Definition ex_update (j : nat) (f : nat) (l : list Q) : nat := S f.
Definition ex_auto (b : Q) : Q := 7 # 20.
Definition ex_copy (b : Q) : Q := b.
Definition ex_run rnd fuel c bs := do_tracking Q nat ex_evolve ex_update ex_auto ex_copy rnd fuel c bs 0%nat.

(** Exact arrival fails with float32 comparisons, also with the default
    synchronised outputs: a bunch whose last step leaves it less than half a
    float32 spacing before the end keeps being pushed by that remainder. *)
Definition ex_f32 : config :=
  {| c_tfinal := 1 + (96 # 10) * pow2 (-23); c_dtb := [Some (1 + (945 # 100) * pow2 (-23))];
     c_fields := []; c_ndiags := 1; c_push_before := true |}.
Theorem C09_exact_arrival_refuted :
  exists s, good_config ex_f32 [0] /\
    ex_run f32 50 ex_f32 [0] = Done s /\
    c_tfinal ex_f32 < total_push 0 (log s) /\
    exists t d y, In (EPush 0 t d y) (log s) /\ d < 0.
Proof.
  eexists. split; [|split; [vm_compute; reflexivity|split]].
  - repeat split; simpl.
    + intros d [E|[]]. injection E as <-. reflexivity.
    + intros d b [].
  - vm_compute. reflexivity.
  - vm_compute. do 3 eexists. split; [do 9 right; left; reflexivity|]. reflexivity.
Qed.

(** ** C10 *)
(** With zero outputs the tracker raises AttributeError before any push. *)
Theorem C10_zero_outputs :
  forall B F evolve update auto_dt copy (c : config) (b : B) bs0 (fs0 : F) fuel rnd,
  c_ndiags c = O ->
  exists s, do_tracking B F evolve update auto_dt copy rnd fuel c (b :: bs0) fs0
            = Raise AttributeError s /\
    bs s = b :: bs0 /\ (forall i, pushes i (log s) = []).
Proof. exact zero_outputs_lemma. Qed.
Theorem C10_zero_outputs_accepted_refuted :
  exists c, good_config c [0] /\ c_ndiags c = O /\
    forall fuel, ~ exists s, ex_run exact fuel c [0] = Done s.
Proof.
  exists {| c_tfinal := 1; c_dtb := [Some (1#2)]; c_fields := []; c_ndiags := 0;
            c_push_before := true |}.
  repeat split; simpl.
  - intros d [E|[]]. injection E as <-. reflexivity.
  - intros d b [].
  - intros fuel [s H]. discriminate H.
Qed.

(** ** C02, limit: without synchronised outputs a first step longer than the
    element is never made. *)
Theorem C02_unsynchronised_long_step_refuted :
  exists c s, good_config c [0] /\ c_push_before c = false /\
    ex_run exact 10 c [0] = Done s /\ total_push 0 (log s) == 0.
Proof.
  exists {| c_tfinal := 1; c_dtb := [Some (3#2)]; c_fields := []; c_ndiags := 2;
            c_push_before := false |}.
  eexists. split; [|split; [reflexivity|split; [vm_compute; reflexivity|]]].
  - repeat split; simpl.
    + intros d [E|[]]. injection E as <-. reflexivity.
    + intros d b [].
  - reflexivity.
Qed.

(** ** Non-vacuity: two bunches (one adaptive), two fields, two outputs. *)
Definition ex_c : config :=
  {| c_tfinal := 1; c_dtb := [Some (3#10); None]; c_fields := [((2#5), false); ((3#10), true)];
     c_ndiags := 2; c_push_before := true |}.
Example ex_good : good_config ex_c [0; 0].
Proof.
  repeat split; simpl.
  - intros d [E|[E|[]]]; [injection E as <-; reflexivity|discriminate].
  - intros d b [E|[E|[]]]; injection E as <- <-; reflexivity.
Qed.
Example ex_auto_bounded : bounded_below ex_auto (1#4).
Proof. split; [reflexivity|]. intros b. discriminate. Qed.
Example ex_done : exists s, ex_run exact 40 ex_c [0; 0] = Done s /\
  bs s = [1; 1] /\ fs s = 8%nat /\
  map (map Qred) (out s) = [[0; 1#2; 1]; [0; 1#2; 1]] /\
  map Qred (field_times 0 (log s)) = [0; 2#5; 4#5] /\
  map Qred (field_times 1 (log s)) = [0; 1#4; 1#2; 3#4; 1] /\
  map (fun p => (Qred (fst p), Qred (snd p))) (pushes 1 (log s)) =
    [(0, 7#20); (7#20, 3#20); (1#2, 7#20); (17#20, 3#20); (1, 0)].
Proof. eexists. split; [vm_compute; reflexivity|]. vm_compute. repeat split. Qed.
Example ex_f32_done : exists s, ex_run f32 40 ex_c [0; 0] = Done s /\ bs s = [1; 1].
Proof. eexists. split; [vm_compute; reflexivity|]. vm_compute. repeat split. Qed.
Example ex_f32_round : f32 (1#10) == 13421773 # 134217728.
Proof. reflexivity. Qed.

Print Assumptions C01_tracking_terminates.
Print Assumptions C01_tracking_terminates_float32.
Print Assumptions C02_bunch_pushed_over_whole_element.
Print Assumptions C03_pushes_tile_the_interval.
Print Assumptions C04_output_times.
Print Assumptions C05_outputs_are_synchronous.
Print Assumptions C06_events_in_order.
Print Assumptions C06_log_explains_state.
Print Assumptions C07_field_update_times.
Print Assumptions C08_even_updates.
Print Assumptions C09_rounded_arrival.
Print Assumptions C09_float32_arrival_error.
Print Assumptions C09_exact_arrival_refuted.
Print Assumptions C10_zero_outputs.
