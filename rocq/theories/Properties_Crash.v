(** C95: an exception at any point of tracking. *)
From Coq Require Import QArith List Bool Arith Lia.
From Verif Require Import Model_Tracker Spec_Tracker Model_Crash Spec_Crash Proofs_Crash Proofs_Crash2.
Import ListNotations.

(** Interrupted by an exception, whichever operation raises it: the events and outputs so far are the first
    ones, but not all, of the undisturbed tracking. *)
Theorem C95_beginning :
  forall B F evolve update auto_dt copy rnd raises half_b half_f copies num_threads light fuel c
         (bs0 : list B) (fs0 : F) g s g',
  try_tracking B F evolve update auto_dt copy rnd raises half_b half_f copies num_threads light fuel c bs0 fs0 g
    = (Interrupted s, g') ->
  beginning_of s (end_of (do_tracking B F evolve update auto_dt copy rnd fuel c bs0 fs0)) /\
  log s <> log (end_of (do_tracking B F evolve update auto_dt copy rnd fuel c bs0 fs0)).
Proof.
  intros. pose proof (tracking_ok B F evolve update auto_dt copy rnd raises half_b half_f copies
    num_threads light fuel c bs0 fs0 g) as V. rewrite H in V. cbn [fst verdict] in V.
  destruct V as [[V1 [_ [_ [_ V5]]]] _]. auto.
Qed.
Print Assumptions C95_beginning.

(** It is the first operation that raises which interrupts, and nothing is rolled back: bunches and fields
    are those after the recorded operations, apart from what the unfinished one did to its bunch or to the
    fields. *)
Theorem C95_first_exception :
  forall B F evolve update auto_dt copy rnd raises half_b half_f copies num_threads light fuel c
         (bs0 : list B) (fs0 : F) g s g',
  try_tracking B F evolve update auto_dt copy rnd raises half_b half_f copies num_threads light fuel c bs0 fs0 g
    = (Interrupted s, g') ->
  raises (log s) = true /\ nothing_raises raises (log s) /\
  one_unfinished (half_b (log s)) (half_f (log s)) (replay B F evolve update (log s) (fs0, bs0)) s.
Proof.
  intros. pose proof (tracking_ok B F evolve update auto_dt copy rnd raises half_b half_f copies
    num_threads light fuel c bs0 fs0 g) as V. rewrite H in V. cbn [fst verdict] in V.
  destruct V as [[_ [V2 [V3 _]]] V]. auto.
Qed.
Print Assumptions C95_first_exception.

(** When no operation raises, tracking ends as in the model of C01-C10. *)
Theorem C95_undisturbed :
  forall B F evolve update auto_dt copy rnd raises half_b half_f copies num_threads light fuel c
         (bs0 : list B) (fs0 : F) g,
  nothing_raises raises (log (end_of (do_tracking B F evolve update auto_dt copy rnd fuel c bs0 fs0))) ->
  same_ending (fst (try_tracking B F evolve update auto_dt copy rnd raises half_b half_f copies
                      num_threads light fuel c bs0 fs0 g))
    (do_tracking B F evolve update auto_dt copy rnd fuel c bs0 fs0).
Proof.
  intros B F evolve update auto_dt copy rnd raises half_b half_f copies nt light fuel c bs0 fs0 g N.
  pose proof (tracking_ok B F evolve update auto_dt copy rnd raises half_b half_f copies
    nt light fuel c bs0 fs0 g) as V.
  destruct (fst (try_tracking _ _ _ _ _ _ _ _ _ _ _ nt light fuel c bs0 fs0 g)) as [s|e s|s];
    cbn [verdict] in V; [apply V|apply V|].
  destruct V as [[[[r E] _] [V2 [_ [_ V5]]]] _]. exfalso.
  destruct r as [|e r]; [rewrite app_nil_r in E; congruence|].
  rewrite (N _ _ _ E) in V2. discriminate.
Qed.
Print Assumptions C95_undisturbed.

(** Tracking that completes gives the number of threads back and moves the openPMD output to the end of the
    element; an exception (also that of C10 for zero outputs) leaves Wake-T's number of threads, and the
    output where it was. *)
Theorem C95_session :
  forall B F evolve update auto_dt copy rnd raises half_b half_f copies num_threads light fuel c
         (bs0 : list B) (fs0 : F) g e g',
  try_tracking B F evolve update auto_dt copy rnd raises half_b half_f copies num_threads light fuel c bs0 fs0 g
    = (e, g') ->
  match e with
  | Completed _ => threads g' = threads g /\ z_pos g' = (z_pos g + c_tfinal c * light)%Q
  | Interrupted _ => threads g' = num_threads /\ z_pos g' = z_pos g
  | Raised _ _ => bs0 <> [] -> threads g' = num_threads /\ z_pos g' = z_pos g
  end.
Proof. intros; eapply session_ok; eauto. Qed.
Print Assumptions C95_session.

(** ** Cases *)
(** A bunch is a counter of pushes, a field a counter of updates. *)
Definition cfg : config := {| c_tfinal := 2; c_dtb := [Some 1]; c_fields := [(1, false)]; c_ndiags := 2; c_push_before := true |}.
Definition run_case (raises : list (event nat) -> bool) :=
  try_tracking nat nat (fun _ b _ _ => S b) (fun _ f _ => S f) (fun _ => 1%Q) (fun b => b) (fun q => q)
    raises (fun _ b => (b + 100)%nat) (fun _ f => (f + 100)%nat) (fun _ => 1%nat) 1 3 20 cfg [0%nat] 0%nat (mks 8 0).
(** The push that follows the output at half way raises: two outputs are there, the bunch is spoilt. *)
Example C95_case :
  match run_case (fun l => Nat.eqb (length l) 6) with
  | (Interrupted s, g) => bs s = [102]%nat /\ fs s = 2%nat /\ out s = [[0; 2]]%nat /\ g = mks 1 0
  | _ => False
  end.
Proof. vm_compute. auto. Qed.
Example C95_case_completes :
  match run_case (fun _ => false) with
  | (Completed s, g) => threads g = 8%nat /\ length (concat (out s)) = 3%nat
  | _ => False
  end.
Proof. vm_compute. auto. Qed.

(** The number of threads of the session survives tracking: refuted, an exception leaves Wake-T's. *)
Theorem C95_threads_restored_refuted :
  ~ (forall B F evolve update auto_dt copy rnd raises half_b half_f copies num_threads light fuel c
            (bs0 : list B) (fs0 : F) g,
     threads (snd (try_tracking B F evolve update auto_dt copy rnd raises half_b half_f copies
                     num_threads light fuel c bs0 fs0 g)) = threads g).
Proof.
  intros H. specialize (H nat nat (fun _ b _ _ => S b) (fun _ f _ => S f) (fun _ => 1%Q) (fun b => b) (fun q => q)
    (fun _ => true) (fun _ b => b) (fun _ f => f) (fun _ => 0%nat) 1%nat 3%Q 20%nat cfg [0%nat] 0%nat (mks 8 0)).
  vm_compute in H. discriminate.
Qed.
Print Assumptions C95_threads_restored_refuted.
