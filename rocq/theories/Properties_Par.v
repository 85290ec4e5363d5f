(** C94: the result of a push does not depend on the number of threads nor on how they are scheduled. *)
From Coq Require Import Reals List Arith Lia Lra Permutation FunctionalExtensionality.
From Verif Require Import Model_Push Model_Interp Model_Par Spec_Par Proofs_Par Proofs_Par2 Proofs_Par3.
Import ListNotations.
Open Scope R_scope.

(** A loop whose iterations own their entries: whatever the distribution over the threads and the
    interleaving, it ends with the arrays of the sequential loop. *)
Theorem C94_any_schedule : forall (body : loop_body) n chunks k pool m m',
  (forall i, (i < n)%nat -> own i (body i)) -> distribution n chunks ->
  steps body k (start chunks, m) (pool, m') -> all_finished pool ->
  m' = one_thread body n m.
Proof. intros; eapply deterministic; eauto. Qed.
Print Assumptions C94_any_schedule.

(** Such a loop terminates: the number of steps is bounded, and some thread can take a step until all
    have finished. *)
Theorem C94_terminates : forall (body : loop_body) n m,
  (forall i, (i < n)%nat -> own i (body i)) ->
  (exists K, forall chunks k c, distribution n chunks -> steps body k (start chunks, m) c -> (k <= K)%nat) /\
  (forall pool m1, ~ all_finished pool -> exists c, step body (pool, m1) c).
Proof.
  intros body n m H. split.
  - exists (total body n m). intros. eapply bounded; eauto.
  - apply progress.
Qed.
Print Assumptions C94_terminates.

(** The loops of the pushers and of the gathering own their entries. *)
Theorem C94_loops_own : forall q_species m_species fields t dt fld g q out i,
  (forall body, In body (boris_loops q_species m_species fields t dt) -> own i (body i)) /\
  (forall body, In body (rk4_loops q_species m_species fields t dt) -> own i (body i)) /\
  own i (gather_field_loop fld g q out i).
Proof.
  intros. split; [|split].
  - intros body H. pose proof (own_boris q_species m_species fields t dt) as F. rewrite Forall_forall in F. apply F; auto.
  - intros body H. pose proof (own_rk4 q_species m_species fields t dt) as F. rewrite Forall_forall in F. apply F; auto.
  - apply own_gather_field.
Qed.
Print Assumptions C94_loops_own.

(** The Boris pusher on any number of threads: every execution leaves the bunch and the field arrays that
    the sequential pusher (the model of C19-C22) computes. *)
Theorem C94_boris : forall n q_species m_species fields t dt m m',
  executes n (boris_loops q_species m_species fields t dt) m m' ->
  (particles Bunch m' n, fields_felt m' n) =
  apply_boris_pusher q_species m_species (map as_field fields) t dt (particles Bunch m n) (fields_felt m n).
Proof.
  intros. rewrite (executes_after _ _ _ _ (own_boris _ _ _ _ _) H). apply boris_after.
Qed.
Print Assumptions C94_boris.
(** The same for the Runge-Kutta pusher. *)
Theorem C94_rk4 : forall n q_species m_species fields t dt m m',
  executes n (rk4_loops q_species m_species fields t dt) m m' ->
  (particles Bunch m' n, work_arrays m' n) =
  apply_rk4_pusher q_species m_species (map as_field fields) t dt (particles Bunch m n) (work_arrays m n).
Proof.
  intros. rewrite (executes_after _ _ _ _ (own_rk4 _ _ _ _ _) H). apply rk4_after.
Qed.
Print Assumptions C94_rk4.
(** Both can be executed to the end, and two executions end alike. *)
Theorem C94_executions : forall n q_species m_species fields t dt m loops,
  loops = boris_loops q_species m_species fields t dt \/ loops = rk4_loops q_species m_species fields t dt ->
  (exists m', executes n loops m m') /\
  (forall m1 m2, executes n loops m m1 -> executes n loops m m2 -> m1 = m2).
Proof.
  intros n q ms fields t dt m loops H.
  assert (F : Forall owned loops) by (destruct H as [-> | ->]; [apply own_boris|apply own_rk4]).
  split; [eexists; apply executes_exists; auto|].
  intros m1 m2 E1 E2. rewrite (executes_after _ _ _ _ F E1), (executes_after _ _ _ _ F E2). reflexivity.
Qed.
Print Assumptions C94_executions.
(** Entries beyond the particles stay as they are. *)
Theorem C94_beyond : forall n q_species m_species fields t dt m m' loops,
  loops = boris_loops q_species m_species fields t dt \/ loops = rk4_loops q_species m_species fields t dt ->
  executes n loops m m' -> forall a j, (n <= j)%nat -> m' a j = m a j.
Proof.
  intros n q ms fields t dt m m' loops H E a j Hj.
  assert (F : Forall owned loops) by (destruct H as [-> | ->]; [apply own_boris|apply own_rk4]).
  rewrite (executes_after _ _ _ _ F E). apply after_beyond; auto.
Qed.
Print Assumptions C94_beyond.

(** Fields on a grid: gathering on several threads is the gathering of C26 where that succeeds. *)
Theorem C94_grid : forall er ez_ bt g n t m m' l,
  executes n (gather_loops Bunch t (Grid er ez_ bt g)) m m' ->
  gather_main_fields_cyl_linear er ez_ bt g (map pos_of (particles Bunch m n)) (fields_felt m n) = Ok l ->
  fields_felt m' n = l.
Proof.
  intros er ez_ bt g n t m m' l E H.
  assert (F : Forall owned (gather_loops Bunch t (Grid er ez_ bt g))).
  { constructor; [apply own_gather_main|constructor]. }
  rewrite (executes_after _ _ _ _ F E), <- (grid_ok _ _ _ _ _ t _ _ H), as_field_map2.
  rewrite fields_after by exact F. rewrite particles_at, fields_at, map_map, map2_map.
  apply map_ext. intros j.
  destruct (gather_source_c Bunch t (Grid er ez_ bt g) j (at_ m j) apart_bunch) as [X _]. exact X.
Qed.
Print Assumptions C94_grid.
Theorem C94_gather_field : forall fld g q out n m m' l,
  (forall a, q a <> out) -> (forall i, (i < n)%nat -> m out i = 0) ->
  executes n [gather_field_loop fld g q out] m m' ->
  gather_field_cyl_linear fld g (map pos_of (particles q m n)) = Ok l ->
  map (m' out) (seq 0 n) = l.
Proof.
  intros fld g q out n m m' l Q Z E H.
  assert (F : Forall owned [gather_field_loop fld g q out]) by (constructor; [apply own_gather_field|constructor]).
  rewrite (executes_after _ _ _ _ F E). unfold particles in H. rewrite map_map in H.
  exact (gather_field_after fld g q out n m l Q Z H).
Qed.
Print Assumptions C94_gather_field.

(** Why the deposition on the grid must run on one thread: when iterations add to a common cell, two
    threads can lose a contribution. *)
Theorem C94_shared_cell : forall a v m, v 0%nat <> 0 -> exists chunks k pool m',
  distribution 2 chunks /\ steps (accumulate a v) k (start chunks, m) (pool, m') /\ all_finished pool /\
  m' a 0%nat = m a 0%nat + v 1%nat /\ m' a 0%nat <> one_thread (accumulate a v) 2 m a 0%nat.
Proof.
  intros a v m V. destruct (lost_update a v m V) as [k [pool [m' H]]].
  exists [[0]; [1]]%nat, k, pool, m'. split; [unfold distribution; simpl; reflexivity|exact H].
Qed.
Print Assumptions C94_shared_cell.

(** ** Cases that meet the hypotheses *)
(** Three iterations over two threads, the second thread first and the last iteration on the first. *)
Example C94_two_threads : distribution 3 [[2; 0]; [1]]%nat.
Proof. unfold distribution. simpl. apply (perm_trans (l' := [0; 2; 1]%nat)); [apply perm_swap|apply perm_skip, perm_swap]. Qed.
Example C94_interleaved : exists k pool m', steps (initialize_push (Push AX) (Kay AX) 2) k
  (start [[1]; [0]]%nat, fun _ i => INR i + 1) (pool, m') /\ all_finished pool /\
  m' (Push AX) 0%nat = 2 /\ m' (Push AX) 1%nat = 4 /\ m' (Kay AX) 1%nat = 2.
Proof.
  set (b := initialize_push (Push AX) (Kay AX) 2).
  eexists _, _, _. split; [|split; [|split; [|split]]].
  - eapply ss_more; [apply (s_next b [])|]. cbn [app].
    eapply ss_more; [apply (s_next b [_])|]. cbn [app].
    eapply ss_more; [apply (s_read b [])|]. cbn [app].
    eapply ss_more; [apply (s_read b [_])|]. cbn [app].
    eapply ss_more; [apply (s_write b [_])|]. cbn [app].
    eapply ss_more; [apply (s_write b [])|]. cbn [app].
    constructor.
  - repeat constructor.
  - unfold store. simpl. lra.
  - unfold store. simpl. lra.
  - unfold store. simpl. lra.
Qed.
Example C94_push_executes : exists m', executes 2
  (boris_loops (-1) 1 [Analytical (mkcomp no_field no_field (fun _ _ v => v + 1) no_field no_field no_field)] 0 1)
  (fun _ _ => 0) m' /\ m' (Field EZ) 1%nat = 1.
Proof.
  destruct (C94_executions 2 (-1) 1
    [Analytical (mkcomp no_field no_field (fun _ _ v => v + 1) no_field no_field no_field)] 0 1
    (fun _ _ => 0) _ (or_introl eq_refl)) as [[m' E] _].
  exists m'. split; [exact E|]. apply C94_boris in E. injection E as _ _ _ _ _ _ _ _ _ _ _ _ _ _ H.
  cbv [gather_fields] in *. lra.
Qed.
