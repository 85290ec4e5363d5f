(** Proofs for C94: both pushers, on any number of threads. *)
From Coq Require Import Reals List Arith Lia Permutation Bool FunctionalExtensionality Lra.
From Verif Require Import Model_Push Model_Interp Model_Par Spec_Par Proofs_Par Proofs_Par2.
Import ListNotations.
Open Scope R_scope.

Definition at_ (m : mem) (j : nat) : column := fun a => m a j.
Lemma particles_after : forall f n loops m, Forall owned loops ->
  particles f (after n loops m) n = map (fun j => cpart f (afterc loops j (at_ m j))) (seq 0 n).
Proof.
  intros. unfold particles. apply map_ext_in. intros j Hj. apply in_seq in Hj.
  unfold part_at, cpart. rewrite !(after_column n loops j H ltac:(lia) m (at_ m j)) by reflexivity. reflexivity.
Qed.
Lemma fields_after : forall n loops m, Forall owned loops ->
  fields_felt (after n loops m) n = map (fun j => cem (afterc loops j (at_ m j))) (seq 0 n).
Proof.
  intros. unfold fields_felt. apply map_ext_in. intros j Hj. apply in_seq in Hj.
  unfold em_at, cem. rewrite !(after_column n loops j H ltac:(lia) m (at_ m j)) by reflexivity. reflexivity.
Qed.
Lemma particles_at : forall f n m, particles f m n = map (fun j => cpart f (at_ m j)) (seq 0 n).
Proof. reflexivity. Qed.
Lemma fields_at : forall n m, fields_felt m n = map (fun j => cem (at_ m j)) (seq 0 n).
Proof. reflexivity. Qed.

(** ** Boris *)
Lemma half_c : forall dt j s, let s' := runc (apply_half_position_push dt j) s in
  cpart Bunch s' = half_position_push1 dt (cpart Bunch s) /\ cem s' = cem s /\
  cpart Temp s' = cpart Temp s /\ cpart Push s' = cpart Push s /\ cpart Kay s' = cpart Kay s.
Proof. intros; repeat split. Qed.
Lemma momentum_c : forall dt q j s, let s' := runc (push_momentum dt q j) s in
  cpart Bunch s' = push_momentum1 dt q (cpart Bunch s) (cem s) /\ cem s' = cem s /\
  cpart Temp s' = cpart Temp s /\ cpart Push s' = cpart Push s /\ cpart Kay s' = cpart Kay s.
Proof. intros; repeat split. Qed.
Lemma loc_part : forall q s, loc q s = pos_of (cpart q s).
Proof. reflexivity. Qed.

Lemma boris_c : forall q m fields t dt j s,
  let s' := afterc (boris_loops q m fields t dt) j s in
  let p1 := half_position_push1 dt (cpart Bunch s) in
  let f := gather1 fields (t + dt / 2) (pos_of p1) in
  cpart Bunch s' = half_position_push1 dt (push_momentum1 dt (q / (m * c_SI)) p1 f) /\ cem s' = f.
Proof.
  intros q m fields t dt j s. cbv zeta. unfold boris_loops. rewrite !afterc_app.
  change (afterc [apply_half_position_push dt] j s) with (runc (apply_half_position_push dt j) s).
  destruct (half_c dt j s) as [H1 _]. set (s1 := runc (apply_half_position_push dt j) s) in *.
  destruct (gather_all_c Bunch (t + dt / 2) fields j s1 apart_bunch) as [G1 G2]. cbv zeta in G1, G2.
  set (s2 := afterc (gather_all Bunch (t + dt / 2) fields) j s1) in *.
  unfold rest in G2. injection G2 as Gx Gy Gxi Gpx Gpy Gpz _ _ _ _ _ _ _ _ _ _ _ _ _ _ _ _ _ _.
  assert (B2 : cpart Bunch s2 = cpart Bunch s1) by (unfold cpart; congruence).
  unfold afterc. cbn [fold_left].
  destruct (momentum_c dt (q / (m * c_SI)) j s2) as [M1 [M2 _]]. cbv zeta in M1, M2.
  set (s3 := runc (push_momentum dt (q / (m * c_SI)) j) s2) in *.
  destruct (half_c dt j s3) as [H3 [H4 _]]. cbv zeta in H3, H4, H1.
  split.
  - rewrite H3, M1, B2, H1, G1, loc_part, H1. reflexivity.
  - rewrite H4, M2, G1, loc_part, H1. reflexivity.
Qed.

Theorem boris_after : forall n q m fields t dt mem0,
  let mem1 := after n (boris_loops q m fields t dt) mem0 in
  (particles Bunch mem1 n, fields_felt mem1 n) =
  apply_boris_pusher q m (map as_field fields) t dt (particles Bunch mem0 n) (fields_felt mem0 n).
Proof.
  intros. unfold mem1. rewrite particles_after, fields_after by apply own_boris.
  rewrite particles_at, fields_at. unfold apply_boris_pusher, half_position_push, Model_Push.push_momentum.
  rewrite !map_map, gather_fields_map, map2_map, map_map.
  f_equal; apply map_ext; intros j; destruct (boris_c q m fields t dt j (at_ mem0 j)) as [A B]; auto.
Qed.

(** ** Runge-Kutta *)
Definition work := (part * part * part * em)%type.
Definition w_coord (a : work) : part := fst (fst (fst a)).
Definition w_push (a : work) : part := snd (fst (fst a)).
Definition w_k (a : work) : part := snd (fst a).
Definition w_fld (a : work) : em := snd a.
Definition stage1 (q_over_mc : R) (fields : list source) (t dt : R) (p : part) (a : work) (i : nat) : work :=
  let '(fac1, fac2, t_i) :=
    match i with
    | 0%nat => (1, 1 / 6, t)
    | 3%nat => (1, 1 / 6, t + dt)
    | _ => (0.5, 2 / 6, t + dt / 2)
    end in
  match i with
  | 0%nat =>
      let f := gather1 fields t_i (pos_of p) in
      let k := calculate_k1 q_over_mc p f in
      (w_coord a, lift1 (fun kx => kx * fac2) k, k, f)
  | _ =>
      let co := lift2 (fun x0 kx => x0 + dt * kx * fac1) p (w_k a) in
      let f := gather1 fields t_i (pos_of co) in
      let k := calculate_k1 q_over_mc co f in
      (co, lift2 (fun dx kx => dx + kx * fac2) (w_push a) k, k, f)
  end.
Definition spread {A} (l : list A) (w : A -> work) : rk_arrays :=
  mkrk (map (fun i => w_coord (w i)) l) (map (fun i => w_push (w i)) l) (map (fun i => w_k (w i)) l)
       (map (fun i => w_fld (w i)) l).
Lemma stage_map : forall A (l : list A) (pp : A -> part) (w : A -> work) q fields t dt i,
  rk4_stage q (map as_field fields) t dt (map pp l) (spread l w) i =
  spread l (fun j => stage1 q fields t dt (pp j) (w j) i).
Proof.
  intros. unfold rk4_stage, stage1, spread. cbn [r_coord r_push r_k Model_Push.r_fld].
  destruct i as [|[|[|[|i]]]]; cbv beta iota zeta; cbn [w_coord w_push w_k w_fld fst snd];
    unfold Model_Push.initialize_push, Model_Push.update_push, Model_Push.update_coord.
  all: repeat first [rewrite gather_fields_map | rewrite map2_map | rewrite map_map].
  all: unfold w_coord, w_push, w_k, w_fld; cbn [fst snd].
  all: repeat first [rewrite gather_fields_map | rewrite map2_map | rewrite map_map]; reflexivity.
Qed.
Definition work_of (s : column) : work := (cpart Temp s, cpart Push s, cpart Kay s, cem s).

Lemma calculate_k_c : forall q p j s, (p = Bunch \/ p = Temp) ->
  let s' := runc (calculate_k q p j) s in
  cpart Kay s' = calculate_k1 q (cpart p s) (cem s) /\ cem s' = cem s /\ cpart Bunch s' = cpart Bunch s /\
  cpart Temp s' = cpart Temp s /\ cpart Push s' = cpart Push s.
Proof. intros q p j s [-> | ->]; repeat split. Qed.
Lemma initialize_c : forall fac j s,
  let s' := afterc (map (fun a => initialize_push (Push a) (Kay a) fac) axes6) j s in
  cpart Push s' = lift1 (fun k => k * fac) (cpart Kay s) /\ cem s' = cem s /\ cpart Bunch s' = cpart Bunch s /\
  cpart Temp s' = cpart Temp s /\ cpart Kay s' = cpart Kay s.
Proof. intros; repeat split. Qed.
Lemma update_push_c : forall fac j s,
  let s' := afterc (map (fun a => update_push (Push a) (Kay a) fac) axes6) j s in
  cpart Push s' = lift2 (fun d k => d + k * fac) (cpart Push s) (cpart Kay s) /\ cem s' = cem s /\
  cpart Bunch s' = cpart Bunch s /\ cpart Temp s' = cpart Temp s /\ cpart Kay s' = cpart Kay s.
Proof. intros; repeat split. Qed.
Lemma update_coord_c : forall dt fac j s,
  let s' := afterc (map (fun a => update_coord (Temp a) (Bunch a) dt (Kay a) fac) axes6) j s in
  cpart Temp s' = lift2 (fun x0 k => x0 + dt * k * fac) (cpart Bunch s) (cpart Kay s) /\ cem s' = cem s /\
  cpart Bunch s' = cpart Bunch s /\ cpart Push s' = cpart Push s /\ cpart Kay s' = cpart Kay s.
Proof. intros; repeat split. Qed.
Lemma apply_push_c : forall dt j s,
  let s' := afterc (map (fun a => apply_push (Bunch a) dt (Push a)) axes6) j s in
  cpart Bunch s' = lift2 (fun x d => x + dt * d) (cpart Bunch s) (cpart Push s) /\ work_of s' = work_of s.
Proof. intros; repeat split. Qed.
Lemma rest_split : forall s s', rest s' = rest s ->
  cpart Bunch s' = cpart Bunch s /\ cpart Temp s' = cpart Temp s /\ cpart Push s' = cpart Push s /\ cpart Kay s' = cpart Kay s.
Proof.
  intros s s' E. unfold rest in E.
  pose proof (f_equal (fun p => fst (fst (fst p))) E). pose proof (f_equal (fun p => snd (fst (fst p))) E).
  pose proof (f_equal (fun p => snd (fst p)) E). pose proof (f_equal snd E). auto.
Qed.

Lemma later_c : forall q fields t_i dt fac1 fac2 j s,
  let s' := afterc (map (fun a => update_coord (Temp a) (Bunch a) dt (Kay a) fac1) axes6 ++
         gather_all Temp t_i fields ++ [calculate_k q Temp] ++
         map (fun a => update_push (Push a) (Kay a) fac2) axes6) j s in
  let co := lift2 (fun x0 kx => x0 + dt * kx * fac1) (cpart Bunch s) (cpart Kay s) in
  let f := gather1 fields t_i (pos_of co) in
  let k := calculate_k1 q co f in
  cpart Bunch s' = cpart Bunch s /\ work_of s' = (co, lift2 (fun dx kx => dx + kx * fac2) (cpart Push s) k, k, f).
Proof.
  intros q fields t_i dt fac1 fac2 j s. cbv zeta. rewrite !afterc_app.
  destruct (update_coord_c dt fac1 j s) as [T1 [F1 [B1 [P1 K1]]]].
  set (s1 := afterc (map (fun a => update_coord (Temp a) (Bunch a) dt (Kay a) fac1) axes6) j s) in *.
  destruct (gather_all_c Temp t_i fields j s1 apart_temp) as [F2 R2]. cbv zeta in F2, R2.
  set (s2 := afterc (gather_all Temp t_i fields) j s1) in *.
  destruct (rest_split _ _ R2) as [B2 [T2 [P2 K2]]].
  change (afterc [calculate_k q Temp] j s2) with (runc (calculate_k q Temp j) s2).
  destruct (calculate_k_c q Temp j s2 (or_intror eq_refl)) as [K3 [F3 [B3 [T3 P3]]]].
  set (s3 := runc (calculate_k q Temp j) s2) in *.
  destruct (update_push_c fac2 j s3) as [P4 [F4 [B4 [T4 K4]]]].
  set (s4 := afterc (map (fun a => update_push (Push a) (Kay a) fac2) axes6) j s3) in *.
  cbv zeta in *. rewrite loc_part in F2. rewrite T1 in F2.
  split; [congruence|]. unfold work_of.
  rewrite P4, F4, T4, K4, T3, F3, F2, T2, T1, K3, P3, P2, P1, T2, T1, F2. reflexivity.
Qed.
Lemma stage_c : forall q fields t dt j i s,
  let s' := afterc (rk4_stage_loops q fields t dt i) j s in
  cpart Bunch s' = cpart Bunch s /\ work_of s' = stage1 q fields t dt (cpart Bunch s) (work_of s) i.
Proof.
  intros q fields t dt j i s. cbv zeta. unfold rk4_stage_loops, stage1.
  destruct i as [|[|[|[|i]]]]; cbv beta iota zeta; try apply later_c.
  rewrite !afterc_app.
  destruct (gather_all_c Bunch t fields j s apart_bunch) as [F2 R2]. cbv zeta in F2, R2.
  set (s2 := afterc (gather_all Bunch t fields) j s) in *.
  destruct (rest_split _ _ R2) as [B2 [T2 [P2 K2]]].
  change (afterc [calculate_k q Bunch] j s2) with (runc (calculate_k q Bunch j) s2).
  destruct (calculate_k_c q Bunch j s2 (or_introl eq_refl)) as [K3 [F3 [B3 [T3 P3]]]].
  set (s3 := runc (calculate_k q Bunch j) s2) in *.
  destruct (initialize_c (1 / 6) j s3) as [P4 [F4 [B4 [T4 K4]]]].
  set (s4 := afterc (map (fun a => initialize_push (Push a) (Kay a) (1 / 6)) axes6) j s3) in *.
  cbv zeta in *. rewrite loc_part in F2.
  split; [congruence|]. unfold work_of. cbn [w_coord fst].
  rewrite P4, F4, T4, K4, T3, F3, F2, T2, K3, B2, F2. reflexivity.
Qed.
Lemma stages_c : forall q fields t dt j is s,
  let s' := afterc (flat_map (rk4_stage_loops q fields t dt) is) j s in
  cpart Bunch s' = cpart Bunch s /\
  work_of s' = fold_left (stage1 q fields t dt (cpart Bunch s)) is (work_of s).
Proof.
  intros q fields t dt j is; induction is as [|i is IH]; intros s; [split; reflexivity|].
  cbv zeta. cbn [flat_map fold_left]. rewrite afterc_app.
  destruct (stage_c q fields t dt j i s) as [B W]. cbv zeta in B, W.
  destruct (IH (afterc (rk4_stage_loops q fields t dt i) j s)) as [B' W']. cbv zeta in B', W'.
  rewrite B', W', B, W. auto.
Qed.
Lemma stages_map : forall A (l : list A) (pp : A -> part) q fields t dt is (w : A -> work),
  fold_left (rk4_stage q (map as_field fields) t dt (map pp l)) is (spread l w) =
  spread l (fun j => fold_left (stage1 q fields t dt (pp j)) is (w j)).
Proof.
  intros A l pp q fields t dt is; induction is as [|i is IH]; intros w; [reflexivity|].
  cbn [fold_left]. rewrite stage_map. apply (IH (fun j => stage1 q fields t dt (pp j) (w j) i)).
Qed.
Theorem rk4_after : forall n q m fields t dt mem0,
  let mem1 := after n (rk4_loops q m fields t dt) mem0 in
  (particles Bunch mem1 n, work_arrays mem1 n) =
  apply_rk4_pusher q m (map as_field fields) t dt (particles Bunch mem0 n) (work_arrays mem0 n).
Proof.
  intros. unfold mem1, apply_rk4_pusher.
  assert (W0 : work_arrays mem0 n = spread (seq 0 n) (fun j => work_of (at_ mem0 j))) by reflexivity.
  rewrite W0, (particles_at Bunch n mem0), stages_map.
  assert (C : forall j, let s' := afterc (rk4_loops q m fields t dt) j (at_ mem0 j) in
    let w := fold_left (stage1 (q / (m * c_SI)) fields t dt (cpart Bunch (at_ mem0 j))) [0; 1; 2; 3]%nat (work_of (at_ mem0 j)) in
    cpart Bunch s' = lift2 (fun x d => x + dt * d) (cpart Bunch (at_ mem0 j)) (w_push w) /\ work_of s' = w).
  { intros j. cbv zeta. unfold rk4_loops. rewrite afterc_app.
    destruct (stages_c (q / (m * c_SI)) fields t dt j [0; 1; 2; 3]%nat (at_ mem0 j)) as [B W]. cbv zeta in B, W.
    set (s1 := afterc (flat_map (rk4_stage_loops (q / (m * c_SI)) fields t dt) [0; 1; 2; 3]%nat) j (at_ mem0 j)) in *.
    destruct (apply_push_c dt j s1) as [B' W']. cbv zeta in B', W'.
    split; [rewrite B', B, <- W; reflexivity|rewrite W', W; reflexivity]. }
  f_equal.
  - rewrite particles_after by apply own_rk4. unfold Model_Push.apply_push, spread. cbn [r_push].
    rewrite map2_map. apply map_ext. intros j. apply (C j).
  - unfold work_arrays. rewrite !particles_after, fields_after by apply own_rk4. unfold spread.
    f_equal; apply map_ext; intros j; destruct (C j) as [_ W]; cbv zeta in W; rewrite <- W; reflexivity.
Qed.

(** ** Single loops on the grid *)
Lemma traverse_map2 : forall A B (f : A -> B -> result B) ps b l,
  traverse (fun pf => f (fst pf) (snd pf)) (combine ps b) = Ok l ->
  map2 (fun p v => match f p v with Ok w => w | Fault _ => v end) ps b = l.
Proof.
  intros A B f ps; induction ps as [|p ps IH]; intros [|v b] l H; simpl in *; try congruence.
  destruct (f p v) as [w|]; simpl in H; [|discriminate].
  destruct (traverse _ (combine ps b)) as [ws|] eqn:E; simpl in H; [|discriminate].
  injection H as <-. rewrite (IH b ws E). reflexivity.
Qed.
Theorem grid_ok : forall er ez_ bt g ps t b l,
  gather_main_fields_cyl_linear er ez_ bt g ps b = Ok l -> as_field (Grid er ez_ bt g) ps t b = l.
Proof. intros. apply traverse_map2. exact H. Qed.
Theorem gather_field_after : forall fld g q out n m l,
  (forall a, q a <> out) -> (forall i, (i < n)%nat -> m out i = 0) ->
  gather_field_cyl_linear fld g (map (fun i => pos_of (part_at q m i)) (seq 0 n)) = Ok l ->
  map (one_thread (gather_field_loop fld g q out) n m out) (seq 0 n) = l.
Proof.
  intros fld g q out n m l Q Z.
  assert (E : forall i, (i < n)%nat -> forall v, gather_field1 fld g (pos_of (part_at q m i)) = Ok v ->
    one_thread (gather_field_loop fld g q out) n m out i = v).
  { intros i Hi v. rewrite one_thread_at by (intros; apply own_gather_field).
    destruct (lt_dec i n); [|lia]. unfold gather_field_loop, gather_field1, pos_of, part_at. cbn [x y xi run].
    cbv zeta. destruct (within g _ _).
    - destruct (interpolate4 _ _ _) as [w|]; [|discriminate]. intros H; injection H as <-. simpl run.
      rewrite store_same. destruct (name_eq out out); congruence.
    - intros H; injection H as <-. apply Z; auto. }
  unfold gather_field_cyl_linear.
  assert (L : forall i, In i (seq 0 n) -> (i < n)%nat) by (intros i Hi; apply in_seq in Hi; lia).
  revert l L. generalize (seq 0 n) as is. intros is; induction is as [|i is IH]; intros l L H; cbn [map traverse] in H.
  - injection H as <-. reflexivity.
  - destruct (gather_field1 fld g (pos_of (part_at q m i))) as [v|] eqn:V; cbn [bind] in H; [|discriminate].
    destruct (traverse _ _) as [vs|] eqn:W; cbn [bind] in H; [|discriminate]. injection H as <-.
    simpl. rewrite (E i (L i (or_introl eq_refl)) v V), (IH vs); auto. intros; apply L; right; auto.
Qed.

(** ** A shared cell *)
Theorem lost_update : forall a v m, v 0%nat <> 0 -> exists k pool m',
  steps (accumulate a v) k (start [[0]; [1]]%nat, m) (pool, m') /\ all_finished pool /\
  m' a 0%nat = m a 0%nat + v 1%nat /\ m' a 0%nat <> one_thread (accumulate a v) 2 m a 0%nat.
Proof.
  intros a v m V.
  set (w0 := m a 0%nat + v 0%nat). set (w1 := m a 0%nat + v 1%nat).
  exists 6%nat, [(Done, []); (Done, [])], (store (store m a 0 w0) a 0 w1).
  assert (X : store (store m a 0 w0) a 0 w1 a 0%nat = w1).
  { rewrite store_same. destruct (name_eq a a); congruence. }
  split; [|split; [|split]].
  - eapply ss_more; [apply (s_next (accumulate a v) [])|]. cbn [app].
    eapply ss_more; [apply (s_next (accumulate a v) [_])|]. cbn [app].
    eapply ss_more; [apply (s_read (accumulate a v) [])|]. cbn [app].
    eapply ss_more; [apply (s_read (accumulate a v) [_])|]. cbn [app].
    eapply ss_more; [apply (s_write (accumulate a v) [])|]. cbn [app].
    eapply ss_more; [apply (s_write (accumulate a v) [_])|]. cbn [app].
    constructor.
  - repeat constructor.
  - exact X.
  - rewrite X. unfold one_thread, accumulate, add. cbn [seq fold_left run]. rewrite !store_same.
    destruct (name_eq a a); [|congruence]. unfold w1. lra.
Qed.
