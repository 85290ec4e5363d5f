(** Proofs for C94: the loops of the pushers. *)
From Coq Require Import Reals List Arith Lia Permutation Bool FunctionalExtensionality.
From Verif Require Import Model_Push Model_Interp Model_Par Spec_Par Proofs_Par.
Import ListNotations.
Open Scope R_scope.

(** ** Every loop owns its entries *)
Definition owned (body : loop_body) : Prop := forall i, own i (body i).
Ltac own := repeat first
  [ apply own_done | apply own_read; intros ?; cbv zeta | apply own_write | progress cbv zeta
  | match goal with |- own _ (if ?b then _ else _) => destruct b end
  | match goal with |- own _ (match ?b with Ok _ => _ | Fault _ => _ end) => destruct b end ].
Lemma own_update_coord : forall x x0 dt k fac, owned (update_coord x x0 dt k fac).
Proof. intros; intros i; unfold update_coord; own. Qed.
Lemma own_initialize_push : forall d k fac, owned (initialize_push d k fac).
Proof. intros; intros i; unfold initialize_push; own. Qed.
Lemma own_update_push : forall d k fac, owned (update_push d k fac).
Proof. intros; intros i; unfold update_push; own. Qed.
Lemma own_apply_push : forall x dt d, owned (apply_push x dt d).
Proof. intros; intros i; unfold apply_push; own. Qed.
Lemma own_calculate_k : forall q p, owned (calculate_k q p).
Proof. intros; intros i; unfold calculate_k; own. Qed.
Lemma own_half : forall dt, owned (apply_half_position_push dt).
Proof. intros; intros i; unfold apply_half_position_push, add; own. Qed.
Lemma own_momentum : forall dt q, owned (push_momentum dt q).
Proof. intros; intros i; unfold push_momentum; own. Qed.
Lemma own_reset : owned reset_particle_fields.
Proof. intros i; unfold reset_particle_fields; own. Qed.
Lemma own_component : forall f t q c, owned (component_loop f t q c).
Proof. intros; intros i; unfold component_loop; own. Qed.
Lemma own_gather_field : forall fld g q out, owned (gather_field_loop fld g q out).
Proof. intros; intros i; unfold gather_field_loop; own. Qed.
Lemma own_gather_main : forall er ez_ bt g q, owned (gather_main_loop er ez_ bt g q).
Proof. intros; intros i; unfold gather_main_loop, add; own. Qed.
Lemma own_gather_all : forall q t fields, Forall owned (gather_all q t fields).
Proof.
  intros. constructor; [apply own_reset|]. apply Forall_flat_map, Forall_forall. intros s _.
  destruct s; simpl; repeat (apply Forall_cons || apply Forall_nil || apply own_component || apply own_gather_main).
Qed.
Lemma Forall_all : forall A (P : A -> Prop) B (f : B -> A) l, (forall b, P (f b)) -> Forall P (map f l).
Proof. intros. apply Forall_forall. intros a Ha. apply in_map_iff in Ha. destruct Ha as [b [<- _]]; auto. Qed.
Lemma own_boris : forall q m fields t dt, Forall owned (boris_loops q m fields t dt).
Proof.
  intros. unfold boris_loops. apply Forall_app; split; [constructor; [apply own_half|constructor]|].
  apply Forall_app; split; [apply own_gather_all|].
  constructor; [apply own_momentum|]. constructor; [apply own_half|constructor].
Qed.
Lemma own_stage : forall q fields t dt i, Forall owned (rk4_stage_loops q fields t dt i).
Proof.
  intros. unfold rk4_stage_loops. destruct i as [|[|[|[|i]]]];
    repeat (first [apply Forall_app; split | apply own_gather_all | apply Forall_all; intros
                  | constructor; [apply own_calculate_k|constructor] | apply own_initialize_push
                  | apply own_update_coord | apply own_update_push]).
Qed.
Lemma own_rk4 : forall q m fields t dt, Forall owned (rk4_loops q m fields t dt).
Proof.
  intros. unfold rk4_loops. apply Forall_app; split.
  - apply Forall_flat_map, Forall_forall. intros i _. apply own_stage.
  - apply Forall_all. intros; apply own_apply_push.
Qed.

(** ** A sequence of loops *)
Definition after (n : nat) (loops : list loop_body) (m : mem) : mem :=
  fold_left (fun m b => one_thread b n m) loops m.
Lemma executes_after : forall n loops m m', Forall owned loops -> executes n loops m m' -> m' = after n loops m.
Proof.
  intros n loops m m' F E; induction E; [reflexivity|].
  inversion F as [|? ? O F']; subst. rewrite (IHE F').
  rewrite (deterministic body n chunks k pool m m1); auto.
Qed.
Lemma executes_exists : forall n loops m, Forall owned loops -> executes n loops m (after n loops m).
Proof.
  intros n loops; induction loops as [|b loops IH]; intros m F; [constructor|].
  inversion F as [|? ? O F']; subst.
  assert (D : distribution n [seq 0 n]) by (unfold distribution; simpl; rewrite app_nil_r; reflexivity).
  destruct (completes_fuel b (total b n m) (start [seq 0 n]) m) as [k [pool [m1 [S Fi]]]].
  { intros k c S. eapply bounded; eauto. }
  econstructor; eauto. rewrite (deterministic b n [seq 0 n] k pool m m1); auto.
  apply IH; auto.
Qed.

(** The same on the entries [j] of the arrays. *)
Definition column := name -> R.
Definition set (s : column) (a : name) (v : R) : column := fun b => if name_eq a b then v else s b.
Fixpoint runc (p : prog) (s : column) : column :=
  match p with
  | Done => s
  | Rd a _ k => runc (k (s a)) s
  | Wr a _ v k => runc k (set s a v)
  end.
Lemma run_runc : forall i p, own i p -> forall m s, (forall a, m a i = s a) -> forall a, run p m a i = runc p s a.
Proof.
  intros i p H; induction H; intros m s E b; simpl; auto.
  - rewrite (E a). apply H0; auto.
  - apply IHown. intros c. rewrite store_same. unfold set. destruct (name_eq a c); auto.
Qed.
Definition afterc (loops : list loop_body) (j : nat) (s : column) : column :=
  fold_left (fun s b => runc (b j) s) loops s.
Lemma after_column : forall n loops j, Forall owned loops -> (j < n)%nat -> forall m s,
  (forall a, m a j = s a) -> forall a, after n loops m a j = afterc loops j s a.
Proof.
  intros n loops j F Hj; induction F as [|b loops O F IH]; intros m s E a; [apply E|].
  cbn [after afterc fold_left]. apply IH. intros c.
  rewrite one_thread_at by auto. destruct (lt_dec j n); [|lia]. apply run_runc; auto.
Qed.
Lemma after_beyond : forall n loops j, Forall owned loops -> (n <= j)%nat -> forall m a,
  after n loops m a j = m a j.
Proof.
  intros n loops j F Hj; induction F as [|b loops O F IH]; intros m a; [reflexivity|].
  cbn [after fold_left]. unfold after in IH. rewrite IH. rewrite one_thread_at by auto. destruct (lt_dec j n); [lia|auto].
Qed.

(** ** Columns as particles *)
Definition cpart (f : axis -> name) (s : column) : part :=
  mkp (s (f AX)) (s (f AY)) (s (f AXI)) (s (f APX)) (s (f APY)) (s (f APZ)).
Definition cem (s : column) : em :=
  mke (s (Field EX)) (s (Field EY)) (s (Field EZ)) (s (Field BX)) (s (Field BY)) (s (Field BZ)).
Definition views : Type := part * part * part * part * em.
Definition view (s : column) : views := (cpart Bunch s, cpart Temp s, cpart Push s, cpart Kay s, cem s).
Lemma map2_map : forall A B C D (f : A -> B -> C) (g : D -> A) (h : D -> B) l,
  map2 f (map g l) (map h l) = map (fun d => f (g d) (h d)) l.
Proof. intros A B C D f g h l; induction l; simpl; congruence. Qed.
Lemma afterc_app : forall l1 l2 j s, afterc (l1 ++ l2) j s = afterc l2 j (afterc l1 j s).
Proof. intros; unfold afterc; apply fold_left_app. Qed.

(** Functional counterparts on one particle. *)
Definition field1 (s : source) (t : R) (p : pos) (f : em) : em :=
  match s with
  | Analytical c => mke (c_ex c p t (ex f)) (c_ey c p t (ey f)) (c_ez c p t (ez f))
                        (c_bx c p t (bx f)) (c_by c p t (by_ f)) (c_bz c p t (bz f))
  | Grid er ez_ bt g => match gather_main1 er ez_ bt g p f with Ok v => v | Fault _ => f end
  end.
Lemma as_field_map2 : forall s ps t b, as_field s ps t b = map2 (field1 s t) ps b.
Proof. intros [c|er ez_ bt g] ps t b; reflexivity. Qed.
Definition gather1 (fields : list source) (t : R) (p : pos) : em :=
  fold_left (fun f s => field1 s t p f) fields em0.
Lemma gather_fields_map : forall A (pp : A -> pos) (ee : A -> em) fields t l,
  gather_fields (map as_field fields) (map pp l) t (map ee l) = map (fun i => gather1 fields t (pp i)) l.
Proof.
  intros. unfold gather_fields, gather1, Model_Push.reset_particle_fields. rewrite map_map.
  generalize em0 as e0. intros e0.
  assert (G : forall (h : A -> em), fold_left (fun b f => f (map pp l) t b) (map as_field fields) (map h l) =
    map (fun i => fold_left (fun f s => field1 s t (pp i) f) fields (h i)) l).
  { induction fields as [|s fields IH]; intros h; simpl; auto.
    rewrite as_field_map2, map2_map. apply (IH (fun d => field1 s t (pp d) (h d))). }
  apply G.
Qed.

Definition loc (q : axis -> name) (s : column) : pos := (s (q AX), s (q AY), s (q AXI)).
(** [q] is not the array of the fields. *)
Definition apart (q : axis -> name) : Prop := forall a c, q a <> Field c.
Lemma apart_bunch : apart Bunch. Proof. discriminate. Qed.
Lemma apart_temp : apart Temp. Proof. discriminate. Qed.
Definition rest (s : column) := (cpart Bunch s, cpart Temp s, cpart Push s, cpart Kay s).
Lemma set_same : forall s a v, set s a v a = v.
Proof. intros; unfold set. destruct (name_eq a a); congruence. Qed.
Lemma set_other : forall s a v b, b <> a -> set s a v b = s b.
Proof. intros; unfold set. destruct (name_eq a b); congruence. Qed.
Ltac sets := repeat match goal with
  | |- context [set _ ?a _ ?a] => rewrite set_same
  | |- context [set _ ?a _ ?b] => rewrite (set_other _ a _ b) by (first [discriminate | auto])
  end.

Lemma component_c : forall f t q c j s, apart q ->
  runc (component_loop f t q c j) s = set s (Field c) (f (loc q s) t (s (Field c))).
Proof. reflexivity. Qed.
Lemma gather_source_c : forall q t src j s, apart q ->
  let s' := afterc (gather_loops q t src) j s in
  cem s' = field1 src t (loc q s) (cem s) /\ loc q s' = loc q s /\ rest s' = rest s.
Proof.
  intros q t src j s Q.
  assert (Q' : forall a c, q a <> Field c) by exact Q.
  destruct src as [c|er ez_ bt g]; simpl gather_loops.
  - cbv zeta. unfold afterc. cbn [fold_left]. rewrite !component_c by auto.
    assert (L : forall s c v, loc q (set s (Field c) v) = loc q s).
    { intros. unfold loc. rewrite !set_other by auto. reflexivity. }
    rewrite !L. split; [|split].
    + unfold cem, field1. sets. reflexivity.
    + reflexivity.
    + unfold rest, cpart. sets. reflexivity.
  - unfold afterc. cbn [fold_left]. unfold gather_main_loop. cbn [runc].
    unfold field1, gather_main1, loc.
    cbv beta iota zeta.
    destruct (Req_EM_T (sqrt (s (q AX) ^ 2 + s (q AY) ^ 2)) 0) as [Z|Z]; [simpl; auto|].
    destruct (within g (s (q AXI)) (sqrt (s (q AX) ^ 2 + s (q AY) ^ 2))); [|simpl; auto].
    set (p := locate g (s (q AXI)) (sqrt (s (q AX) ^ 2 + s (q AY) ^ 2))).
    set (w := if below p then -1 else 1).
    destruct (interpolate4 er p w); simpl bind; [|simpl; auto].
    destruct (interpolate4 bt p w); simpl bind; [|simpl; auto].
    destruct (interpolate4 ez_ p 1); simpl bind; [|simpl; auto].
    unfold add. cbn [runc]. split; [|split].
    + unfold cem. sets. reflexivity.
    + rewrite !set_other by auto. reflexivity.
    + unfold rest, cpart. sets. reflexivity.
Qed.
Lemma gather_all_c : forall q t fields j s, apart q ->
  let s' := afterc (gather_all q t fields) j s in
  cem s' = gather1 fields t (loc q s) /\ rest s' = rest s.
Proof.
  intros q t fields j s Q. cbv zeta. unfold gather_all. cbn [afterc fold_left].
  set (s0 := runc (reset_particle_fields j) s).
  assert (E0 : cem s0 = em0) by reflexivity.
  assert (L0 : loc q s0 = loc q s).
  { unfold s0, loc, reset_particle_fields. cbn [runc]. rewrite !set_other by apply Q. reflexivity. }
  assert (R0 : rest s0 = rest s) by reflexivity.
  unfold gather1. rewrite <- E0, <- L0, <- R0. clear E0 L0 R0. clearbody s0. clear s. rename s0 into s.
  revert s; induction fields as [|src fields IH]; intros s; [split; reflexivity|].
  cbn [flat_map fold_left].
  change (fold_left (fun s b => runc (b j) s) (gather_loops q t src ++ flat_map (gather_loops q t) fields) s)
    with (afterc (gather_loops q t src ++ flat_map (gather_loops q t) fields) j s).
  rewrite afterc_app. destruct (gather_source_c q t src j s Q) as [E [L Rr]]. cbv zeta in E, L, Rr.
  destruct (IH (afterc (gather_loops q t src) j s)) as [E1 R1]. rewrite L, E in E1. rewrite Rr in R1.
  split; [exact E1|exact R1].
Qed.
