From Coq Require Import QArith Qround Reals String List Bool Arith ZArith Lqa Lra Lia.
From Verif Require Import Model_Tracker Spec_Tracker Proofs_Tracker Model_Element Model_Stage Spec_Stage.
From Verif Require Model_CSR.
Import ListNotations.

(** ** Numerical fields *)
Local Open Scope Q_scope.

Lemma updated_dt n f : rz_dt (updated n f) = rz_dt f /\ rz_evolution (updated n f) = rz_evolution f /\
  rz_even (updated n f) = rz_even f.
Proof.
  induction n as [|n (I1 & I2 & I3)]; [repeat split|]. cbn [updated]. unfold rz_update, calculate_field.
  destruct (rz_init (updated n f)); cbn; auto.
Qed.
Lemma updated_init n f : rz_init (updated (S n) f) = true.
Proof.
  cbn [updated]. unfold rz_update, calculate_field. destruct (rz_init (updated n f)) eqn:E; cbn; auto.
Qed.
Lemma nQ_S n : nQ (S n) == nQ n + 1.
Proof. unfold nQ. rewrite Nat2Z.inj_succ, <- Z.add_1_r, inject_Z_plus. reflexivity. Qed.

Definition laser_after (n : nat) (d t0 : Q) (ev : bool) (l0 l : laser_clock) : Prop :=
  lc_dt l = d /\ lc_time l == t0 + (if ev then nQ n * d else 0).

Lemma updated_used n f : rz_init f = true ->
  rz_t (updated n f) == rz_t f + nQ n * rz_dt f /\
  ((0 < n)%nat -> rz_z (updated n f) == rz_t (updated n f) * c_light) /\
  match rz_laser f with
  | None => rz_laser (updated n f) = None
  | Some l0 => exists l, rz_laser (updated n f) = Some l /\ lc_dt l = lc_dt l0 /\
      lc_time l == lc_time l0 + (if rz_evolution f then nQ n * lc_dt l0 else 0)
  end.
Proof.
  intros Hi. induction n as [|n (I1 & I2 & I3)].
  - split; [unfold nQ; cbn; ring|]. split; [lia|]. cbn [updated]. destruct (rz_laser f) as [l|]; [|reflexivity].
    exists l. split; [reflexivity|]. split; [reflexivity|]. destruct (rz_evolution f); unfold nQ; cbn; ring.
  - destruct (updated_dt n f) as (D & E & _).
    assert (Hn : rz_init (updated n f) = true) by (destruct n; [exact Hi|apply updated_init]).
    cbn [updated]. unfold rz_update. rewrite Hn. unfold calculate_field, evolve_properties. cbn [rz_t rz_z rz_laser rz_dt rz_init].
    rewrite D, E. split; [rewrite I1, nQ_S; ring|]. split; [reflexivity|].
    destruct (rz_laser f) as [l0|].
    + destruct I3 as (l & -> & L1 & L2). destruct (rz_evolution f).
      * eexists. split; [reflexivity|]. cbn [lc_dt lc_time]. split; [exact L1|]. rewrite L2, L1, nQ_S. ring.
      * exists l. split; [reflexivity|]. split; [exact L1|exact L2].
    + rewrite I3. reflexivity.
Qed.

Lemma updated_S n f : updated (S n) f = updated n (rz_update f).
Proof. induction n as [|n IH]; [reflexivity|]. cbn [updated] in *. rewrite IH. reflexivity. Qed.

Lemma updated_fresh n f : rz_init f = false ->
  rz_t (updated (S n) f) == nQ n * rz_dt f /\
  rz_z (updated (S n) f) == nQ n * rz_dt f * c_light /\
  match rz_laser f with
  | None => rz_laser (updated (S n) f) = None
  | Some _ => exists l, rz_laser (updated (S n) f) = Some l /\ lc_dt l = rz_dt f /\
      lc_time l == (if rz_evolution f then nQ n * rz_dt f else 0)
  end.
Proof.
  intros Hi. set (g := rz_update f).
  assert (G : rz_init g = true /\ rz_t g = 0 /\ rz_dt g = rz_dt f /\ rz_evolution g = rz_evolution f /\ rz_z g = 0 * c_light /\
    rz_laser g = match rz_laser f with Some _ => Some (mklc (rz_dt f) 0 []) | None => None end).
  { unfold g, rz_update. rewrite Hi. cbn. auto 10. }
  destruct G as (G1 & G2 & G3 & G4 & G5 & G6). rewrite updated_S. fold g.
  destruct (updated_used n g G1) as (U1 & U2 & U3). rewrite G2, G3 in U1.
  assert (T : rz_t (updated n g) == nQ n * rz_dt f) by (rewrite U1; ring).
  split; [exact T|]. split.
  { destruct n as [|n]; [cbn [updated]; rewrite G5; unfold nQ; cbn; ring|]. rewrite U2 by lia. rewrite T. reflexivity. }
  rewrite G6, G4 in U3. destruct (rz_laser f) as [l0|]; [|exact U3].
  destruct U3 as (l & E & L1 & L2). cbn [lc_dt lc_time] in L1, L2. exists l. split; [exact E|]. split; [exact L1|].
  rewrite L2. destruct (rz_evolution f); ring.
Qed.

(** the densities the laser has seen *)
Lemma updated_seen n f l0 : rz_init f = false -> rz_laser f = Some l0 -> rz_evolution f = true ->
  exists l, rz_laser (updated (S n) f) = Some l /\ length (lc_z l) = n /\
    forall k, (k < n)%nat -> nth k (lc_z l) 0 == nQ k * rz_dt f * c_light.
Proof.
  intros Hi Hl He. induction n as [|n (l & E & L1 & L2)].
  - cbn [updated]. unfold rz_update. rewrite Hi. cbn. rewrite Hl. eexists. split; [reflexivity|]. split; [reflexivity|lia].
  - pose proof (updated_init n f) as Hn. destruct (updated_dt (S n) f) as (_ & Ev & _).
    destruct (updated_fresh n f Hi) as (_ & Z & _).
    change (updated (S (S n)) f) with (rz_update (updated (S n) f)).
    set (g := updated (S n) f) in *. unfold rz_update. rewrite Hn. cbn [calculate_field evolve_properties rz_laser].
    unfold calculate_field, evolve_properties. cbn [rz_laser]. rewrite E, Ev, He. eexists. split; [reflexivity|].
    cbn [lc_z]. rewrite app_length. cbn. split; [lia|]. intros k Hk. destruct (Nat.eq_dec k n) as [->|N].
    + rewrite app_nth2 by lia. rewrite L1, Nat.sub_diag. exact Z.
    + rewrite app_nth1 by lia. apply L2. lia.
Qed.

Section Runs.
  Variable B : Type.
  Variable evolve : list rzfield -> B -> Q -> Q -> B.
  Variable auto_dt : B -> Q.
  Variable copy : B -> B.

  Lemma replay_field j : forall (l : list (event B)) w,
    nth_error (fst (replay B (list rzfield) evolve update_at l w)) j =
    option_map (updated (length (field_times j l))) (nth_error (fst w) j).
  Proof.
    induction l as [|ev l IH]; intros [f bs].
    - cbn. destruct (nth_error f j); reflexivity.
    - unfold replay in *. cbn [fold_left]. rewrite IH. destruct ev as [i t d s|k t|t sn]; cbn [effect field_times fst].
      + destruct (nth_error bs i); reflexivity.
      + unfold update_at at 1. destruct (Nat.eqb_spec k j) as [->|N].
        * cbn [length]. destruct (nth_error f j) as [g|] eqn:E; [|rewrite E; reflexivity].
          rewrite upd_nth_error_same by (apply nth_error_Some; congruence). cbn [option_map]. rewrite updated_S. reflexivity.
        * destruct (nth_error f k) as [g|] eqn:E; [|reflexivity]. rewrite upd_nth_error_other by congruence. reflexivity.
      + reflexivity.
  Qed.

  Lemma field_times_app j (l1 l2 : list (event B)) : field_times j (l1 ++ l2) = (field_times j l1 ++ field_times j l2)%list.
  Proof.
    induction l1 as [|[i t d s|k t|t sn] l1 IH]; cbn; auto. destruct (Nat.eqb k j); cbn; rewrite IH; reflexivity.
  Qed.

  (** The clock of the fields against that of the tracker. *)
  Lemma clock_spec (c : config) (bs0 : list B) fs0 m fuel s j t l1 l2 f :
    good_config c bs0 -> bounded_below auto_dt m ->
    c_fields c = declared fs0 -> nth_error fs0 j = Some f ->
    do_tracking B (list rzfield) evolve update_at auto_dt copy exact fuel c bs0
      (map (rz_adjust (c_tfinal c)) fs0) = Done s ->
    log s = (l1 ++ EField j t :: l2)%list ->
    let k := length (field_times j l1) in
    nth_error (fst (replay B (list rzfield) evolve update_at (l1 ++ [EField j t])
       (map (rz_adjust (c_tfinal c)) fs0, bs0))) j = Some (updated (S k) (rz_adjust (c_tfinal c) f)) /\
    t == nQ k * adjust_dt (rz_even f) (c_tfinal c) (rz_dt f).
  Proof.
    intros Hg Ha Hc Hf Hr Hl k.
    assert (Hcf : nth_error (c_fields c) j = Some (rz_dt f, rz_even f)).
    { rewrite Hc. unfold declared. rewrite nth_error_map, Hf. reflexivity. }
    split.
    - rewrite replay_field. cbn [fst]. rewrite nth_error_map, Hf. cbn [option_map]. rewrite field_times_app.
      cbn [field_times]. rewrite Nat.eqb_refl, app_length. cbn [length]. fold k. rewrite Nat.add_1_r. reflexivity.
    - destruct (field_count_lemma B (list rzfield) evolve update_at auto_dt copy c bs0 _ Hg m Ha exact fuel s j _ _ exact_mono Hr Hcf)
        as (n & M & _).
      cbv zeta in M. destruct M as [_ M]. apply M. rewrite Hl, field_times_app. cbn [field_times].
      rewrite Nat.eqb_refl. rewrite nth_error_app2 by (fold k; lia). fold k. rewrite Nat.sub_diag. reflexivity.
  Qed.

  Lemma end_of_run (c : config) (bs0 : list B) fs0 m fuel s j f :
    good_config c bs0 -> bounded_below auto_dt m ->
    c_fields c = declared fs0 -> nth_error fs0 j = Some f ->
    do_tracking B (list rzfield) evolve update_at auto_dt copy exact fuel c bs0
      (map (rz_adjust (c_tfinal c)) fs0) = Done s ->
    let d := adjust_dt (rz_even f) (c_tfinal c) (rz_dt f) in
    exists n, nth_error (fs s) j = Some (updated (S n) (rz_adjust (c_tfinal c) f)) /\
      nQ n * d <= c_tfinal c /\ c_tfinal c < nQ (S n) * d.
  Proof.
    intros Hg Ha Hc Hf Hr d.
    assert (Hcf : nth_error (c_fields c) j = Some (rz_dt f, rz_even f)).
    { rewrite Hc. unfold declared. rewrite nth_error_map, Hf. reflexivity. }
    destruct (field_count_lemma B (list rzfield) evolve update_at auto_dt copy c bs0 _ Hg m Ha exact fuel s j _ _ exact_mono Hr Hcf)
        as (n & M & M1 & M2).
    exists n. split; [|split; assumption].
    pose proof (done_Rep B _ evolve update_at auto_dt copy exact c bs0 _ Hg fuel s Hr) as RP.
    assert (R : (fs s, bs s) = replay B (list rzfield) evolve update_at (log s) (map (rz_adjust (c_tfinal c)) fs0, bs0)) by apply RP.
    replace (fs s) with (fst (fs s, bs s)) by reflexivity. rewrite R, replay_field. cbn [fst].
    rewrite nth_error_map, Hf. cbn [option_map]. destruct M as [M _]. rewrite M. reflexivity.
  Qed.

  (** A second run with the same fields. *)
  Lemma second_run (c c' : config) (bs0 bs1 : list B) fs0 m fuel fuel' s s' j f t l1 l2 :
    good_config c bs0 -> good_config c' bs1 -> bounded_below auto_dt m ->
    c_tfinal c' = c_tfinal c ->
    c_fields c = declared fs0 -> nth_error fs0 j = Some f -> rz_init f = false ->
    do_tracking B (list rzfield) evolve update_at auto_dt copy exact fuel c bs0
      (map (rz_adjust (c_tfinal c)) fs0) = Done s ->
    c_fields c' = declared (fs s) ->
    do_tracking B (list rzfield) evolve update_at auto_dt copy exact fuel' c' bs1
      (map (rz_adjust (c_tfinal c')) (fs s)) = Done s' ->
    log s' = (l1 ++ EField j t :: l2)%list ->
    exists g, nth_error (fst (replay B (list rzfield) evolve update_at (l1 ++ [EField j t])
       (map (rz_adjust (c_tfinal c')) (fs s), bs1))) j = Some g /\
      c_tfinal c + t < rz_t g /\ rz_z g == rz_t g * c_light.
  Proof.
    intros Hg Hg' Ha HT Hc Hf Hi Hr Hc' Hr' Hl.
    destruct (end_of_run c bs0 fs0 m fuel s j f Hg Ha Hc Hf Hr) as (n & E & _ & N2). cbv zeta in *.
    set (T := c_tfinal c) in *. set (d := adjust_dt (rz_even f) T (rz_dt f)) in *.
    set (f1 := updated (S n) (rz_adjust T f)) in *.
    destruct (clock_spec c' bs1 (fs s) m fuel' s' j t l1 l2 f1 Hg' Ha Hc' E Hr' Hl) as [R1 R2].
    set (k := length (field_times j l1)) in *. rewrite HT in *.
    eexists. split; [exact R1|].
    assert (I0 : rz_init (rz_adjust T f1) = true) by exact (updated_init n (rz_adjust T f)).
    destruct (updated_used (S k) _ I0) as (U1 & U2 & _).
    destruct (updated_dt (S n) (rz_adjust T f)) as (D1 & _ & D2). fold f1 in D1, D2. cbn [rz_adjust rz_dt rz_even] in D1, D2.
    fold d in D1. 
    assert (T0 : 0 < T) by (destruct Hg as (G1 & _); exact G1).
    assert (P0 : 0 < rz_dt f).
    { destruct Hg as (_ & _ & _ & G4). apply (G4 _ (rz_even f)). rewrite Hc. unfold declared.
      apply (in_map (fun f => (rz_dt f, rz_even f))). eapply nth_error_In. exact Hf. }
    assert (DD : adjust_dt (rz_even f1) T (rz_dt f1) == d).
    { rewrite D1, D2. unfold d. destruct (rz_even f); [|reflexivity].
      destruct (adjust_lemma T (rz_dt f) T0 P0) as (kk & K1 & K2 & _).
      apply (adjust_fixed _ _ kk); auto. apply adjust_pos; assumption. }
    cbn [rz_adjust rz_t rz_dt] in U1. rewrite DD in R2. 
    destruct (updated_fresh n (rz_adjust T f) Hi) as (F1 & _). fold f1 in F1. cbn [rz_adjust rz_dt] in F1. fold d in F1.
    split; [|apply U2; lia].
    rewrite U1. rewrite F1, DD, R2. rewrite (nQ_S k). rewrite (nQ_S n) in N2. Lqa.lra.
  Qed.
End Runs.

Lemma adjust_rounding : exists T d, (0 < T)%Q /\ (0 < d)%Q /\ (T == Model_CSR.f64 T)%Q /\
  let d1 := adjust_dt_rnd Model_CSR.f64 T d in
  let d2 := adjust_dt_rnd Model_CSR.f64 T d1 in
  Qceiling (Model_CSR.f64 (T / d)) = 49%Z /\ Qceiling (Model_CSR.f64 (T / d1)) = 50%Z /\ d2 < d1.
Proof.
  exists 1, (2 # 97). repeat split; vm_compute; reflexivity.
Qed.
