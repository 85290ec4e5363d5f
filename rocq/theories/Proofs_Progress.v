(** Lemmas about the progress bars. *)
From Coq Require Import QArith String Ascii List Bool Arith ZArith Lia Lqa.
From Verif Require Import Model_Float32 Model_Tracker Spec_Tracker Proofs_Tracker Proofs_Float32
  Proofs_Solo Model_Progress Spec_Progress.
Import ListNotations.
Open Scope Q_scope.

Section Bar.
  Variables B F : Type.
  Variable evolve : F -> B -> Q -> Q -> B.
  Variable update : nat -> F -> list B -> F.
  Variable auto_dt : B -> Q.
  Variable copy : B -> B.
  Variable rnd : Q -> Q.
  Variable cl : Q.
  Variable c : config.

  Notation state := (state B F).
  Notation step := (step B F evolve update auto_dt copy rnd).
  Notation loop := (loop B F evolve update auto_dt copy rnd).
  Notation bar_loop := (bar_loop B F evolve update auto_dt copy rnd cl).
  Notation wf := (wfs B F c).
  Notation tm := (tm B F).
  Notation dm := (dm B F).
  Notation sync_upto := (sync_upto B F evolve auto_dt rnd c).

  Lemma bar_loop_fst fuel : forall s b, fst (bar_loop fuel c s b) = loop fuel c s.
  Proof.
    induction fuel as [|k IH]; intros s b; cbn; [reflexivity|].
    destruct (step c s); cbn; [apply IH|reflexivity|reflexivity].
  Qed.

  Definition own_times (l : list (event B)) : list Q := map etime (filter own_event l).
  Lemma own_app l1 l2 : own_times (l1 ++ l2) = (own_times l1 ++ own_times l2)%list.
  Proof. unfold own_times. rewrite filter_app, map_app. reflexivity. Qed.

  Lemma sync_log n tn s : wf s -> (n <= nb c)%nat ->
    exists l, log (sync_upto n tn s) = (log s ++ l)%list /\ own_times l = [].
  Proof.
    intros W. induction n as [|n IH]; intros Hn.
    - exists []. rewrite app_nil_r. split; reflexivity.
    - destruct IH as (l & E & O); [lia|].
      exists (l ++ [EPush n (tm (sync_upto n tn s) n) (tn - tm (sync_upto n tn s) n) true])%list.
      rewrite sync_S. split.
      + rewrite push_log.
        * rewrite E, app_assoc. reflexivity.
        * apply sync_wf; [exact W|lia].
        * lia.
      + rewrite own_app, O. reflexivity.
  Qed.

  Lemma step_log s s' : wf s -> step c s = Continue s' ->
    exists l, log s' = (log s ++ l)%list /\ own_times l = [t_tracking B F rnd s].
  Proof.
    intros W H. assert (E : exists k, argmin (map rnd (vadd (tobj s) (dtobj s))) = Some k).
    { unfold Model_Tracker.step in H.
      destruct (argmin (map rnd (vadd (tobj s) (dtobj s)))) as [k|]; [exists k; reflexivity|discriminate]. }
    destruct E as [k E]. destruct (step_min B F rnd c s k W E) as (Hk & Hv & Hmin & _).
    assert (T : t_tracking B F rnd s = tm s k + dm s k) by (unfold t_tracking; rewrite E; exact Hv).
    unfold Model_Tracker.step in H. rewrite E in H. cbv zeta in H. rewrite Hv in H.
    destruct (Qltb _ _); [discriminate|]. injection H as <-. rewrite T.
    unfold advance; cbn [log].
    destruct (index_cases c k Hk) as [Hb|[(j & Hj & ->)|(-> & Hdg)]].
    - rewrite objects_bunch by assumption.
      destruct (nth_error (bs s) k) as [b|] eqn:Eb.
      + exists [EPush k (tm s k) (dm s k) false]. split; [|reflexivity].
        unfold evolve_bunch. rewrite Eb. reflexivity.
      + apply nth_error_None in Eb. rewrite (w_b _ _ _ _ W) in Eb. unfold nb in Eb. lia.
    - rewrite objects_field by assumption. eexists. split; reflexivity.
    - rewrite objects_diag by assumption. cbn [log generate_diagnostics].
      destruct (c_push_before c).
      + destruct (sync_log (nb c) (tm s (n_bunches c + n_fields c) + dm s (n_bunches c + n_fields c)) s W
                    (le_n _)) as (l & El & O).
        unfold Proofs_Tracker.sync_upto, nb in El. rewrite El.
        exists (l ++ [EDiag (tm s (n_bunches c + n_fields c) + dm s (n_bunches c + n_fields c))
          (map copy (bs (fold_left (push_to B F evolve auto_dt rnd c
             (tm s (n_bunches c + n_fields c) + dm s (n_bunches c + n_fields c)))
             (seq 0 (n_bunches c)) s)))])%list.
        split; [rewrite app_assoc; reflexivity|]. rewrite own_app, O. reflexivity.
      + eexists. split; reflexivity.
  Qed.

  Definition agree (l m : list Q) : Prop := Forall2 (fun x t => x == t * cl) l m.
  Lemma agree_snoc l m x t : agree l m -> x == t * cl -> agree (l ++ [x]) (m ++ [t]).
  Proof. intros H Hx. apply Forall2_app; [exact H|]. constructor; [exact Hx|constructor]. Qed.

  (** While the loop runs, the bar shows the times of the events logged by it. *)
  Lemma bar_loop_shown fuel : forall s b pre, wf s -> b_disable b = false ->
    (exists l, log s = (pre ++ l)%list /\ agree (b_shown b) (own_times l)) ->
    let r := bar_loop fuel c s b in
    b_total (snd r) = b_total b /\ b_disable (snd r) = false /\ b_closed (snd r) = b_closed b /\
    forall s', fst r = Done s' ->
      exists l, log s' = (pre ++ l)%list /\ agree (b_shown (snd r)) (own_times l).
  Proof.
    induction fuel as [|k IH]; intros s b pre W Hd (l & El & A); cbv zeta; cbn [Model_Progress.bar_loop].
    - cbn. repeat split; try assumption; try reflexivity. discriminate.
    - destruct (step c s) as [s1|s1|e s1] eqn:Es; cbn [fst snd].
      + destruct (step_log s s1 W Es) as (l1 & E1 & O1).
        set (b1 := bar_update (t_tracking B F rnd s * cl - b_n b) b).
        assert (Hb1 : b1 = mkbar (b_total b) (b_n b + (t_tracking B F rnd s * cl - b_n b)) false (b_closed b)
                  (b_shown b ++ [b_n b + (t_tracking B F rnd s * cl - b_n b)])).
        { unfold b1, bar_update. rewrite Hd. reflexivity. }
        destruct (IH s1 b1 pre (step_wf B F evolve update auto_dt copy rnd c s s1 W Es)) as (R1 & R2 & R3 & R4).
        * rewrite Hb1. reflexivity.
        * exists (l ++ l1)%list. split; [rewrite E1, El, app_assoc; reflexivity|].
          rewrite Hb1. cbn [b_shown]. rewrite own_app, O1. apply agree_snoc; [exact A|]. lra.
        * assert (T1 : b_total b1 = b_total b) by (rewrite Hb1; reflexivity).
          assert (T2 : b_closed b1 = b_closed b) by (rewrite Hb1; reflexivity).
          rewrite T1 in R1. rewrite T2 in R3. repeat split; assumption.
      + apply step_done in Es; [|exact W]. destruct Es as [-> _].
        repeat split; try assumption; try reflexivity. intros s' [= <-]. exists l. split; assumption.
      + repeat split; try assumption; try reflexivity. discriminate.
  Qed.
  Lemma bar_loop_hidden fuel : forall s b, b_disable b = true -> snd (bar_loop fuel c s b) = b.
  Proof.
    induction fuel as [|k IH]; intros s b Hd; cbn; [reflexivity|].
    destruct (step c s) as [s1|s1|e s1]; cbn; try reflexivity.
    unfold bar_update. rewrite Hd. apply IH. exact Hd.
  Qed.
End Bar.

Lemma ascending_weak a b l : a <= b -> ascending b l -> ascending a l.
Proof. destruct l; cbn; [auto|]. intros H [H1 H2]. split; [lra|exact H2]. Qed.

Lemma ascending_all a l : (forall x, In x l -> a <= x) ->
  (forall l1 x l2 y, l = l1 ++ x :: l2 -> In y l2 -> x <= y) -> ascending a l.
Proof.
  revert a; induction l as [|x l IH]; intros a Ha Ho; cbn; [exact I|].
  split; [apply Ha; left; reflexivity|]. apply IH.
  - intros y Hy. exact (Ho [] x l y eq_refl Hy).
  - intros l1 z l2 y E Hy. apply (Ho (x :: l1) z l2 y); [rewrite E; reflexivity|exact Hy].
Qed.
Lemma own_split {B} (l : list (event B)) : forall l1 x l2,
  map etime (filter own_event l) = l1 ++ x :: l2 ->
  exists m1 e m2, l = m1 ++ e :: m2 /\ etime e = x /\ own_event e = true /\
    map etime (filter own_event m2) = l2.
Proof.
  induction l as [|e l IH]; intros l1 x l2 E; [destruct l1; discriminate|].
  cbn in E. destruct (own_event e) eqn:Ee.
  - destruct l1 as [|y l1].
    + injection E as E1 E2. exists [], e, l. repeat split; assumption.
    + injection E as E1 E2. destruct (IH l1 x l2 E2) as (m1 & e' & m2 & -> & A & A' & A'').
      exists (e :: m1), e', m2. repeat split; assumption.
  - destruct (IH l1 x l2 E) as (m1 & e' & m2 & -> & A & A' & A'').
    exists (e :: m1), e', m2. repeat split; assumption.
Qed.
Lemma own_in {B} (l : list (event B)) y : In y (map etime (filter own_event l)) ->
  exists e, In e l /\ etime e = y /\ own_event e = true.
Proof.
  intros H. apply in_map_iff in H as (e & E & H). apply filter_In in H as [H1 H2].
  exists e. repeat split; assumption.
Qed.

(** ** The text of the bar of transfer-map elements *)
Lemma dashes_bounds s n : (0 < n)%nat -> (s <= n)%nat ->
  let x := inject_Z (Z.of_nat s) / inject_Z (Z.of_nat n) * 20 in
  0 <= x <= 20.
Proof.
  intros Hn Hs x. assert (P : 0 < inject_Z (Z.of_nat n)).
  { change 0 with (inject_Z 0). rewrite <- Zlt_Qlt. lia. }
  assert (S0 : 0 <= inject_Z (Z.of_nat s)).
  { change 0 with (inject_Z 0). rewrite <- Zle_Qle. lia. }
  assert (S1 : inject_Z (Z.of_nat s) <= inject_Z (Z.of_nat n)).
  { rewrite <- Zle_Qle. lia. }
  assert (U : 0 <= inject_Z (Z.of_nat s) / inject_Z (Z.of_nat n)).
  { apply Qle_shift_div_l; [exact P|]. lra. }
  assert (V : inject_Z (Z.of_nat s) / inject_Z (Z.of_nat n) <= 1).
  { apply Qle_shift_div_r; [exact P|]. lra. }
  unfold x. lra.
Qed.
Lemma nearest_comp x y : x == y -> nearest_even x = nearest_even y.
Proof.
  intros H. apply Z.le_antisymm; apply nearest_mono; rewrite H; apply Qle_refl.
Qed.
Lemma nearest_mono_eq n : (0 < n)%nat ->
  nearest_even (inject_Z (Z.of_nat n) / inject_Z (Z.of_nat n) * 20) = 20%Z.
Proof.
  intros Hn. rewrite (nearest_comp _ (inject_Z 20)); [apply nearest_Z|].
  field. change 0 with (inject_Z 0). rewrite inject_Z_injective. lia.
Qed.
