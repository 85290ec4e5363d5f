(** Lemmas comparing two tracking runs (Model_Tracker). *)
From Coq Require Import QArith Qround List Bool Arith ZArith Lia Lqa.
From Verif Require Import Model_Tracker Spec_Tracker Proofs_Tracker Spec_Run.
Import ListNotations.
Open Scope Q_scope.

Lemma argmin_unique l i : (i < length l)%nat ->
  (forall k, (k < length l)%nat -> nth i l 0 <= nth k l 0) ->
  (forall k, (k < i)%nat -> nth i l 0 < nth k l 0) -> argmin l = Some i.
Proof.
  intros Hi Hle Hlt. destruct (argmin l) as [k|] eqn:E.
  - apply argmin_spec in E as (Hk & Kle & Klt). f_equal.
    destruct (lt_eq_lt_dec k i) as [[H|H]|H]; [|assumption|].
    + specialize (Hlt k H). specialize (Kle i Hi). lra.
    + specialize (Klt i H). specialize (Hle k Hk). lra.
  - apply argmin_none in E. subst. simpl in Hi. lia.
Qed.

Lemma nth_error_upd {A} i k (v : A) l :
  nth_error (upd i v l) k =
  if Nat.eqb k i then (if Nat.ltb i (length l) then Some v else None) else nth_error l k.
Proof.
  destruct (Nat.eqb_spec k i) as [->|H].
  - destruct (Nat.ltb_spec i (length l)).
    + apply upd_nth_error_same; assumption.
    + apply nth_error_None. rewrite upd_length; lia.
  - apply upd_nth_error_other; assumption.
Qed.

Lemma nth_error_append_out {B} (copy : B -> B) o l i : length o = length l ->
  nth_error (append_out B copy o l) i =
  match nth_error o i, nth_error l i with
  | Some x, Some b => Some (x ++ [copy b])
  | _, _ => None
  end.
Proof.
  unfold append_out. revert l i; induction o as [|x o IH]; intros [|b l] [|i] H;
    simpl in *; try discriminate; auto.
Qed.

Section Steps.
  Variables B F : Type.
  Variable evolve : F -> B -> Q -> Q -> B.
  Variable update : nat -> F -> list B -> F.
  Variable auto_dt : B -> Q.
  Variable copy : B -> B.
  Variable rnd : Q -> Q.
  Variable c : config.

  Notation state := (state B F).
  Notation step := (step B F evolve update auto_dt copy rnd).
  Notation loop := (loop B F evolve update auto_dt copy rnd).
  Notation wf := (wfs B F c).
  Notation tm := (tm B F).
  Notation dm := (dm B F).
  Notation push := (push B F evolve auto_dt rnd c).
  Notation sync_upto := (sync_upto B F evolve auto_dt rnd c).
  Notation generate_diagnostics := (generate_diagnostics B F copy).
  Notation update_field := (update_field B F update).
  Notation advance := (advance B F).

  Lemma step_pick (s : state) k : wf s -> (k < nobj c)%nat ->
    (forall q, (q < nobj c)%nat -> rnd (tm s k + dm s k) <= rnd (tm s q + dm s q)) ->
    (forall q, (q < k)%nat -> rnd (tm s k + dm s k) < rnd (tm s q + dm s q)) ->
    rnd (tm s k + dm s k) <= rnd (c_tfinal c) ->
    step c s =
    Continue (advance k (dm s k)
      (match nth_error (objects c) k with
       | Some (OBunch i) =>
           evolve_bunch B F evolve auto_dt rnd c false i (tm s k) (tm s k + dm s k) (dm s k) s
       | Some (OField j) => update_field (tm s k + dm s k) j s
       | Some ODiag =>
           generate_diagnostics (tm s k + dm s k)
             (if c_push_before c
              then sync_upto (nb c) (tm s k + dm s k) s else s)
       | None => s
       end)).
  Proof.
    intros W Hk Hle Hlt Hf.
    assert (Wt := w_t _ _ _ _ W). assert (Wd := w_d _ _ _ _ W).
    assert (Hl : length (vadd (tobj s) (dtobj s)) = nobj c).
    { rewrite vadd_length; congruence. }
    assert (Hv : forall q, (q < nobj c)%nat ->
              nth q (vadd (tobj s) (dtobj s)) 0 = tm s q + dm s q).
    { intros q Hq. apply vadd_nth; [congruence|lia]. }
    assert (Hnth : forall q, (q < nobj c)%nat ->
              nth q (map rnd (vadd (tobj s) (dtobj s))) 0 = rnd (tm s q + dm s q)).
    { intros q Hq. rewrite (nth_indep _ 0 (rnd 0)) by (rewrite map_length; lia).
      rewrite map_nth, Hv by assumption. reflexivity. }
    unfold Model_Tracker.step.
    rewrite (argmin_unique _ k).
    - cbv zeta. rewrite Hv by assumption.
      destruct (Qltb (rnd (c_tfinal c)) (rnd (tm s k + dm s k))) eqn:E.
      + apply Qltb_true in E. lra.
      + reflexivity.
    - rewrite map_length, Hl. assumption.
    - intros q Hq. rewrite map_length, Hl in Hq. rewrite !Hnth by assumption. auto.
    - intros q Hq. rewrite !Hnth by lia. auto.
  Qed.

  Lemma step_stop (s : state) : wf s -> (0 < nobj c)%nat ->
    (forall q, (q < nobj c)%nat -> rnd (c_tfinal c) < rnd (tm s q + dm s q)) ->
    step c s = Done s.
  Proof.
    intros W Hn Hall. unfold Model_Tracker.step.
    destruct (argmin (map rnd (vadd (tobj s) (dtobj s)))) as [k|] eqn:E.
    - destruct (step_min B F rnd c s k W E) as (Hk & Hv & _).
      cbv zeta. rewrite Hv. specialize (Hall k Hk).
      apply Qltb_true in Hall. rewrite Hall. reflexivity.
    - apply argmin_none in E. apply (f_equal (@length Q)) in E.
      rewrite map_length, vadd_length in E.
      + rewrite (w_t _ _ _ _ W) in E. simpl in E. lia.
      + rewrite (w_t _ _ _ _ W), (w_d _ _ _ _ W). reflexivity.
  Qed.

  Lemma push_wf sync i tn d s : wf s -> (i < nb c)%nat -> wf (push sync i tn d s).
  Proof.
    intros W Hi. destruct (push_eff B F evolve auto_dt rnd c sync i tn d s W Hi)
      as (b & b' & _ & _ & ->).
    destruct W. split; cbn; rewrite ?upd_length; assumption.
  Qed.
  Lemma update_wf tn j s : wf s -> wf (update_field tn j s).
  Proof. intros []; split; cbn; assumption. Qed.
  Lemma advance_wf k d s : wf s -> wf (advance k d s).
  Proof. intros []; split; cbn; rewrite ?upd_length; assumption. Qed.
  Lemma diag_wf tn s : wf s -> wf (generate_diagnostics tn s).
  Proof.
    intros []; split; cbn; try assumption.
    unfold append_out. rewrite map_length, combine_length. lia.
  Qed.
  Lemma sync_wf n tn s : wf s -> (n <= nb c)%nat -> wf (sync_upto n tn s).
  Proof.
    intros W. induction n as [|n IH]; intros Hn; [exact W|].
    rewrite sync_S. apply push_wf; [apply IH; lia|lia].
  Qed.
  Lemma step_wf s s' : wf s -> step c s = Continue s' -> wf s'.
  Proof.
    intros W H. apply step_inv in H; [|assumption].
    destruct H as [i tn Hi|j tn Hj|tn Hd].
    - apply push_wf; assumption.
    - apply advance_wf, update_wf; assumption.
    - apply advance_wf, diag_wf. destruct (c_push_before c); [|assumption].
      apply sync_wf; [assumption|lia].
  Qed.
  Lemma initial_wf' bs0 fs0 : length bs0 = length (c_dtb c) ->
    wf (initial B F update auto_dt copy c bs0 fs0).
  Proof.
    intros H.
    assert (W : wf (start B F update auto_dt c bs0 fs0)).
    { rewrite start_eq. split; cbn; rewrite ?map_length, ?initial_dt_length by assumption;
        try reflexivity; assumption. }
    unfold initial. destruct (c_ndiags c); [assumption|apply diag_wf; assumption].
  Qed.
  Lemma loop_det f1 f2 s s1 s2 :
    loop f1 c s = Done s1 -> loop f2 c s = Done s2 -> s1 = s2.
  Proof.
    intros H1 H2.
    apply (loop_more B F evolve update auto_dt copy c rnd) with (k := f2) in H1.
    apply (loop_more B F evolve update auto_dt copy c rnd) with (k := f1) in H2.
    rewrite Nat.add_comm in H2. congruence.
  Qed.
End Steps.

(** * One bunch among others *)
Section Solo.
  Variables B F : Type.
  Variable evolve : F -> B -> Q -> Q -> B.
  Variable update : nat -> F -> list B -> F.
  Variable auto_dt : B -> Q.
  Variable copy : B -> B.
  Variable rnd : Q -> Q.
  Variable c : config.
  Hypothesis Hign : ignores_bunches update c.
  Variable i : nat.
  Variable d : option Q.
  Hypothesis Hd : nth_error (c_dtb c) i = Some d.
  Let c1 := with_steps [d] c.

  Notation state := (state B F).
  Notation step := (step B F evolve update auto_dt copy rnd).
  Notation loop := (loop B F evolve update auto_dt copy rnd).
  Notation tm := (tm B F).
  Notation dm := (dm B F).
  Notation push := (push B F evolve auto_dt rnd).
  Notation sync_upto := (sync_upto B F evolve auto_dt rnd).
  Notation generate_diagnostics := (generate_diagnostics B F copy).
  Notation update_field := (update_field B F update).
  Notation advance := (advance B F).

  (** Index in the full run of object [k] of the run of one bunch. *)
  Definition idx (k : nat) : nat := match k with O => i | S j => (nb c + j)%nat end.

  Lemma i_lt : (i < nb c)%nat.
  Proof. apply nth_error_Some. rewrite Hd. discriminate. Qed.
  Lemma nobj_eq : nobj c = (nb c + (nobj c1 - 1))%nat /\ (0 < nobj c1)%nat.
  Proof.
    unfold nobj. rewrite !objects_length. cbn [c1 with_steps n_bunches n_fields c_dtb
      c_fields c_ndiags length]. unfold n_fields, c1; cbn [c_fields with_steps].
    unfold nb, n_bunches. lia.
  Qed.
  Lemma idx_lt k : (k < nobj c1)%nat -> (idx k < nobj c)%nat.
  Proof.
    pose proof nobj_eq as [E E1]. pose proof i_lt. intros H1. destruct k; cbn [idx]; lia.
  Qed.
  Lemma idx_mono k k' : (k < k')%nat -> (idx k < idx k')%nat.
  Proof. pose proof i_lt. destruct k, k'; cbn [idx]; lia. Qed.
  Lemma idx_inj k k' : idx k = idx k' -> k = k'.
  Proof.
    intros E. destruct (lt_eq_lt_dec k k') as [[H|H]|H]; [|assumption|];
      apply idx_mono in H; lia.
  Qed.
  Lemma nb1 : nb c1 = 1%nat. Proof. reflexivity. Qed.
  Lemma nf1 : nf c1 = nf c. Proof. reflexivity. Qed.

  Record rel (s s1 : state) : Prop := {
    r_wf : wfs B F c s;
    r_wf1 : wfs B F c1 s1;
    r_t : forall k, (k < nobj c1)%nat -> tm s (idx k) = tm s1 k;
    r_d : forall k, (k < nobj c1)%nat -> dm s (idx k) = dm s1 k;
    r_b : nth_error (bs s) i = nth_error (bs s1) 0;
    r_f : fs s = fs s1;
    r_o : nth_error (out s) i = nth_error (out s1) 0;
    r_p : pushes i (log s) = pushes 0 (log s1);
    r_ft : forall j, field_times j (log s) = field_times j (log s1);
    r_dt : diag_times (log s) = diag_times (log s1) }.

  Lemma newdt_eq b' x tn :
    newdt B auto_dt rnd c i b' x tn = newdt B auto_dt rnd c1 0 b' x tn.
  Proof.
    unfold newdt, is_auto. rewrite Hd. cbn [c1 with_steps c_dtb nth_error].
    destruct d; reflexivity.
  Qed.

  Lemma rel_other sync k tn x s s1 : rel s s1 -> (k < nb c)%nat -> k <> i ->
    rel (push c sync k tn x s) s1.
  Proof.
    intros R Hk Hne.
    assert (W' := push_wf B F evolve auto_dt rnd c sync k tn x s (r_wf _ _ R) Hk).
    destruct (push_eff B F evolve auto_dt rnd c sync k tn x s (r_wf _ _ R) Hk)
      as (b & b' & Hb & Hb' & E).
    assert (Hi : forall q, (q < nobj c1)%nat -> idx q <> k).
    { intros [|q] Hq; cbn [idx]; [congruence|lia]. }
    split; try assumption; try apply (r_wf1 _ _ R); rewrite E; cbn [bs fs out log].
    - intros q Hq. unfold Proofs_Tracker.tm at 1; cbn [tobj].
      rewrite upd_nth_other by (apply Hi; assumption). apply (r_t _ _ R); assumption.
    - intros q Hq. unfold Proofs_Tracker.dm at 1; cbn [dtobj].
      rewrite upd_nth_other by (apply Hi; assumption). apply (r_d _ _ R); assumption.
    - rewrite nth_error_upd. destruct (Nat.eqb_spec i k); [congruence|]. apply (r_b _ _ R).
    - apply (r_f _ _ R).
    - apply (r_o _ _ R).
    - rewrite pushes_app. cbn [pushes]. destruct (Nat.eqb_spec k i); [congruence|].
      rewrite app_nil_r. apply (r_p _ _ R).
    - intros j. rewrite field_times_app. cbn [field_times]. rewrite app_nil_r.
      apply (r_ft _ _ R).
    - rewrite diag_times_app. cbn [diag_times]. rewrite app_nil_r. apply (r_dt _ _ R).
  Qed.

  Lemma rel_push sync tn x s s1 : rel s s1 ->
    rel (push c sync i tn x s) (push c1 sync 0 tn x s1).
  Proof.
    intros R. pose proof i_lt as Hi. pose proof nobj_eq as [No No1].
    assert (W' := push_wf B F evolve auto_dt rnd c sync i tn x s (r_wf _ _ R) Hi).
    assert (H0 : (0 < nb c1)%nat) by (rewrite nb1; lia).
    assert (W1' := push_wf B F evolve auto_dt rnd c1 sync 0 tn x s1 (r_wf1 _ _ R) H0).
    destruct (push_eff B F evolve auto_dt rnd c sync i tn x s (r_wf _ _ R) Hi)
      as (b & b' & Hb & Hb' & E).
    destruct (push_eff B F evolve auto_dt rnd c1 sync 0 tn x s1 (r_wf1 _ _ R) H0)
      as (a & a' & Ha & Ha' & E1).
    assert (Et : tm s i = tm s1 0) by (apply (r_t _ _ R 0%nat); assumption).
    assert (Ed : dm s i = dm s1 0) by (apply (r_d _ _ R 0%nat); assumption).
    assert (Eab : a = b).
    { pose proof (r_b _ _ R) as Hr. rewrite Hb, Ha in Hr. congruence. }
    subst a. rewrite <- (r_f _ _ R), <- Et, <- Hb' in Ha'. subst a'.
    assert (Li : (i < length (tobj s))%nat).
    { rewrite (w_t _ _ _ _ (r_wf _ _ R)). apply (idx_lt 0); assumption. }
    assert (Ld : (i < length (dtobj s))%nat).
    { rewrite (w_d _ _ _ _ (r_wf _ _ R)). apply (idx_lt 0); assumption. }
    assert (Lb : (i < length (bs s))%nat).
    { rewrite (w_b _ _ _ _ (r_wf _ _ R)). assumption. }
    split; try assumption; rewrite E, E1; cbn [bs fs out log].
    - intros q Hq. change (nth (idx q) (upd i (tm s i + x) (tobj s)) 0 =
              nth q (upd 0 (tm s1 0 + x) (tobj s1)) 0).
      rewrite !upd_other_eq.
      destruct (Nat.eqb_spec q 0) as [->|Hq0].
      + cbn [idx]. rewrite Nat.eqb_refl.
        destruct (Nat.ltb_spec i (length (tobj s))); [|lia].
        rewrite (w_t _ _ _ _ (r_wf1 _ _ R)). destruct (Nat.ltb_spec 0 (nobj c1)); [|lia].
        congruence.
      + destruct (Nat.eqb_spec (idx q) i) as [Hx|Hx].
        * apply (idx_inj q 0) in Hx. congruence.
        * apply (r_t _ _ R); assumption.
    - intros q Hq. change (nth (idx q) (upd i (newdt B auto_dt rnd c i b' (dm s i) tn) (dtobj s)) 0 =
              nth q (upd 0 (newdt B auto_dt rnd c1 0 b' (dm s1 0) tn) (dtobj s1)) 0).
      rewrite !upd_other_eq.
      destruct (Nat.eqb_spec q 0) as [->|Hq0].
      + cbn [idx]. rewrite Nat.eqb_refl.
        destruct (Nat.ltb_spec i (length (dtobj s))); [|lia].
        rewrite (w_d _ _ _ _ (r_wf1 _ _ R)). destruct (Nat.ltb_spec 0 (nobj c1)); [|lia].
        rewrite Ed. apply newdt_eq.
      + destruct (Nat.eqb_spec (idx q) i) as [Hx|Hx].
        * apply (idx_inj q 0) in Hx. congruence.
        * apply (r_d _ _ R); assumption.
    - rewrite !nth_error_upd, !Nat.eqb_refl.
      destruct (Nat.ltb_spec i (length (bs s))); [|lia].
      rewrite (w_b _ _ _ _ (r_wf1 _ _ R)). destruct (Nat.ltb_spec 0 (nb c1)); [|lia].
      reflexivity.
    - apply (r_f _ _ R).
    - apply (r_o _ _ R).
    - rewrite !pushes_app. cbn [pushes]. rewrite !Nat.eqb_refl.
      rewrite (r_p _ _ R), Et. reflexivity.
    - intros j. rewrite !field_times_app. cbn [field_times]. rewrite !app_nil_r.
      apply (r_ft _ _ R).
    - rewrite !diag_times_app. cbn [diag_times]. rewrite !app_nil_r. apply (r_dt _ _ R).
  Qed.

  Lemma rel_sync n tn s s1 : rel s s1 -> (n <= nb c)%nat ->
    rel (sync_upto c n tn s) (if Nat.ltb i n then sync_upto c1 1 tn s1 else s1).
  Proof.
    intros R. induction n as [|n IH]; intros Hn; [exact R|].
    specialize (IH ltac:(lia)). rewrite sync_S.
    destruct (Nat.eq_dec n i) as [->|Hne].
    - destruct (Nat.ltb_spec i i); [lia|]. destruct (Nat.ltb_spec i (S i)); [|lia].
      rewrite sync_S. change (sync_upto c1 0 tn s1) with s1.
      pose proof nobj_eq as [_ No1].
      rewrite (r_t _ _ IH 0%nat No1 : tm _ i = _).
      apply rel_push; assumption.
    - replace (Nat.ltb i (S n)) with (Nat.ltb i n).
      + apply rel_other; [assumption|lia|assumption].
      + destruct (Nat.ltb_spec i n), (Nat.ltb_spec i (S n)); lia || reflexivity.
  Qed.

  Lemma rel_advance k x s s1 : rel s s1 -> (k < nobj c1)%nat ->
    rel (advance (idx k) x s) (advance k x s1).
  Proof.
    intros R Hk. pose proof (idx_lt k Hk) as Hk'.
    split; cbn [bs fs out log Model_Tracker.advance]; try (apply R).
    - apply advance_wf, R.
    - apply advance_wf, R.
    - intros q Hq. unfold Proofs_Tracker.tm, Model_Tracker.advance; cbn [tobj].
      rewrite !upd_other_eq.
      rewrite (w_t _ _ _ _ (r_wf _ _ R)), (w_t _ _ _ _ (r_wf1 _ _ R)).
      change (nth (idx k) (tobj s) 0) with (tm s (idx k)).
      change (nth k (tobj s1) 0) with (tm s1 k).
      destruct (Nat.eqb_spec q k) as [->|Hne].
      + rewrite Nat.eqb_refl.
        destruct (Nat.ltb_spec (idx k) (nobj c)); [|lia].
        destruct (Nat.ltb_spec k (nobj c1)); [|lia].
        rewrite (r_t _ _ R) by assumption. reflexivity.
      + destruct (Nat.eqb_spec (idx q) (idx k)) as [Hx|Hx].
        * apply idx_inj in Hx. congruence.
        * apply (r_t _ _ R); assumption.
  Qed.
  Lemma rel_update tn j s s1 : rel s s1 -> (j < nf c)%nat ->
    rel (update_field tn j s) (update_field tn j s1).
  Proof.
    intros R Hj. split; cbn [bs fs out log Model_Tracker.update_field]; try (apply R).
    - apply update_wf, R.
    - apply update_wf, R.
    - rewrite (r_f _ _ R). apply Hign. exact Hj.
    - rewrite !pushes_app. cbn [pushes]. rewrite !app_nil_r. apply R.
    - intros q. rewrite !field_times_app. rewrite (r_ft _ _ R q). reflexivity.
    - rewrite !diag_times_app. cbn [diag_times]. rewrite !app_nil_r. apply R.
  Qed.
  Lemma rel_diag tn s s1 : rel s s1 ->
    rel (generate_diagnostics tn s) (generate_diagnostics tn s1).
  Proof.
    intros R. split; cbn [bs fs out log Model_Tracker.generate_diagnostics]; try (apply R).
    - apply diag_wf, R.
    - apply diag_wf, R.
    - rewrite !nth_error_append_out.
      + rewrite (r_o _ _ R), (r_b _ _ R). reflexivity.
      + rewrite (w_o _ _ _ _ (r_wf1 _ _ R)), (w_b _ _ _ _ (r_wf1 _ _ R)). reflexivity.
      + rewrite (w_o _ _ _ _ (r_wf _ _ R)), (w_b _ _ _ _ (r_wf _ _ R)). reflexivity.
    - rewrite !pushes_app. cbn [pushes]. rewrite !app_nil_r. apply R.
    - intros q. rewrite !field_times_app. cbn [field_times]. rewrite !app_nil_r. apply R.
    - rewrite !diag_times_app. rewrite (r_dt _ _ R). reflexivity.
  Qed.

  (** What is true of all objects of the full run is true of those of the
      other. *)
  Lemma pick_of s s1 k tn : rel s s1 -> (k < nobj c1)%nat ->
    tn = tm s (idx k) + dm s (idx k) ->
    (forall q, (q < nobj c)%nat -> rnd tn <= rnd (tm s q + dm s q)) ->
    (forall q, (q < idx k)%nat -> rnd tn < rnd (tm s q + dm s q)) ->
    tn = tm s1 k + dm s1 k /\
    (forall q, (q < nobj c1)%nat -> rnd tn <= rnd (tm s1 q + dm s1 q)) /\
    (forall q, (q < k)%nat -> rnd tn < rnd (tm s1 q + dm s1 q)).
  Proof.
    intros R Hk Etn Hle Hlt.
    assert (E : tn = tm s1 k + dm s1 k).
    { rewrite Etn, (r_t _ _ R), (r_d _ _ R) by assumption. reflexivity. }
    split; [exact E|]. split; intros q Hq.
    - rewrite <- (r_t _ _ R), <- (r_d _ _ R) by assumption.
      apply Hle, idx_lt; assumption.
    - rewrite <- (r_t _ _ R), <- (r_d _ _ R) by lia.
      apply Hlt, idx_mono; assumption.
  Qed.

  Lemma rel_step s s1 s' : rel s s1 -> step c s = Continue s' ->
    rel s' s1 \/ exists s1', step c1 s1 = Continue s1' /\ rel s' s1'.
  Proof.
    intros R H. apply step_inv in H; [|apply R].
    pose proof nobj_eq as [No No1].
    assert (No1' : nobj c1 = (1 + nf c + if Nat.ltb 0 (c_ndiags c) then 1 else 0)%nat).
    { unfold nobj. rewrite objects_length. reflexivity. }
    destruct H as [k tn Hk Et Hle Hlt Hf|j tn Hj Et Hle Hlt Hf|tn Hdg Et Hle Hlt Hf].
    - destruct (Nat.eq_dec k i) as [->|Hne].
      + right. destruct (pick_of s s1 0 tn R No1 Et Hle Hlt) as (E1 & L1 & L2).
        eexists. split.
        * apply step_pick; [apply R|exact No1|rewrite <- E1; exact L1|rewrite <- E1; exact L2|].
          rewrite <- E1. exact Hf.
        * rewrite (objects_bunch c1 0) by (cbn; lia).
          rewrite (r_d _ _ R 0%nat No1 : dm s i = _). rewrite <- E1.
          change (rel (push c false i tn (dm s1 0) s) (push c1 false 0 tn (dm s1 0) s1)).
          apply rel_push; assumption.
      + left. apply rel_other; assumption.
    - right. assert (Hk : (S j < nobj c1)%nat) by lia.
      destruct (pick_of s s1 (S j) tn R Hk Et Hle Hlt) as (E1 & L1 & L2).
      eexists. split.
      + apply step_pick; [apply R|exact Hk|rewrite <- E1; exact L1|rewrite <- E1; exact L2|].
        rewrite <- E1. exact Hf.
      + rewrite (objects_field c1 j Hj : nth_error (objects c1) (S j) = _).
        rewrite (r_d _ _ R (S j) Hk : dm s (nb c + j) = _). rewrite <- E1.
        apply (rel_advance (S j)); [|exact Hk]. apply rel_update; assumption.
    - right. assert (Hk : (S (nf c) < nobj c1)%nat).
      { apply Nat.ltb_lt in Hdg. rewrite Hdg in No1'. lia. }
      destruct (pick_of s s1 (S (nf c)) tn R Hk Et Hle Hlt) as (E1 & L1 & L2).
      eexists. split.
      + apply step_pick; [apply R|exact Hk|rewrite <- E1; exact L1|rewrite <- E1; exact L2|].
        rewrite <- E1. exact Hf.
      + rewrite (objects_diag c1 Hdg : nth_error (objects c1) (S (nf c)) = _).
        rewrite (r_d _ _ R (S (nf c)) Hk : dm s (nb c + nf c) = _). rewrite <- E1.
        apply (rel_advance (S (nf c))); [|exact Hk]. apply rel_diag.
        change (c_push_before c1) with (c_push_before c).
        destruct (c_push_before c); [|assumption].
        pose proof (rel_sync (nb c) tn s s1 R (le_n _)) as H.
        pose proof i_lt. destruct (Nat.ltb_spec i (nb c)); [exact H|lia].
  Qed.

  Lemma rel_done s s1 s' : rel s s1 -> step c s = Done s' ->
    s' = s /\ step c1 s1 = Done s1.
  Proof.
    intros R H. apply step_done in H as (-> & Hall); [|apply R].
    split; [reflexivity|]. pose proof nobj_eq as [No No1].
    apply step_stop; [apply R|exact No1|].
    intros q Hq. rewrite <- (r_t _ _ R), <- (r_d _ _ R) by assumption.
    apply Hall, idx_lt; assumption.
  Qed.

  Lemma rel_loop fuel : forall s s1 s', rel s s1 -> loop fuel c s = Done s' ->
    exists fuel1 s1', loop fuel1 c1 s1 = Done s1' /\ rel s' s1'.
  Proof.
    induction fuel as [|fuel IH]; intros s s1 s' R H; cbn [Model_Tracker.loop] in H;
      [discriminate|].
    destruct (step c s) as [u|u|] eqn:E; [| |discriminate].
    - destruct (rel_step s s1 u R E) as [R'|(s1' & E1 & R')].
      + apply (IH u s1); assumption.
      + destruct (IH u s1' s' R' H) as (f1 & r1 & Hl & Hr).
        exists (S f1), r1. split; [|exact Hr]. cbn [Model_Tracker.loop].
        rewrite E1. exact Hl.
    - injection H as <-. destruct (rel_done s s1 u R E) as (-> & E1).
      exists 1%nat, s1. split; [|exact R]. cbn [Model_Tracker.loop]. rewrite E1. reflexivity.
  Qed.

  Lemma rel_start bs0 fs0 b : length bs0 = length (c_dtb c) ->
    nth_error bs0 i = Some b ->
    rel (start B F update auto_dt c bs0 fs0) (start B F update auto_dt c1 [b] fs0).
  Proof.
    intros Hl Hb. pose proof i_lt as Hi.
    assert (W : forall c bs0, length bs0 = length (c_dtb c) ->
              wfs B F c (start B F update auto_dt c bs0 fs0)).
    { intros c' bs' H'. rewrite start_eq.
      split; cbn; rewrite ?map_length, ?initial_dt_length by assumption;
        try reflexivity; assumption. }
    assert (Hz : forall k l, nth k (map (fun _ : Q => 0) l) 0 = 0).
    { intros k l. destruct (nth_in_or_default k (map (fun _ : Q => 0) l) 0) as [Hin|Hin];
        [|assumption]. apply in_map_iff in Hin as (x & <- & _). reflexivity. }
    split; try (apply W; [reflexivity || assumption]); rewrite !start_eq; cbn [bs fs out log].
    - intros q Hq. unfold Proofs_Tracker.tm; cbn [tobj]. rewrite !Hz. reflexivity.
    - intros q Hq. unfold Proofs_Tracker.dm; cbn [dtobj].
      assert (Hl1 : length [b] = length (c_dtb c1)) by reflexivity.
      assert (Hq' : (q < 1 + nf c + if Nat.ltb 0 (c_ndiags c) then 1 else 0)%nat).
      { unfold nobj in Hq. rewrite objects_length in Hq. exact Hq. }
      destruct q as [|q]; cbn [idx].
      + rewrite (initial_dt_bunch auto_dt c bs0 i Hl Hi).
        rewrite (initial_dtb_nth auto_dt _ _ i d b Hd Hb).
        rewrite (initial_dt_bunch auto_dt c1 [b] 0 Hl1) by (cbn; lia).
        reflexivity.
      + destruct (lt_dec q (nf c)) as [Hf|Hf].
        * unfold nb. rewrite (initial_dt_field auto_dt c bs0 q Hl Hf).
          rewrite (initial_dt_field auto_dt c1 [b] q Hl1 Hf : nth (S q) _ 0 = _).
          reflexivity.
        * destruct (Nat.ltb_spec 0 (c_ndiags c)) as [Hdg|Hdg]; [|lia].
          assert (q = nf c) as -> by lia. unfold nb, nf.
          rewrite (initial_dt_diag auto_dt c bs0 Hl Hdg).
          rewrite (initial_dt_diag auto_dt c1 [b] Hl1 Hdg :
                     nth (S (n_fields c)) (initial_dt B auto_dt c1 [b]) 0 = _).
          reflexivity.
    - exact Hb.
    - unfold fs_start. rewrite nf1.
      assert (Hn : (nf c <= length (c_fields c))%nat) by (unfold nf, n_fields; lia).
      revert Hn. generalize (nf c). intros n. induction n as [|n IH]; intros Hn; [reflexivity|].
      rewrite seq_S, !fold_left_app. cbn [fold_left]. rewrite IH by lia.
      apply Hign. cbn. lia.
    - rewrite nth_error_map, Hb. reflexivity.
    - rewrite !pushes_fields. reflexivity.
    - intros j. reflexivity.
    - reflexivity.
  Qed.

  Lemma solo_lemma fuel bs0 fs0 b s : length bs0 = length (c_dtb c) ->
    nth_error bs0 i = Some b ->
    do_tracking B F evolve update auto_dt copy rnd fuel c bs0 fs0 = Done s ->
    exists fuel1 s1,
      do_tracking B F evolve update auto_dt copy rnd fuel1 c1 [b] fs0 = Done s1 /\
      rel s s1.
  Proof.
    intros Hl Hb H. unfold do_tracking in *.
    change (c_ndiags c1) with (c_ndiags c).
    destruct (c_ndiags c).
    - destruct bs0; [|discriminate].
      destruct (Model_Tracker.loop B F evolve update auto_dt copy rnd fuel c _); discriminate.
    - eapply rel_loop; [|exact H]. apply rel_diag, rel_start; assumption.
  Qed.
End Solo.

(** * Outputs that do not push the bunches *)
Section Outputs.
  Variables B F : Type.
  Variable evolve : F -> B -> Q -> Q -> B.
  Variable update : nat -> F -> list B -> F.
  Variable auto_dt : B -> Q.
  Variable copy : B -> B.
  Variable rnd : Q -> Q.
  Variable c : config.
  Hypothesis Hpb : c_push_before c = false.
  Hypothesis Hdg : (0 < c_ndiags c)%nat.
  Hypothesis Hnb : (0 < nb c)%nat.
  Let c0 := with_outputs 0 c.

  Notation state := (state B F).
  Notation step := (step B F evolve update auto_dt copy rnd).
  Notation loop := (loop B F evolve update auto_dt copy rnd).
  Notation tm := (tm B F).
  Notation dm := (dm B F).
  Notation push := (push B F evolve auto_dt rnd).
  Notation generate_diagnostics := (generate_diagnostics B F copy).
  Notation update_field := (update_field B F update).
  Notation advance := (advance B F).

  Lemma n0 : nobj c0 = (nb c + nf c)%nat.
  Proof. unfold nobj. rewrite objects_length. cbn. rewrite Nat.add_0_r. reflexivity. Qed.
  Lemma n1 : nobj c = S (nb c + nf c).
  Proof.
    unfold nobj. rewrite objects_length. apply Nat.ltb_lt in Hdg. rewrite Hdg.
    unfold nb, nf. lia.
  Qed.

  Record same (s s0 : state) : Prop := {
    e_wf : wfs B F c s;
    e_wf0 : wfs B F c0 s0;
    e_t : forall k, (k < nobj c0)%nat -> tm s k = tm s0 k;
    e_d : forall k, (k < nobj c0)%nat -> dm s k = dm s0 k;
    e_b : bs s = bs s0;
    e_f : fs s = fs s0;
    e_p : forall i, pushes i (log s) = pushes i (log s0);
    e_ft : forall j, field_times j (log s) = field_times j (log s0) }.

  Lemma same_push sync i tn x s s0 : same s s0 -> (i < nb c)%nat ->
    same (push c sync i tn x s) (push c0 sync i tn x s0).
  Proof.
    intros R Hi. pose proof n0 as N0. pose proof n1 as N1.
    assert (W' := push_wf B F evolve auto_dt rnd c sync i tn x s (e_wf _ _ R) Hi).
    assert (W0' := push_wf B F evolve auto_dt rnd c0 sync i tn x s0 (e_wf0 _ _ R) Hi).
    destruct (push_eff B F evolve auto_dt rnd c sync i tn x s (e_wf _ _ R) Hi)
      as (b & b' & Hb & Hb' & E).
    destruct (push_eff B F evolve auto_dt rnd c0 sync i tn x s0 (e_wf0 _ _ R) Hi)
      as (a & a' & Ha & Ha' & E0).
    assert (Et : tm s i = tm s0 i) by (apply (e_t _ _ R); lia).
    assert (Ed : dm s i = dm s0 i) by (apply (e_d _ _ R); lia).
    assert (a = b) by (rewrite <- (e_b _ _ R), Hb in Ha; congruence). subst a.
    rewrite <- (e_f _ _ R), <- Et, <- Hb' in Ha'. subst a'.
    split; try assumption; rewrite E, E0; cbn [bs fs out log].
    - intros q Hq. change (nth q (upd i (tm s i + x) (tobj s)) 0 =
              nth q (upd i (tm s0 i + x) (tobj s0)) 0). rewrite !upd_other_eq.
      rewrite (w_t _ _ _ _ (e_wf _ _ R)), (w_t _ _ _ _ (e_wf0 _ _ R)).
      destruct (Nat.eqb_spec q i) as [->|Hne]; [|apply (e_t _ _ R); assumption].
      destruct (Nat.ltb_spec i (nobj c)); [|lia]. destruct (Nat.ltb_spec i (nobj c0)); [|lia].
      congruence.
    - intros q Hq. change (nth q (upd i (newdt B auto_dt rnd c i b' (dm s i) tn) (dtobj s)) 0 =
              nth q (upd i (newdt B auto_dt rnd c0 i b' (dm s0 i) tn) (dtobj s0)) 0). rewrite !upd_other_eq.
      rewrite (w_d _ _ _ _ (e_wf _ _ R)), (w_d _ _ _ _ (e_wf0 _ _ R)).
      destruct (Nat.eqb_spec q i) as [->|Hne]; [|apply (e_d _ _ R); assumption].
      destruct (Nat.ltb_spec i (nobj c)); [|lia]. destruct (Nat.ltb_spec i (nobj c0)); [|lia].
      rewrite Ed. reflexivity.
    - rewrite (e_b _ _ R). reflexivity.
    - apply (e_f _ _ R).
    - intros k. rewrite !pushes_app, (e_p _ _ R k), Et. reflexivity.
    - intros j. rewrite !field_times_app, (e_ft _ _ R j). reflexivity.
  Qed.
  Lemma same_advance k x s s0 : same s s0 -> (k < nobj c0)%nat ->
    same (advance k x s) (advance k x s0).
  Proof.
    intros R Hk. pose proof n0 as N0. pose proof n1 as N1.
    split; cbn [bs fs out log Model_Tracker.advance]; try (apply R).
    - apply advance_wf, R.
    - apply advance_wf, R.
    - intros q Hq. unfold Proofs_Tracker.tm, Model_Tracker.advance; cbn [tobj].
      rewrite !upd_other_eq.
      rewrite (w_t _ _ _ _ (e_wf _ _ R)), (w_t _ _ _ _ (e_wf0 _ _ R)).
      destruct (Nat.eqb_spec q k) as [->|Hne]; [|apply (e_t _ _ R); assumption].
      destruct (Nat.ltb_spec k (nobj c)); [|lia]. destruct (Nat.ltb_spec k (nobj c0)); [|lia].
      change (tm s k + x = tm s0 k + x). rewrite (e_t _ _ R) by assumption. reflexivity.
  Qed.
  Lemma same_update tn j s s0 : same s s0 ->
    same (update_field tn j s) (update_field tn j s0).
  Proof.
    intros R. split; cbn [bs fs out log Model_Tracker.update_field]; try (apply R).
    - apply update_wf, R.
    - apply update_wf, R.
    - rewrite (e_f _ _ R), (e_b _ _ R). reflexivity.
    - intros k. rewrite !pushes_app, (e_p _ _ R k). reflexivity.
    - intros k. rewrite !field_times_app, (e_ft _ _ R k). reflexivity.
  Qed.
  Lemma same_diag tn s s0 : same s s0 -> same (generate_diagnostics tn s) s0.
  Proof.
    intros R. split; cbn [bs fs out log Model_Tracker.generate_diagnostics]; try (apply R).
    - apply diag_wf, R.
    - intros k. rewrite pushes_app. cbn [pushes]. rewrite app_nil_r. apply R.
    - intros k. rewrite field_times_app. cbn [field_times]. rewrite app_nil_r. apply R.
  Qed.
  Lemma same_clock x s s0 : same s s0 -> same (advance (nb c + nf c) x s) s0.
  Proof.
    intros R. pose proof n0 as N0.
    split; cbn [bs fs out log Model_Tracker.advance]; try (apply R).
    - apply advance_wf, R.
    - intros q Hq. unfold Proofs_Tracker.tm, Model_Tracker.advance; cbn [tobj].
      rewrite upd_nth_other by lia. apply (e_t _ _ R); assumption.
  Qed.

  Lemma same_pick s s0 k tn : same s s0 -> (k < nobj c0)%nat ->
    tn = tm s k + dm s k ->
    (forall q, (q < nobj c)%nat -> rnd tn <= rnd (tm s q + dm s q)) ->
    (forall q, (q < k)%nat -> rnd tn < rnd (tm s q + dm s q)) ->
    tn = tm s0 k + dm s0 k /\
    (forall q, (q < nobj c0)%nat -> rnd tn <= rnd (tm s0 q + dm s0 q)) /\
    (forall q, (q < k)%nat -> rnd tn < rnd (tm s0 q + dm s0 q)).
  Proof.
    intros R Hk Etn Hle Hlt. pose proof n0 as N0. pose proof n1 as N1.
    split; [|split]; [|intros q Hq..].
    - rewrite Etn, (e_t _ _ R), (e_d _ _ R) by assumption. reflexivity.
    - rewrite <- (e_t _ _ R), <- (e_d _ _ R) by assumption. apply Hle. lia.
    - rewrite <- (e_t _ _ R), <- (e_d _ _ R) by lia. apply Hlt. assumption.
  Qed.

  Lemma same_step s s0 s' : same s s0 -> step c s = Continue s' ->
    same s' s0 \/ exists s0', step c0 s0 = Continue s0' /\ same s' s0'.
  Proof.
    intros R H. apply step_inv in H; [|apply R].
    pose proof n0 as N0. pose proof n1 as N1.
    destruct H as [k tn Hk Et Hle Hlt Hf|j tn Hj Et Hle Hlt Hf|tn _ Et Hle Hlt Hf].
    - right. assert (Hk0 : (k < nobj c0)%nat) by lia.
      destruct (same_pick s s0 k tn R Hk0 Et Hle Hlt) as (E1 & L1 & L2).
      eexists. split.
      + apply step_pick; [apply R|exact Hk0|rewrite <- E1; exact L1|rewrite <- E1; exact L2|].
        rewrite <- E1. exact Hf.
      + rewrite (objects_bunch c0 k) by exact Hk.
        rewrite (e_d _ _ R k Hk0), <- E1.
        change (same (push c false k tn (dm s0 k) s) (push c0 false k tn (dm s0 k) s0)).
        apply same_push; assumption.
    - right. assert (Hk0 : (nb c + j < nobj c0)%nat) by lia.
      destruct (same_pick s s0 _ tn R Hk0 Et Hle Hlt) as (E1 & L1 & L2).
      eexists. split.
      + apply step_pick; [apply R|exact Hk0|rewrite <- E1; exact L1|rewrite <- E1; exact L2|].
        rewrite <- E1. exact Hf.
      + rewrite (objects_field c0 j Hj : nth_error (objects c0) (nb c + j) = _).
        rewrite (e_d _ _ R _ Hk0), <- E1.
        apply same_advance; [|exact Hk0]. apply same_update; assumption.
    - left. rewrite Hpb. apply same_clock, same_diag, R.
  Qed.

  Lemma same_loop fuel : forall s s0 s', same s s0 -> loop fuel c s = Done s' ->
    exists fuel0 s0', loop fuel0 c0 s0 = Done s0' /\ same s' s0'.
  Proof.
    pose proof n0 as N0. pose proof n1 as N1.
    induction fuel as [|fuel IH]; intros s s0 s' R H; cbn [Model_Tracker.loop] in H;
      [discriminate|].
    destruct (step c s) as [u|u|] eqn:E; [| |discriminate].
    - destruct (same_step s s0 u R E) as [R'|(s0' & E0 & R')].
      + apply (IH u s0); assumption.
      + destruct (IH u s0' s' R' H) as (f0 & r0 & Hl & Hr).
        exists (S f0), r0. split; [|exact Hr]. cbn [Model_Tracker.loop].
        rewrite E0. exact Hl.
    - injection H as <-. apply step_done in E as (-> & Hall); [|apply R].
      exists 1%nat, s0. split; [|exact R]. cbn [Model_Tracker.loop].
      rewrite step_stop; [reflexivity|apply R|lia|].
      intros q Hq. rewrite <- (e_t _ _ R), <- (e_d _ _ R) by assumption.
      apply Hall. lia.
  Qed.

  Lemma same_start bs0 fs0 : length bs0 = length (c_dtb c) ->
    same (start B F update auto_dt c bs0 fs0) (start B F update auto_dt c0 bs0 fs0).
  Proof.
    intros Hl. pose proof n0 as N0.
    assert (W : forall c bs0, length bs0 = length (c_dtb c) ->
              wfs B F c (start B F update auto_dt c bs0 fs0)).
    { intros c' bs' H'. rewrite start_eq.
      split; cbn; rewrite ?map_length, ?initial_dt_length by assumption;
        try reflexivity; assumption. }
    assert (Hz : forall k l, nth k (map (fun _ : Q => 0) l) 0 = 0).
    { intros k l. destruct (nth_in_or_default k (map (fun _ : Q => 0) l) 0) as [Hin|Hin];
        [|assumption]. apply in_map_iff in Hin as (x & <- & _). reflexivity. }
    split; try (apply W; exact Hl); rewrite !start_eq; cbn [bs fs out log]; try reflexivity.
    - intros q Hq. unfold Proofs_Tracker.tm; cbn [tobj]. rewrite !Hz. reflexivity.
    - intros q Hq. unfold Proofs_Tracker.dm; cbn [dtobj]. rewrite N0 in Hq.
      unfold initial_dt. cbn [c0 with_outputs c_ndiags c_dtb Nat.ltb Nat.leb].
      rewrite app_nil_r, !app_assoc. rewrite app_nth1; [reflexivity|].
      rewrite app_length, initial_dtb_length by assumption.
      unfold dt_fields. rewrite map_length. exact Hq.
  Qed.

  Lemma outputs_silent_lemma fuel bs0 fs0 s : length bs0 = length (c_dtb c) ->
    do_tracking B F evolve update auto_dt copy rnd fuel c bs0 fs0 = Done s ->
    exists fuel0 s0,
      loop fuel0 c0 (start B F update auto_dt c0 bs0 fs0) = Done s0 /\ same s s0.
  Proof.
    intros Hl H. unfold do_tracking in H.
    assert (En : exists n, c_ndiags c = S n) by (exists (pred (c_ndiags c)); lia).
    destruct En as [n En]. rewrite En in H.
    eapply same_loop; [|exact H]. apply same_diag, same_start; assumption.
  Qed.
End Outputs.
