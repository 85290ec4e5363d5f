(** Lemmas on tracking (Model_Tracker) with and without a bunch that the fields do not see. *)
From Coq Require Import QArith Qround List Bool Arith ZArith Lia Lqa.
From Verif Require Import Model_Tracker Spec_Tracker Proofs_Tracker Spec_Run Proofs_Solo Spec_Neutral.
Import ListNotations.
Open Scope Q_scope.

(** * Lists without an element *)
Definition shift (i k : nat) : nat := if Nat.ltb k i then k else S k.
Lemma without_cons {A} i (a : A) l : without (S i) (a :: l) = a :: without i l.
Proof. reflexivity. Qed.
Lemma without_0 {A} (a : A) l : without 0 (a :: l) = l.
Proof. reflexivity. Qed.
Lemma without_nil {A} i : @without A i [] = [].
Proof. destruct i; reflexivity. Qed.
Lemma without_length {A} i (l : list A) : (i < length l)%nat -> length l = S (length (without i l)).
Proof.
  revert i. induction l as [|a l IH]; intros [|i] H; cbn [length] in *; try lia.
  - rewrite without_0. reflexivity.
  - rewrite without_cons. cbn [length]. rewrite <- IH by lia. reflexivity.
Qed.
Lemma shift_S i k : shift (S i) (S k) = S (shift i k).
Proof. unfold shift. change (Nat.ltb (S k) (S i)) with (Nat.ltb k i). destruct (Nat.ltb k i); reflexivity. Qed.
Lemma without_nth_error {A} i (l : list A) k : nth_error (without i l) k = nth_error l (shift i k).
Proof.
  revert i k. induction l as [|a l IH]; intros i k.
  - rewrite without_nil. destruct k, (shift i _); reflexivity.
  - destruct i as [|i]; [reflexivity|]. rewrite without_cons. destruct k as [|k]; [reflexivity|].
    rewrite shift_S. cbn [nth_error]. apply IH.
Qed.
Lemma without_nth {A} i (l : list A) k d : nth k (without i l) d = nth (shift i k) l d.
Proof.
  revert i k. induction l as [|a l IH]; intros i k.
  - rewrite without_nil. destruct k, (shift i _); reflexivity.
  - destruct i as [|i]; [reflexivity|]. rewrite without_cons. destruct k as [|k]; [reflexivity|].
    rewrite shift_S. cbn [nth]. apply IH.
Qed.
Lemma without_upd_same {A} i (v : A) l : without i (upd i v l) = without i l.
Proof.
  revert i. induction l as [|a l IH]; intros [|i]; cbn [upd]; try reflexivity.
  rewrite !without_cons, IH. reflexivity.
Qed.
Lemma without_upd {A} i k (v : A) l : without i (upd (shift i k) v l) = upd k v (without i l).
Proof.
  revert i k. induction l as [|a l IH]; intros i k.
  - destruct (shift i k); cbn [upd]; rewrite without_nil; destruct k; reflexivity.
  - destruct i as [|i]; [reflexivity|]. destruct k as [|k]; [reflexivity|].
    rewrite shift_S. cbn [upd]. rewrite !without_cons. cbn [upd]. rewrite IH. reflexivity.
Qed.
Lemma without_map {A C} (f : A -> C) i l : without i (map f l) = map f (without i l).
Proof. unfold without. rewrite firstn_map, skipn_map, map_app. reflexivity. Qed.
Lemma without_app {A} i (l r : list A) : (i < length l)%nat -> without i (l ++ r) = without i l ++ r.
Proof.
  revert i. induction l as [|a l IH]; intros [|i] H; cbn [length] in H; try lia.
  - reflexivity.
  - cbn [app]. rewrite !without_cons. cbn [app]. rewrite IH by lia. reflexivity.
Qed.
Lemma without_combine {A C} i (l : list A) (r : list C) :
  without i (combine l r) = combine (without i l) (without i r).
Proof.
  revert i r. induction l as [|a l IH]; intros i r; [cbn; rewrite !without_nil; reflexivity|].
  destruct r as [|b r].
  - cbn. rewrite !without_nil. destruct (without i (a :: l)); reflexivity.
  - destruct i as [|i]; [reflexivity|]. cbn [combine]. rewrite !without_cons. cbn [combine]. rewrite IH. reflexivity.
Qed.

Section Skip.
  Variables B F : Type.
  Variable evolve : F -> B -> Q -> Q -> B.
  Variable update : nat -> F -> list B -> F.
  Variable auto_dt : B -> Q.
  Variable copy : B -> B.
  Variable rnd : Q -> Q.
  Variable c : config.
  Variable i : nat.
  Hypothesis Hi : (i < length (c_dtb c))%nat.
  Hypothesis Hdg : (0 < c_ndiags c)%nat.
  Let c1 := with_steps (without i (c_dtb c)) c.
  (** The bunch left out keeps a property, for which the fields do not see it. *)
  Variable unseen : B -> Prop.
  Variable fine : F -> Prop.
  Hypothesis Hevolve : forall f b t d, unseen b -> unseen (evolve f b t d).
  Hypothesis Hback : forall j f l, fine (update j f l) -> fine f.
  Hypothesis Hupdate : forall j f l b, nth_error l i = Some b -> unseen b -> fine (update j f l) ->
    update j f l = update j f (without i l).

  Notation state := (state B F).
  Notation step := (step B F evolve update auto_dt copy rnd).
  Notation loop := (loop B F evolve update auto_dt copy rnd).
  Notation tm := (tm B F).
  Notation dm := (dm B F).
  Notation push := (push B F evolve auto_dt rnd).
  Notation sync_upto := (sync_upto B F evolve auto_dt rnd).
  Notation generate_diagnostics := (generate_diagnostics B F copy).
  Notation update_field := (update_field B F update).
  Notation advance := (advance B F).

  Lemma nb_1 : nb c = S (nb c1).
  Proof. unfold nb, n_bunches. cbn [c1 with_steps c_dtb]. apply without_length, Hi. Qed.
  Lemma nf_1 : nf c1 = nf c. Proof. reflexivity. Qed.
  Lemma nobj_1 : nobj c = S (nobj c1).
  Proof.
    unfold nobj. rewrite !objects_length. pose proof nb_1 as H. unfold nb in H. rewrite H. reflexivity.
  Qed.
  Lemma nobj_pos : (0 < nobj c1)%nat.
  Proof.
    unfold nobj. rewrite objects_length. change (c_ndiags c1) with (c_ndiags c).
    apply Nat.ltb_lt in Hdg. rewrite Hdg. lia.
  Qed.
  Lemma i_nb : (i < nb c)%nat. Proof. exact Hi. Qed.
  Lemma shift_lt k : (k < nobj c1)%nat -> (shift i k < nobj c)%nat.
  Proof. rewrite nobj_1. unfold shift. destruct (Nat.ltb k i); lia. Qed.
  Lemma shift_mono k k' : (k < k')%nat -> (shift i k < shift i k')%nat.
  Proof. unfold shift. destruct (Nat.ltb_spec k i), (Nat.ltb_spec k' i); lia. Qed.
  Lemma shift_ne k : shift i k <> i.
  Proof. unfold shift. destruct (Nat.ltb_spec k i); lia. Qed.
  Lemma shift_onto k : (k < nb c)%nat -> k <> i -> exists q, (q < nb c1)%nat /\ k = shift i q.
  Proof.
    rewrite nb_1. intros H Hne. pose proof i_nb as X. rewrite nb_1 in X. destruct (lt_dec k i) as [L|L].
    - exists k. unfold shift. destruct (Nat.ltb_spec k i); lia.
    - exists (pred k). unfold shift. destruct (Nat.ltb_spec (pred k) i); lia.
  Qed.
  Lemma shift_high j : shift i (nb c1 + j) = (nb c + j)%nat.
  Proof. pose proof i_nb as X. rewrite nb_1 in *. unfold shift. destruct (Nat.ltb_spec (nb c1 + j) i); lia. Qed.

  Record rel (s s1 : state) : Prop := {
    q_wf : wfs B F c s;
    q_wf1 : wfs B F c1 s1;
    q_t : tobj s1 = without i (tobj s);
    q_d : dtobj s1 = without i (dtobj s);
    q_b : bs s1 = without i (bs s);
    q_f : fs s1 = fs s;
    q_o : out s1 = without i (out s);
    q_x : forall b, nth_error (bs s) i = Some b -> unseen b;
    q_p : forall k, pushes k (log s1) = pushes (shift i k) (log s);
    q_ft : forall j, field_times j (log s1) = field_times j (log s);
    q_dt : diag_times (log s1) = diag_times (log s) }.

  Lemma rel_tm s s1 k : rel s s1 -> tm s1 k = tm s (shift i k).
  Proof. intros R. unfold Proofs_Tracker.tm. rewrite (q_t _ _ R). apply without_nth. Qed.
  Lemma rel_dm s s1 k : rel s s1 -> dm s1 k = dm s (shift i k).
  Proof. intros R. unfold Proofs_Tracker.dm. rewrite (q_d _ _ R). apply without_nth. Qed.
  Lemma newdt_shift k b' x tn : newdt B auto_dt rnd c1 k b' x tn = newdt B auto_dt rnd c (shift i k) b' x tn.
  Proof.
    unfold newdt, is_auto. cbn [c1 with_steps c_dtb]. rewrite without_nth_error. reflexivity.
  Qed.

  Lemma rel_other sync tn x s s1 : rel s s1 -> rel (push c sync i tn x s) s1.
  Proof.
    intros R.
    assert (W' := push_wf B F evolve auto_dt rnd c sync i tn x s (q_wf _ _ R) i_nb).
    destruct (push_eff B F evolve auto_dt rnd c sync i tn x s (q_wf _ _ R) i_nb)
      as (b & b' & Hb & Hb' & E).
    split; try assumption; try apply (q_wf1 _ _ R); rewrite E; cbn [bs fs out log tobj dtobj].
    - rewrite without_upd_same. apply R.
    - rewrite without_upd_same. apply R.
    - rewrite without_upd_same. apply R.
    - apply R.
    - apply R.
    - intros b0 H0. rewrite nth_error_upd, Nat.eqb_refl in H0. destruct (Nat.ltb _ _); [|discriminate].
      injection H0 as <-. rewrite Hb'. apply Hevolve, (q_x _ _ R), Hb.
    - intros k. rewrite pushes_app. cbn [pushes].
      destruct (Nat.eqb_spec i (shift i k)) as [X|X]; [symmetry in X; apply shift_ne in X as []|].
      rewrite app_nil_r. apply (q_p _ _ R).
    - intros j. rewrite field_times_app. cbn [field_times]. rewrite app_nil_r. apply (q_ft _ _ R).
    - rewrite diag_times_app. cbn [diag_times]. rewrite app_nil_r. apply (q_dt _ _ R).
  Qed.
  Lemma rel_push sync k tn x s s1 : rel s s1 -> (k < nb c1)%nat ->
    rel (push c sync (shift i k) tn x s) (push c1 sync k tn x s1).
  Proof.
    intros R Hk.
    assert (Hk' : (shift i k < nb c)%nat) by (rewrite nb_1; unfold shift; destruct (Nat.ltb k i); lia).
    assert (W' := push_wf B F evolve auto_dt rnd c sync (shift i k) tn x s (q_wf _ _ R) Hk').
    assert (W1' := push_wf B F evolve auto_dt rnd c1 sync k tn x s1 (q_wf1 _ _ R) Hk).
    destruct (push_eff B F evolve auto_dt rnd c sync (shift i k) tn x s (q_wf _ _ R) Hk')
      as (b & b' & Hb & Hb' & E).
    destruct (push_eff B F evolve auto_dt rnd c1 sync k tn x s1 (q_wf1 _ _ R) Hk)
      as (a & a' & Ha & Ha' & E1).
    rewrite (q_b _ _ R), without_nth_error, Hb in Ha. injection Ha as <-.
    rewrite (q_f _ _ R), (rel_tm s s1 k R), <- Hb' in Ha'. subst a'.
    split; try assumption; rewrite E; try rewrite E1; cbn [bs fs out log tobj dtobj].
    - rewrite without_upd, (rel_tm s s1 k R), (q_t _ _ R). reflexivity.
    - rewrite without_upd, (rel_dm s s1 k R), (q_d _ _ R), newdt_shift. reflexivity.
    - rewrite without_upd, (q_b _ _ R). reflexivity.
    - apply R.
    - apply R.
    - intros b0 H0. rewrite nth_error_upd in H0.
      destruct (Nat.eqb_spec i (shift i k)) as [X|X]; [symmetry in X; apply shift_ne in X as []|].
      apply (q_x _ _ R), H0.
    - intros q. rewrite !pushes_app, (q_p _ _ R). cbn [pushes]. f_equal.
      rewrite (rel_tm s s1 k R).
      destruct (Nat.eqb_spec k q) as [->|N]; [rewrite Nat.eqb_refl; reflexivity|].
      destruct (Nat.eqb_spec (shift i k) (shift i q)) as [X|X]; [|reflexivity]. exfalso.
      destruct (lt_eq_lt_dec k q) as [[L|L]|L]; [apply shift_mono in L; lia|congruence|apply shift_mono in L; lia].
    - intros j. rewrite !field_times_app. cbn [field_times]. rewrite !app_nil_r. apply (q_ft _ _ R).
    - rewrite !diag_times_app. cbn [diag_times]. rewrite !app_nil_r. apply (q_dt _ _ R).
  Qed.
  Lemma rel_sync n tn s s1 : rel s s1 -> (n <= nb c)%nat ->
    rel (sync_upto c n tn s) (sync_upto c1 (if Nat.ltb i n then pred n else n) tn s1).
  Proof.
    intros R. induction n as [|n IH]; intros Hn; [exact R|].
    specialize (IH ltac:(lia)). rewrite sync_S.
    destruct (Nat.eq_dec n i) as [->|Hne].
    - destruct (Nat.ltb_spec i i); [lia|]. destruct (Nat.ltb_spec i (S i)); [|lia].
      apply rel_other. exact IH.
    - destruct (shift_onto n ltac:(lia) Hne) as (q & Hq & En).
      assert (Eq : (if Nat.ltb i n then pred n else n) = q).
      { rewrite En. unfold shift. destruct (Nat.ltb_spec q i).
        - destruct (Nat.ltb_spec i q); lia.
        - destruct (Nat.ltb_spec i (S q)); lia. }
      assert (Es : (if Nat.ltb i (S n) then pred (S n) else S n) = S q).
      { rewrite En. unfold shift. destruct (Nat.ltb_spec q i).
        - destruct (Nat.ltb_spec i (S q)); lia.
        - destruct (Nat.ltb_spec i (S (S q))); lia. }
      rewrite Es, sync_S. rewrite Eq in IH. rewrite (rel_tm _ _ q IH), En in *. apply rel_push; assumption.
  Qed.
  Lemma rel_advance k x s s1 : rel s s1 -> rel (advance (shift i k) x s) (advance k x s1).
  Proof.
    intros R. split; cbn [bs fs out log tobj dtobj Model_Tracker.advance]; try (apply R).
    - apply advance_wf, R.
    - apply advance_wf, R.
    - rewrite without_upd, (q_t _ _ R), without_nth. reflexivity.
  Qed.
  Lemma rel_update tn j s s1 : rel s s1 -> fine (fs (update_field tn j s)) ->
    rel (update_field tn j s) (update_field tn j s1).
  Proof.
    intros R Hf. cbn [fs Model_Tracker.update_field] in Hf.
    split; cbn [bs fs out log tobj dtobj Model_Tracker.update_field]; try (apply R).
    - apply update_wf, R.
    - apply update_wf, R.
    - assert (X : exists b, nth_error (bs s) i = Some b).
      { destruct (nth_error (bs s) i) as [b|] eqn:E; [eauto|]. apply nth_error_None in E.
        rewrite (w_b _ _ _ _ (q_wf _ _ R)) in E. pose proof i_nb. lia. }
      destruct X as [b Hb]. rewrite (q_f _ _ R), (q_b _ _ R). symmetry.
      apply (Hupdate j (fs s) (bs s) b Hb (q_x _ _ R b Hb) Hf).
    - intros q. rewrite !pushes_app. cbn [pushes]. rewrite !app_nil_r. apply R.
    - intros q. rewrite !field_times_app. rewrite (q_ft _ _ R q). reflexivity.
    - rewrite !diag_times_app. cbn [diag_times]. rewrite !app_nil_r. apply R.
  Qed.
  Lemma rel_diag tn s s1 : rel s s1 -> rel (generate_diagnostics tn s) (generate_diagnostics tn s1).
  Proof.
    intros R. split; cbn [bs fs out log tobj dtobj Model_Tracker.generate_diagnostics]; try (apply R).
    - apply diag_wf, R.
    - apply diag_wf, R.
    - unfold append_out. rewrite without_map, without_combine, (q_o _ _ R), (q_b _ _ R). reflexivity.
    - intros q. rewrite !pushes_app. cbn [pushes]. rewrite !app_nil_r. apply R.
    - intros q. rewrite !field_times_app. cbn [field_times]. rewrite !app_nil_r. apply R.
    - rewrite !diag_times_app. rewrite (q_dt _ _ R). reflexivity.
  Qed.

  Lemma pick_of s s1 k tn : rel s s1 -> (k < nobj c1)%nat ->
    tn = tm s (shift i k) + dm s (shift i k) ->
    (forall q, (q < nobj c)%nat -> rnd tn <= rnd (tm s q + dm s q)) ->
    (forall q, (q < shift i k)%nat -> rnd tn < rnd (tm s q + dm s q)) ->
    tn = tm s1 k + dm s1 k /\
    (forall q, (q < nobj c1)%nat -> rnd tn <= rnd (tm s1 q + dm s1 q)) /\
    (forall q, (q < k)%nat -> rnd tn < rnd (tm s1 q + dm s1 q)).
  Proof.
    intros R Hk Etn Hle Hlt.
    split; [rewrite (rel_tm s s1 k R), (rel_dm s s1 k R); exact Etn|]. split; intros q Hq.
    - rewrite (rel_tm s s1 q R), (rel_dm s s1 q R). apply Hle, shift_lt; assumption.
    - rewrite (rel_tm s s1 q R), (rel_dm s s1 q R). apply Hlt, shift_mono; assumption.
  Qed.

  Lemma push_fs sync k tn x s : fs (push c sync k tn x s) = fs s.
  Proof. unfold Proofs_Tracker.push, evolve_bunch. destruct (nth_error (bs s) k); reflexivity. Qed.
  Lemma sync_fs n tn s : fs (sync_upto c n tn s) = fs s.
  Proof. induction n as [|n IH]; [reflexivity|]. rewrite sync_S, push_fs. exact IH. Qed.
  Lemma step_fine s s1 s' : rel s s1 -> step c s = Continue s' -> fine (fs s') ->
    rel s' s1 \/ exists s1', step c1 s1 = Continue s1' /\ rel s' s1'.
  Proof.
    intros R H. apply step_inv in H; [|apply R].
    assert (No1 : nobj c1 = (nb c1 + nf c + if Nat.ltb 0 (c_ndiags c) then 1 else 0)%nat).
    { unfold nobj. rewrite objects_length. rewrite <- Nat.add_assoc. reflexivity. }
    destruct H as [k tn Hk Et Hle Hlt Hf|j tn Hj Et Hle Hlt Hf|tn Hd Et Hle Hlt Hf]; intros Fine.
    - destruct (Nat.eq_dec k i) as [->|Hne].
      + left. apply rel_other; assumption.
      + right. destruct (shift_onto k Hk Hne) as (q & Hq & ->).
        assert (Hq' : (q < nobj c1)%nat) by lia.
        destruct (pick_of s s1 q tn R Hq' Et Hle Hlt) as (E1 & L1 & L2).
        eexists. split.
        * apply step_pick; [apply R|exact Hq'|rewrite <- E1; exact L1|rewrite <- E1; exact L2|].
          rewrite <- E1. exact Hf.
        * rewrite (objects_bunch c1 q Hq). rewrite <- (rel_dm s s1 q R), <- E1.
          change (rel (push c false (shift i q) tn (dm s1 q) s) (push c1 false q tn (dm s1 q) s1)).
          apply rel_push; assumption.
    - right. assert (Hk : (nb c1 + j < nobj c1)%nat) by lia.
      rewrite <- shift_high in Et, Hlt.
      destruct (pick_of s s1 (nb c1 + j) tn R Hk Et Hle Hlt) as (E1 & L1 & L2).
      eexists. split.
      + apply step_pick; [apply R|exact Hk|rewrite <- E1; exact L1|rewrite <- E1; exact L2|].
        rewrite <- E1. exact Hf.
      + rewrite (objects_field c1 j Hj : nth_error (objects c1) (nb c1 + j) = _). rewrite <- E1.
        rewrite <- shift_high, <- (rel_dm s s1 _ R). apply rel_advance. apply rel_update; assumption.
    - right. assert (Hk : (nb c1 + nf c < nobj c1)%nat).
      { apply Nat.ltb_lt in Hdg. rewrite Hdg in No1. lia. }
      rewrite <- shift_high in Et, Hlt.
      destruct (pick_of s s1 (nb c1 + nf c) tn R Hk Et Hle Hlt) as (E1 & L1 & L2).
      eexists. split.
      + apply step_pick; [apply R|exact Hk|rewrite <- E1; exact L1|rewrite <- E1; exact L2|].
        rewrite <- E1. exact Hf.
      + rewrite (objects_diag c1 Hdg : nth_error (objects c1) (nb c1 + nf c) = _). rewrite <- E1.
        rewrite <- shift_high, <- (rel_dm s s1 _ R). apply rel_advance. apply rel_diag.
        change (c_push_before c1) with (c_push_before c).
        destruct (c_push_before c); [|assumption].
        pose proof (rel_sync (nb c) tn s s1 R (le_n _)) as H.
        pose proof i_nb as X. destruct (Nat.ltb_spec i (nb c)); [|lia].
        rewrite nb_1 in H at 2. exact H.
  Qed.
  (** Fields that have failed stay so. *)
  Lemma step_back s s' : wfs B F c s -> step c s = Continue s' -> fine (fs s') -> fine (fs s).
  Proof.
    intros W H. apply step_inv in H; [|exact W].
    destruct H as [k tn Hk Et Hle Hlt Hf|j tn Hj Et Hle Hlt Hf|tn Hd Et Hle Hlt Hf]; intros Fine.
    - rewrite push_fs in Fine. exact Fine.
    - apply Hback in Fine. exact Fine.
    - cbn in Fine. destruct (c_push_before c); [|exact Fine]. change (fine (fs (sync_upto c (nb c) tn s))) in Fine.
      rewrite sync_fs in Fine. exact Fine.
  Qed.
  Lemma loop_back fuel : forall s s', wfs B F c s -> loop fuel c s = Done s' -> fine (fs s') -> fine (fs s).
  Proof.
    induction fuel as [|fuel IH]; intros s s' W H Fine; cbn [Model_Tracker.loop] in H; [discriminate|].
    destruct (step c s) as [u|u|] eqn:E; [| |discriminate].
    - apply (step_back s u W E), (IH u s'); [|exact H|exact Fine].
      apply (step_wf _ _ _ _ _ _ _ _ _ _ W E).
    - injection H as <-. apply step_done in E as (-> & _); [exact Fine|exact W].
  Qed.
  Lemma rel_done s s1 s' : rel s s1 -> step c s = Done s' -> s' = s /\ step c1 s1 = Done s1.
  Proof.
    intros R H. apply step_done in H as (-> & Hall); [|apply R].
    split; [reflexivity|]. apply step_stop; [apply R|exact nobj_pos|].
    intros q Hq. rewrite (rel_tm s s1 q R), (rel_dm s s1 q R). apply Hall, shift_lt, Hq.
  Qed.
  Lemma rel_loop fuel : forall s s1 s', rel s s1 -> loop fuel c s = Done s' -> fine (fs s') ->
    exists fuel1 s1', loop fuel1 c1 s1 = Done s1' /\ rel s' s1'.
  Proof.
    induction fuel as [|fuel IH]; intros s s1 s' R H Fine; cbn [Model_Tracker.loop] in H; [discriminate|].
    destruct (step c s) as [u|u|] eqn:E; [| |discriminate].
    - assert (Wu : wfs B F c u) by apply (step_wf _ _ _ _ _ _ _ _ _ _ (q_wf _ _ R) E).
      destruct (step_fine s s1 u R E (loop_back fuel u s' Wu H Fine)) as [R'|(s1' & E1 & R')].
      + apply (IH u s1); assumption.
      + destruct (IH u s1' s' R' H Fine) as (f1 & r1 & Hl & Hr).
        exists (S f1), r1. split; [|exact Hr]. cbn [Model_Tracker.loop]. rewrite E1. exact Hl.
    - injection H as <-. destruct (rel_done s s1 u R E) as (-> & E1).
      exists 1%nat, s1. split; [|exact R]. cbn [Model_Tracker.loop]. rewrite E1. reflexivity.
  Qed.

  Lemma initial_dtb_without (dtb : list (option Q)) : forall k (l : list B), length l = length dtb ->
    initial_dtb B auto_dt (without k dtb) (without k l) = without k (initial_dtb B auto_dt dtb l).
  Proof.
    induction dtb as [|d dtb IH]; intros k [|b l] H; try discriminate.
    - cbn. rewrite !without_nil. reflexivity.
    - destruct k as [|k]; [reflexivity|]. rewrite !without_cons. cbn [initial_dtb]. rewrite without_cons, IH; [reflexivity|].
      cbn in H. lia.
  Qed.
  Lemma initial_dt_without l : length l = length (c_dtb c) ->
    initial_dt B auto_dt c1 (without i l) = without i (initial_dt B auto_dt c l).
  Proof.
    intros H. unfold initial_dt. rewrite without_app by (rewrite initial_dtb_length; assumption).
    change (c_dtb c1) with (without i (c_dtb c)). rewrite initial_dtb_without by exact H. reflexivity.
  Qed.
  Lemma rel_start bs0 fs0 b : length bs0 = length (c_dtb c) -> nth_error bs0 i = Some b -> unseen b ->
    fine (fs (start B F update auto_dt c bs0 fs0)) ->
    rel (start B F update auto_dt c bs0 fs0) (start B F update auto_dt c1 (without i bs0) fs0).
  Proof.
    intros Hl Hb Hx Fine.
    assert (W : forall c bs0, length bs0 = length (c_dtb c) ->
              wfs B F c (start B F update auto_dt c bs0 fs0)).
    { intros c' bs' H'. rewrite start_eq.
      split; cbn; rewrite ?map_length, ?initial_dt_length by assumption;
        try reflexivity; assumption. }
    assert (Hl1 : length (without i bs0) = length (c_dtb c1)).
    { change (c_dtb c1) with (without i (c_dtb c)). apply Nat.succ_inj.
      rewrite <- !without_length; [exact Hl|exact Hi|rewrite Hl; exact Hi]. }
    split; try (apply W; assumption); rewrite start_eq in Fine; rewrite !start_eq; cbn [bs fs out log tobj dtobj] in *.
    - rewrite initial_dt_without, without_map by exact Hl. reflexivity.
    - rewrite initial_dt_without by exact Hl. reflexivity.
    - reflexivity.
    - unfold fs_start in *. rewrite nf_1. revert Fine. generalize (nf c). intros n. induction n as [|n IH]; [reflexivity|].
      rewrite seq_S, !fold_left_app. cbn [fold_left]. intros Fine. rewrite IH by (apply Hback in Fine; exact Fine).
      symmetry. apply (Hupdate _ _ _ b Hb Hx Fine).
    - rewrite without_map. reflexivity.
    - intros b0 H0. rewrite Hb in H0. injection H0 as <-. exact Hx.
    - intros k. rewrite !pushes_fields. reflexivity.
    - intros j. reflexivity.
    - reflexivity.
  Qed.

  Lemma skip_lemma fuel bs0 fs0 b s : length bs0 = length (c_dtb c) ->
    nth_error bs0 i = Some b -> unseen b ->
    do_tracking B F evolve update auto_dt copy rnd fuel c bs0 fs0 = Done s -> fine (fs s) ->
    exists fuel1 s1,
      do_tracking B F evolve update auto_dt copy rnd fuel1 c1 (without i bs0) fs0 = Done s1 /\
      rel s s1.
  Proof.
    intros Hl Hb Hx H Fine. unfold do_tracking in *.
    change (c_ndiags c1) with (c_ndiags c).
    assert (E : exists n, c_ndiags c = S n) by (destruct (c_ndiags c) as [|n]; [lia|eauto]).
    destruct E as [n E]. rewrite E in H |- *.
    assert (Fs : fine (fs (start B F update auto_dt c bs0 fs0))).
    { apply (loop_back fuel (generate_diagnostics 0 (start B F update auto_dt c bs0 fs0)) s); [|exact H|exact Fine].
      apply diag_wf. rewrite start_eq.
      split; cbn; rewrite ?map_length, ?initial_dt_length by assumption; try reflexivity; assumption. }
    eapply rel_loop; [|exact H|exact Fine]. apply rel_diag, (rel_start bs0 fs0 b); assumption.
  Qed.
End Skip.
