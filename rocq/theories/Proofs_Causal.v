(** Two runs of the tracker that are related ahead of a position, which moves with the updates. *)
From Coq Require Import QArith Reals List Bool Arith Lia Lra.
From Verif Require Import Model_Tracker Spec_Tracker Spec_Sim Proofs_Sim Spec_Causal.
Import ListNotations.
Open Scope R_scope.

Lemma forall2_impl {A C} (P Q : A -> C -> Prop) l l' : (forall a b, P a b -> Q a b) -> Forall2 P l l' -> Forall2 Q l l'.
Proof. intros H. induction 1; constructor; auto. Qed.

Lemma forall2_length {A C} (P : A -> C -> Prop) l l' : Forall2 P l l' -> length l = length l'.
Proof. induction 1; cbn; auto. Qed.

Section Moving.
  Variables B F : Type.
  Variable evolve : F -> B -> Q -> Q -> B.
  Variable update : nat -> F -> list B -> F.
  Variable auto_dt : B -> Q.
  Variable copy : B -> B.
  Variable rnd : Q -> Q.
  Variable r : R -> B -> B -> Prop.
  Variable rf : R -> F -> F -> Prop.
  Variable cells : list R.
  Hypothesis Hcells : forall d, In d cells -> 0 <= d.
  Hypothesis Hmono : forall x y b b', x <= y -> r x b b' -> r y b b'.
  Hypothesis Hevolve : forall x f f' b b' t dt, (0 <= dt)%Q -> rf x f f' -> r x b b' -> r x (evolve f b t dt) (evolve f' b' t dt).
  Hypothesis Hupdate : forall x j f f' l l', rf x f f' -> Forall2 (r x) l l' ->
    rf (x + 5 * nth j cells 0) (update j f l) (update j f' l').
  Hypothesis Hcopy : forall x b b', r x b b' -> r x (copy b) (copy b').
  Variable c : config.
  Hypothesis Hfixed : ~ In None (c_dtb c).
  Variable N : nat.
  Variable x0 : R.
  Notation fr := (frontier cells x0).

  Lemma step_nonneg j : 0 <= nth j cells 0.
  Proof. destruct (nth_in_or_default j cells 0) as [H|H]; [apply Hcells, H|lra]. Qed.
  Lemma frontier_app l l' : forall x, frontier cells x (l ++ l') = frontier cells (frontier (B:=B) cells x l) l'.
  Proof. induction l as [|[i t d y|j t|t sn] l IH]; intros x; cbn; auto. Qed.
  (** Pushes go forward in time. *)
  Definition forward (l : list (event B)) : Prop :=
    forall i t d y, In (EPush i t d y) l -> (i < N)%nat -> (0 <= d)%Q.
  Lemma forward_app l l' : forward (l ++ l') -> forward l.
  Proof. intros H i t d y Hi. apply (H i t d y). apply in_or_app. left. exact Hi. Qed.
  Definition event_rel (l : list (event B)) (e e' : event B) : Prop :=
    match e, e' with
    | EPush i t d y, EPush i' t' d' y' => i = i' /\ t = t' /\ d = d' /\ y = y'
    | EField j t, EField j' t' => j = j' /\ t = t'
    | EDiag t sn, EDiag t' sn' => t = t' /\ (forward l -> Forall2 (r (fr l)) sn sn')
    | _, _ => False
    end.
  Inductive logs : list (event B) -> list (event B) -> Prop :=
  | logs_nil : logs [] []
  | logs_snoc l l' e e' : logs l l' -> event_rel l e e' -> logs (l ++ [e]) (l' ++ [e']).
  Record srel (s s' : state B F) : Prop := mksr {
    sr_t : tobj s = tobj s';
    sr_d : dtobj s = dtobj s';
    sr_n : length (bs s) = N;
    sr_n' : length (bs s') = N;
    sr_log : logs (log s) (log s');
    sr_now : forward (log s) -> Forall2 (r (fr (log s))) (bs s) (bs s') /\ rf (fr (log s)) (fs s) (fs s') /\
      Forall2 (Forall2 (r (fr (log s)))) (out s) (out s') }.

  Lemma upd_length {A} i (v : A) l : length (upd i v l) = length l.
  Proof. revert i. induction l as [|a l IH]; intros [|i]; cbn; auto. Qed.
  Lemma not_auto i : is_auto c i = false.
  Proof.
    unfold is_auto. destruct (nth_error (c_dtb c) i) as [[d|]|] eqn:E; try reflexivity.
    apply nth_error_In in E. contradiction.
  Qed.
  Lemma evolve_moving sync i t t' dt s s' : srel s s' ->
    srel (evolve_bunch B F evolve auto_dt rnd c sync i t t' dt s) (evolve_bunch B F evolve auto_dt rnd c sync i t t' dt s').
  Proof.
    intros [Ht Hd Hn Hn' Hl Hr]. unfold evolve_bunch.
    destruct (nth_error (bs s) i) as [b|] eqn:E, (nth_error (bs s') i) as [b'|] eqn:E'.
    2:{ apply nth_error_None in E'. assert (X : nth_error (bs s) i <> None) by congruence. apply nth_error_Some in X. lia. }
    2:{ apply nth_error_None in E. assert (X : nth_error (bs s') i <> None) by congruence. apply nth_error_Some in X. lia. }
    2:{ constructor; assumption. }
    assert (Hi : (i < N)%nat) by (rewrite <- Hn; apply nth_error_Some; congruence).
    rewrite not_auto. constructor; cbn; try assumption.
    - rewrite Hd. reflexivity.
    - rewrite upd_length. exact Hn.
    - rewrite upd_length. exact Hn'.
    - constructor; [exact Hl|]. repeat split.
    - intros Hf. pose proof (forward_app _ _ Hf) as Hf'. destruct (Hr Hf') as (R1 & R2 & R3).
      rewrite frontier_app. cbn [frontier]. split; [|split; assumption].
      apply forall2_upd; [exact R1|]. apply Hevolve; [|exact R2|].
      + apply (Hf i t dt sync); [|exact Hi]. apply in_or_app. right. left. reflexivity.
      + pose proof (forall2_nth _ _ _ R1 i) as X. rewrite E, E' in X. exact X.
  Qed.
  Lemma diagnostics_moving t s s' : srel s s' ->
    srel (generate_diagnostics B F copy t s) (generate_diagnostics B F copy t s').
  Proof.
    intros [Ht Hd Hn Hn' Hl Hr]. constructor; cbn; try assumption.
    - constructor; [exact Hl|]. split; [reflexivity|]. intros Hf. destruct (Hr Hf) as (R1 & _).
      eapply forall2_map; [|exact R1]. apply Hcopy.
    - intros Hf. apply forward_app in Hf. destruct (Hr Hf) as (R1 & R2 & R3).
      rewrite frontier_app. cbn [frontier]. split; [exact R1|split; [exact R2|]].
      apply append_related; [|exact R3|exact R1]. apply Hcopy.
  Qed.
  Lemma update_moving t j s s' : srel s s' -> srel (update_field B F update t j s) (update_field B F update t j s').
  Proof.
    intros [Ht Hd Hn Hn' Hl Hr]. constructor; cbn; try assumption.
    - constructor; [exact Hl|]. split; reflexivity.
    - intros Hf. apply forward_app in Hf. destruct (Hr Hf) as (R1 & R2 & R3).
      rewrite frontier_app. cbn [frontier]. pose proof (step_nonneg j) as Hj.
      assert (M : forall b b', r (fr (log s)) b b' -> r (fr (log s) + 5 * nth j cells 0) b b') by (intros b b'; apply Hmono; lra).
      split; [|split].
      + eapply forall2_impl; [|exact R1]. exact M.
      + apply Hupdate; assumption.
      + eapply forall2_impl; [|exact R3]. intros u v H. eapply forall2_impl; [|exact H]. exact M.
  Qed.
  Lemma advance_moving i d s s' : srel s s' -> srel (advance B F i d s) (advance B F i d s').
  Proof. intros [Ht Hd Hn Hn' Hl Hr]. constructor; cbn; try assumption. rewrite Ht. reflexivity. Qed.
  Lemma push_to_moving t l : forall s s', srel s s' ->
    srel (fold_left (push_to B F evolve auto_dt rnd c t) l s) (fold_left (push_to B F evolve auto_dt rnd c t) l s').
  Proof.
    induction l as [|i l IH]; intros s s' H; [exact H|]. cbn [fold_left]. apply IH.
    unfold push_to. rewrite <- (sr_t _ _ H). apply advance_moving, evolve_moving, H.
  Qed.
  Definition orel (o o' : Model_Tracker.outcome B F) : Prop :=
    match o, o' with
    | Continue s, Continue s' => srel s s'
    | Model_Tracker.Done s, Model_Tracker.Done s' => srel s s'
    | Model_Tracker.Raise e s, Model_Tracker.Raise e' s' => e = e' /\ srel s s'
    | _, _ => False
    end.
  Lemma step_moving s s' : srel s s' ->
    orel (step B F evolve update auto_dt copy rnd c s) (step B F evolve update auto_dt copy rnd c s').
  Proof.
    intros H. pose proof (sr_t _ _ H) as Ht. pose proof (sr_d _ _ H) as Hd.
    unfold step. rewrite <- Ht, <- Hd.
    destruct (argmin _) as [i|]; [|split; [reflexivity|exact H]]. cbv zeta.
    destruct (Qltb _ _); [exact H|]. cbn [orel]. apply advance_moving.
    destruct (nth_error (objects c) i) as [[k|j|]|]; [| | |exact H].
    - apply evolve_moving, H.
    - apply update_moving, H.
    - apply diagnostics_moving. destruct (c_push_before c); [|exact H]. apply push_to_moving, H.
  Qed.
  Lemma loop_moving fuel : forall s s', srel s s' ->
    orel (loop B F evolve update auto_dt copy rnd fuel c s) (loop B F evolve update auto_dt copy rnd fuel c s').
  Proof.
    induction fuel as [|k IH]; intros s s' H; [split; [reflexivity|exact H]|].
    cbn [loop]. pose proof (step_moving s s' H) as E.
    destruct (step _ _ _ _ _ _ _ c s) as [u|u|e u], (step _ _ _ _ _ _ _ c s') as [u'|u'|e' u'];
      try contradiction; [apply IH, E|exact E|exact E].
  Qed.
  Lemma initial_moving l l' : length l = length l' -> forall d, ~ In None d ->
    initial_dtb B auto_dt d l = initial_dtb B auto_dt d l'.
  Proof.
    revert l'. induction l as [|b l IH]; intros [|b' l'] H [|d ds] Hd; try discriminate; try reflexivity. cbn.
    destruct d as [d|]; [|exfalso; apply Hd; left; reflexivity]. f_equal. apply IH; [cbn in H; lia|].
    intros Hn. apply Hd. right. exact Hn.
  Qed.
  Lemma start_moving l l' f f' : length l = N -> rf x0 f f' -> Forall2 (r x0) l l' ->
    srel (start B F update auto_dt c l f) (start B F update auto_dt c l' f').
  Proof.
    intros HN Hf H. assert (Hl : length l = length l') by (eapply forall2_length; exact H).
    unfold start, initial_dt. rewrite (initial_moving l l' Hl _ Hfixed).
    match goal with |- srel (fold_left _ _ ?a) (fold_left _ _ ?b) => assert (E : srel a b) end.
    { constructor; cbn; try reflexivity; try assumption; try lia; try constructor.
      - exact H.
      - split; [exact Hf|]. eapply forall2_map; [|exact H]. constructor. }
    revert E. match goal with |- srel ?a ?b -> _ => generalize a, b end.
    induction (seq 0 (n_fields c)) as [|j js IH]; intros s s' E; [exact E|].
    cbn [fold_left]. apply IH. apply update_moving, E.
  Qed.
  Lemma run_moving fuel l l' f f' : length l = N -> rf x0 f f' -> Forall2 (r x0) l l' ->
    orel (do_tracking B F evolve update auto_dt copy rnd fuel c l f)
         (do_tracking B F evolve update auto_dt copy rnd fuel c l' f').
  Proof.
    intros HN Hf H. unfold do_tracking. pose proof (start_moving l l' f f' HN Hf H) as E.
    destruct (c_ndiags c).
    - destruct H; [|split; [reflexivity|exact E]].
      pose proof (loop_moving fuel _ _ E) as L.
      destruct (loop B F _ _ _ _ _ _ c _) as [u|u|e u], (loop B F _ _ _ _ _ _ c _) as [u'|u'|e' u']; try contradiction;
        try exact L. split; [reflexivity|exact L].
    - apply loop_moving, diagnostics_moving, E.
  Qed.

  (** *** Logs *)
  Lemma logs_length l l' : logs l l' -> length l = length l'.
  Proof. induction 1; [reflexivity|]. rewrite !app_length, IHlogs. reflexivity. Qed.
  Lemma logs_nth l l' : logs l l' -> forall k e, nth_error l k = Some e ->
    exists e', nth_error l' k = Some e' /\ event_rel (firstn k l) e e'.
  Proof.
    induction 1 as [|l l' e e' H IH He]; intros k u Hk; [destruct k; discriminate|].
    pose proof (logs_length _ _ H) as HL.
    destruct (Nat.lt_ge_cases k (length l)) as [K|K].
    - rewrite nth_error_app1 in Hk by exact K. destruct (IH k u Hk) as (v & Hv & Hr). exists v.
      rewrite nth_error_app1 by lia. split; [exact Hv|].
      rewrite firstn_app. replace (k - length l)%nat with 0%nat by lia. cbn. rewrite app_nil_r. exact Hr.
    - rewrite nth_error_app2 in Hk by exact K. destruct (k - length l)%nat as [|q] eqn:Eq; [|destruct q; discriminate].
      injection Hk as <-. exists e'. rewrite nth_error_app2 by lia. replace (k - length l')%nat with 0%nat by lia.
      split; [reflexivity|]. rewrite firstn_app. replace (k - length l)%nat with 0%nat by lia.
      cbn. rewrite app_nil_r, firstn_all2 by lia. exact He.
  Qed.
  Lemma forward_firstn k l : forward l -> forward (firstn k l).
  Proof. intros H. apply (forward_app _ (skipn k l)). rewrite firstn_skipn. exact H. Qed.
  (** The frontier is the same in both logs. *)
  Lemma logs_frontier l l' : logs l l' -> forall x, frontier cells x l = frontier cells x l'.
  Proof.
    induction 1 as [|l l' e e' H IH He]; intros x; [reflexivity|]. rewrite !frontier_app, <- IH.
    destruct e, e'; cbn in He; try contradiction; cbn; try reflexivity. destruct He as [-> _]. reflexivity.
  Qed.
End Moving.
