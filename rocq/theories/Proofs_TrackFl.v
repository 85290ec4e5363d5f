(** Tracking with rounded times: outputs and updates are ticks. *)
From Coq Require Import QArith Qround List Bool Arith ZArith Lia Lqa.
From Verif Require Import Model_Tracker Spec_Tracker Proofs_Tracker Model_TrackFl Spec_TrackFl.
Import ListNotations.
Open Scope Q_scope.

Lemma seq_snoc a n : seq a (S n) = seq a n ++ [(a + n)%nat].
Proof. apply seq_S. Qed.

Section Loop.
  Variables B F : Type.
  Variable evolve : F -> B -> Q -> Q -> B.
  Variable update : nat -> F -> list B -> F.
  Variable auto_dt : B -> Q.
  Variable copy : B -> B.
  Variable fl rnd : Q -> Q.
  Notation evolve_bunch := (evolve_bunch_fl B F evolve auto_dt fl rnd).
  Notation advance := (advance_fl B F fl).
  Notation push_to := (push_to_fl B F evolve auto_dt fl rnd).
  Notation step := (step_fl B F evolve update auto_dt copy fl rnd).
  Notation loop := (loop_fl B F evolve update auto_dt copy fl rnd).
  Notation initial := (initial_dt_fl B auto_dt fl).
  Notation start := (start_fl B F update auto_dt fl).

  Variable c : config.
  Variable bs0 : list B.
  Variable fs0 : F.
  Hypothesis Hlen : length bs0 = length (c_dtb c).
  Hypothesis Hnd : (0 < c_ndiags c)%nat.
  Notation nb := (n_bunches c).
  Notation T := (c_tfinal c).

  (** The new time step of a bunch evolved up to [tn]. *)
  Definition new_step (i : nat) (tn d d' : Q) : Prop :=
    exists a, (a = d /\ is_auto c i = false \/ is_auto c i = true /\ exists b, a = auto_dt b) /\
      d' = if negb (Qeq_bool (rnd tn) (rnd T)) && Qltb T (fl (tn + a)) then fl (T - tn) else a.

  Definition shape (s : state B F) : Prop :=
    length (tobj s) = length (objects c) /\ length (dtobj s) = length (objects c) /\ length (bs s) = nb.

  Lemma obj_len : length (objects c) = (nb + n_fields c + 1)%nat.
  Proof. rewrite objects_length. apply Nat.ltb_lt in Hnd. rewrite Hnd. lia. Qed.

  Lemma evolve_shape sync i t tn d s : shape s -> shape (evolve_bunch c sync i t tn d s).
  Proof.
    intros (A & A2 & A3). unfold evolve_bunch_fl. destruct (nth_error (bs s) i); [|repeat split; auto].
    unfold shape; cbn. repeat split; auto.
    - destruct (negb _ && _), (is_auto c i); rewrite ?upd_length; auto.
    - rewrite upd_length. auto.
  Qed.
  Lemma advance_shape i d s : shape s -> shape (advance i d s).
  Proof. intros (A & A2 & A3). unfold shape, advance_fl; cbn. rewrite upd_length. auto. Qed.
  Lemma push_shape tn s i : shape s -> shape (push_to c tn s i).
  Proof. intros A. unfold push_to_fl. apply advance_shape, evolve_shape, A. Qed.

  (** What a push of bunch [i] does to the clocks and to the log. *)
  Record pushed (sync : bool) (i : nat) (t tn d : Q) (s s' : state B F) : Prop := {
    p_clock : nth i (tobj s') 0 = fl (t + d);
    p_clocks : forall k, k <> i -> nth k (tobj s') 0 = nth k (tobj s) 0;
    p_step : new_step i tn (nth i (dtobj s) 0) (nth i (dtobj s') 0);
    p_steps : forall k, k <> i -> nth k (dtobj s') 0 = nth k (dtobj s) 0;
    p_log : log s' = log s ++ [EPush i t d sync] }.

  Lemma evolve_advance sync i tn d s : shape s -> (i < nb)%nat ->
    pushed sync i (nth i (tobj s) 0) tn d s
      (advance i d (evolve_bunch c sync i (nth i (tobj s) 0) tn d s)).
  Proof.
    intros (A & A2 & A3) Hi. pose proof obj_len as L.
    assert (E : tobj (evolve_bunch c sync i (nth i (tobj s) 0) tn d s) = tobj s).
    { unfold evolve_bunch_fl. destruct (nth_error (bs s) i); reflexivity. }
    destruct (nth_error (bs s) i) as [b|] eqn:Eb; [|apply nth_error_None in Eb; lia].
    split.
    - unfold advance_fl; cbn. rewrite E, upd_nth_same by lia. reflexivity.
    - intros k Hk. unfold advance_fl; cbn. rewrite E, upd_nth_other by assumption. reflexivity.
    - unfold new_step. unfold advance_fl, evolve_bunch_fl; rewrite Eb; cbn.
      destruct (is_auto c i) eqn:Ea.
      + exists (auto_dt (evolve (fs s) b (nth i (tobj s) 0) d)). split; [right; eauto|].
        rewrite upd_nth_same by lia. destruct (negb _ && _).
        * rewrite upd_nth_same; [reflexivity|rewrite upd_length; lia].
        * rewrite upd_nth_same by lia. reflexivity.
      + exists (nth i (dtobj s) 0). split; [left; auto|].
        destruct (negb _ && _); [rewrite upd_nth_same by lia|]; reflexivity.
    - intros k Hk. unfold advance_fl, evolve_bunch_fl; rewrite Eb; cbn.
      destruct (negb _ && _), (is_auto c i); rewrite ?upd_nth_other by assumption; reflexivity.
    - unfold advance_fl, evolve_bunch_fl; rewrite Eb; cbn. reflexivity.
  Qed.

  (** The pushes that precede an output. *)
  Lemma fold_push tn : forall m s, shape s -> (m <= nb)%nat ->
    let s' := fold_left (push_to c tn) (seq 0 m) s in
    shape s' /\
    (forall k, (m <= k)%nat -> nth k (tobj s') 0 = nth k (tobj s) 0 /\ nth k (dtobj s') 0 = nth k (dtobj s) 0 /\
        pushes k (log s') = pushes k (log s)) /\
    (forall i, (i < m)%nat ->
        let t := nth i (tobj s) 0 in
        nth i (tobj s') 0 = fl (t + fl (tn - t)) /\ new_step i tn (nth i (dtobj s) 0) (nth i (dtobj s') 0) /\
        pushes i (log s') = pushes i (log s) ++ [(t, fl (tn - t))]) /\
    diag_times (log s') = diag_times (log s) /\
    (forall j, field_times j (log s') = field_times j (log s)).
  Proof.
    induction m as [|m IH]; intros s Hs Hm s'.
    - cbn in s'. subst s'. repeat split; auto; try apply Hs; intros; lia.
    - destruct (IH s Hs ltac:(lia)) as (S1 & K1 & I1 & D1 & F1).
      set (s1 := fold_left (push_to c tn) (seq 0 m) s) in *.
      assert (E : s' = push_to c tn s1 m).
      { subst s' s1. rewrite seq_snoc, fold_left_app. reflexivity. }
      assert (P : pushed true m (nth m (tobj s1) 0) tn (fl (tn - nth m (tobj s1) 0)) s1 s').
      { rewrite E. apply evolve_advance; [exact S1|lia]. }
      destruct (K1 m (Nat.le_refl m)) as (K2 & K3 & K4).
      destruct P as [P1 P2 P3 P4 P5].
      split; [rewrite E; apply push_shape, S1|]. split; [|split; [|split]].
      + intros k Hk. destruct (K1 k ltac:(lia)) as (L1 & L2 & L3).
        rewrite P2, P4 by lia. repeat split; auto. rewrite P5, pushes_app. cbn.
        destruct (Nat.eqb_spec m k); [lia|]. rewrite app_nil_r. exact L3.
      + intros i Hi t. destruct (Nat.eq_dec i m) as [->|Hne].
        * subst t. rewrite P1, P5, pushes_app, K2. cbn. rewrite Nat.eqb_refl, K4. repeat split.
          rewrite <- K3. exact P3.
        * destruct (I1 i ltac:(lia)) as (L1 & L2 & L3). rewrite P2, P4 by assumption. repeat split; auto.
          rewrite P5, pushes_app. cbn. destruct (Nat.eqb_spec m i); [lia|]. rewrite app_nil_r. exact L3.
      + rewrite P5, diag_times_app, D1. cbn. apply app_nil_r.
      + intros j. rewrite P5, field_times_app, F1. cbn. apply app_nil_r.
  Qed.

  (** One iteration of the loop, seen from the objects. *)
  Inductive happens (s s' : state B F) : Prop :=
  | h_bunch i : (i < nb)%nat ->
      rnd (fl (nth i (tobj s) 0 + nth i (dtobj s) 0)) <= rnd T ->
      pushed false i (nth i (tobj s) 0) (fl (nth i (tobj s) 0 + nth i (dtobj s) 0)) (nth i (dtobj s) 0) s s' ->
      happens s s'
  | h_field j tn : (j < n_fields c)%nat -> tn = fl (nth (nb + j) (tobj s) 0 + nth (nb + j) (dtobj s) 0) ->
      rnd tn <= rnd T ->
      nth (nb + j) (tobj s') 0 = tn ->
      (forall k, k <> (nb + j)%nat -> nth k (tobj s') 0 = nth k (tobj s) 0) ->
      dtobj s' = dtobj s -> log s' = log s ++ [EField j tn] -> happens s s'
  | h_diag tn : tn = fl (nth (nb + n_fields c) (tobj s) 0 + nth (nb + n_fields c) (dtobj s) 0) ->
      rnd tn <= rnd T ->
      nth (nb + n_fields c) (tobj s') 0 = tn ->
      (forall k, (nb <= k)%nat -> k <> (nb + n_fields c)%nat -> nth k (tobj s') 0 = nth k (tobj s) 0) ->
      (forall k, (nb <= k)%nat -> nth k (dtobj s') 0 = nth k (dtobj s) 0) ->
      diag_times (log s') = diag_times (log s) ++ [tn] ->
      (forall j, field_times j (log s') = field_times j (log s)) ->
      (forall i, (i < nb)%nat ->
         let t := nth i (tobj s) 0 in
         if c_push_before c then
           nth i (tobj s') 0 = fl (t + fl (tn - t)) /\ new_step i tn (nth i (dtobj s) 0) (nth i (dtobj s') 0) /\
           pushes i (log s') = pushes i (log s) ++ [(t, fl (tn - t))]
         else nth i (tobj s') 0 = t /\ nth i (dtobj s') 0 = nth i (dtobj s) 0 /\ pushes i (log s') = pushes i (log s)) ->
      happens s s'.

  Lemma step_happens s s' : shape s -> step c s = Continue s' -> shape s' /\ happens s s'.
  Proof.
    intros Hs H. pose proof Hs as (A1 & A2 & A3). pose proof obj_len as L. unfold step_fl in H.
    destruct (argmin _) as [k|] eqn:Ea; [|discriminate].
    destruct (argmin_spec _ _ Ea) as (Hk & _). unfold next_times in Hk. rewrite !map_length, vadd_length in Hk by lia.
    assert (Et : nth k (next_times fl (tobj s) (dtobj s)) 0 = fl (nth k (tobj s) 0 + nth k (dtobj s) 0)).
    { unfold next_times. rewrite (nth_indep _ 0 (fl 0)) by (rewrite map_length, vadd_length; lia).
      rewrite map_nth, vadd_nth by lia. reflexivity. }
    rewrite Et in H.
    destruct (Qltb (rnd T) (rnd _)) eqn:Eb; [discriminate|]. apply Qltb_false in Eb.
    destruct (index_cases c k ltac:(lia)) as [Hb|[(j & Hj & ->)|(-> & _)]].
    - rewrite objects_bunch in H by assumption. injection H as <-.
      split; [apply advance_shape, evolve_shape, Hs|].
      apply (h_bunch _ _ k); auto. apply evolve_advance; auto.
    - rewrite objects_field in H by assumption. injection H as <-.
      split; [apply advance_shape; repeat split; auto|].
      apply (h_field _ _ j _ Hj eq_refl Eb); cbn; auto.
      + rewrite upd_nth_same by lia. reflexivity.
      + intros k Hk'. apply upd_nth_other; assumption.
    - rewrite objects_diag in H by assumption. injection H as <-.
      set (tn := fl _) in *.
      destruct (c_push_before c) eqn:Ep.
      + destruct (fold_push tn nb s Hs (Nat.le_refl _)) as (S1 & K1 & I1 & D1 & F1).
        set (s1 := fold_left _ _ s) in *.
        split; [apply advance_shape; destruct S1 as (? & ? & ?); repeat split; auto|].
        apply (h_diag _ _ tn eq_refl Eb); cbn; try rewrite Ep.
        * rewrite upd_nth_same by (destruct S1; lia). rewrite (proj1 (K1 _ (Nat.le_add_r _ _))). reflexivity.
        * intros k' Hk' Hn. rewrite upd_nth_other by assumption. apply (K1 k' Hk').
        * intros k' Hk'. apply (K1 k' Hk').
        * rewrite diag_times_app, D1. reflexivity.
        * intros j. rewrite field_times_app, F1. cbn. apply app_nil_r.
        * intros i Hi. destruct (I1 i Hi) as (L1 & L2 & L3).
          rewrite upd_nth_other by lia. repeat split; auto. rewrite pushes_app, L3. cbn. apply app_nil_r.
      + split; [apply advance_shape; repeat split; auto|].
        apply (h_diag _ _ tn eq_refl Eb); cbn; try rewrite Ep; auto.
        * rewrite upd_nth_same by lia. reflexivity.
        * intros k' Hk' Hn. rewrite upd_nth_other by assumption. reflexivity.
        * rewrite diag_times_app. reflexivity.
        * intros j. rewrite field_times_app. cbn. apply app_nil_r.
        * intros i Hi. rewrite upd_nth_other by lia. repeat split. rewrite pushes_app. cbn. apply app_nil_r.
  Qed.

  (** ** The initial state *)
  Notation begin := (generate_diagnostics B F copy 0 (start c bs0 fs0)).
  Lemma initial_len : length (initial c bs0) = length (objects c).
  Proof.
    rewrite objects_length. unfold initial_dt_fl. rewrite !app_length, initial_dtb_length by assumption.
    unfold dt_fields_fl. rewrite map_length. destruct (Nat.ltb 0 (c_ndiags c)); reflexivity.
  Qed.
  Lemma initial_field j d f : nth_error (c_fields c) j = Some (d, f) ->
    nth (nb + j) (initial c bs0) 0 = adjust_dt_fl fl f T d.
  Proof.
    intros Hj. assert (Hl : (j < length (c_fields c))%nat) by (apply nth_error_Some; congruence).
    unfold initial_dt_fl. rewrite app_nth2; rewrite initial_dtb_length by assumption; [|unfold n_bunches; lia].
    replace (nb + j - length (c_dtb c))%nat with j by (unfold n_bunches; lia).
    unfold dt_fields_fl. rewrite app_nth1 by (rewrite map_length; assumption).
    apply nth_error_nth. rewrite nth_error_map, Hj. reflexivity.
  Qed.
  Lemma initial_diag : nth (nb + n_fields c) (initial c bs0) 0 = dt_diags_fl fl c.
  Proof.
    unfold initial_dt_fl. rewrite app_nth2; rewrite initial_dtb_length by assumption; [|unfold n_bunches; lia].
    rewrite app_nth2; unfold dt_fields_fl; rewrite map_length; [|unfold n_bunches, n_fields; lia].
    replace (nb + n_fields c - length (c_dtb c) - length (c_fields c))%nat with 0%nat
      by (unfold n_bunches, n_fields; lia).
    apply Nat.ltb_lt in Hnd. rewrite Hnd. reflexivity.
  Qed.
  Lemma initial_bunch i d b : nth_error (c_dtb c) i = Some d -> nth_error bs0 i = Some b ->
    nth i (initial c bs0) 0 = match d with Some q => q | None => auto_dt b end.
  Proof.
    intros Hd Hb. unfold initial_dt_fl. assert (i < length bs0)%nat by (apply nth_error_Some; congruence).
    rewrite app_nth1 by (rewrite initial_dtb_length; lia). apply initial_dtb_nth; assumption.
  Qed.
  Lemma fold_update n s : let s' := fold_left (fun s j => update_field B F update 0 j s) (seq 0 n) s in
    tobj s' = tobj s /\ dtobj s' = dtobj s /\ bs s' = bs s /\
    log s' = log s ++ map (fun j => EField j 0) (seq 0 n).
  Proof.
    induction n as [|n IH]; cbn zeta in *.
    - cbn. rewrite app_nil_r. auto.
    - rewrite seq_snoc, fold_left_app. cbn. destruct IH as (A1 & A2 & A3 & A4). rewrite A1, A2, A3, A4.
      rewrite map_app, app_assoc. auto.
  Qed.
  Lemma field_times_start n : forall j, field_times (B := B) j (map (fun j => EField j 0) (seq 0 n)) =
    if Nat.ltb j n then [0] else [].
  Proof.
    induction n as [|n IH]; intros j; [reflexivity|].
    rewrite seq_snoc, map_app, field_times_app, IH. cbn [map field_times Nat.add].
    destruct (Nat.eqb_spec n j) as [->|Hn].
    - replace (Nat.ltb j j) with false by (symmetry; apply Nat.ltb_ge; lia).
      replace (Nat.ltb j (S j)) with true by (symmetry; apply Nat.ltb_lt; lia). reflexivity.
    - rewrite app_nil_r. destruct (Nat.ltb_spec j n), (Nat.ltb_spec j (S n)); auto; lia.
  Qed.
  Lemma pushes_start n i : pushes (B := B) i (map (fun j => EField j 0) (seq 0 n)) = [].
  Proof. induction (seq 0 n); cbn; auto. Qed.
  Lemma diag_times_start n : diag_times (B := B) (map (fun j => EField j 0) (seq 0 n)) = [].
  Proof. induction (seq 0 n); cbn; auto. Qed.

  Lemma begin_props : shape begin /\ tobj begin = map (fun _ => 0) (initial c bs0) /\ dtobj begin = initial c bs0 /\
    (forall i, pushes i (log begin) = []) /\ diag_times (log begin) = [0] /\
    (forall j, (j < n_fields c)%nat -> field_times j (log begin) = [0]).
  Proof.
    unfold start_fl. set (s0 := {| bs := bs0 |}).
    destruct (fold_update (n_fields c) s0) as (A1 & A2 & A3 & A4). cbn zeta in *. subst s0.
    set (s1 := fold_left _ _ _) in *. cbn in A1, A2, A3, A4.
    unfold shape; cbn. rewrite A1, A2, A3, A4, !map_length. pose proof initial_len. repeat split; auto.
    - intros i. rewrite pushes_app, pushes_start. reflexivity.
    - rewrite diag_times_app, diag_times_start. reflexivity.
    - intros j Hj. rewrite field_times_app, field_times_start. apply Nat.ltb_lt in Hj. rewrite Hj. reflexivity.
  Qed.

  (** ** Ticks *)
  (** Clock [k] has made ticks of length [d], listed in [l]. *)
  Definition ticking (s : state B F) (k : nat) (d : Q) (l : list Q) : Prop :=
    nth k (dtobj s) 0 = d /\
    exists n, nth k (tobj s) 0 = ticks fl d n /\ l = map (ticks fl d) (seq 0 (S n)) /\
      forall m, (1 <= m <= n)%nat -> rnd (ticks fl d m) <= rnd T.
  Lemma ticking_same s s' k d l : nth k (tobj s') 0 = nth k (tobj s) 0 -> nth k (dtobj s') 0 = nth k (dtobj s) 0 ->
    ticking s k d l -> ticking s' k d l.
  Proof. unfold ticking. intros -> ->. auto. Qed.
  Lemma ticking_more s s' k d l tn : ticking s k d l -> tn = fl (nth k (tobj s) 0 + nth k (dtobj s) 0) ->
    rnd tn <= rnd T -> nth k (tobj s') 0 = tn -> nth k (dtobj s') 0 = nth k (dtobj s) 0 -> ticking s' k d (l ++ [tn]).
  Proof.
    intros (A & n & A1 & A2 & A3) E Hr Et Ed. split; [congruence|]. exists (S n). rewrite A1, A in E.
    split; [rewrite Et, E; reflexivity|]. split.
    - rewrite A2, (seq_snoc 0 (S n)), map_app, E. reflexivity.
    - intros m Hm. destruct (Nat.eq_dec m (S n)) as [->|]; [cbn [ticks]; rewrite <- E; exact Hr|apply A3; lia].
  Qed.

  Definition Inv (s : state B F) : Prop :=
    shape s /\
    (forall j d f, nth_error (c_fields c) j = Some (d, f) ->
       ticking s (nb + j) (adjust_dt_fl fl f T d) (field_times j (log s))) /\
    ticking s (nb + n_fields c) (dt_diags_fl fl c) (diag_times (log s)).

  Lemma Inv_begin : Inv begin.
  Proof.
    destruct begin_props as (S1 & T1 & D1 & P1 & G1 & F1). split; [exact S1|].
    assert (Z : forall k, nth k (tobj begin) 0 = 0).
    { intros k. rewrite T1. apply (map_nth (fun _ : Q => 0) (initial c bs0) 0 k). }
    split.
    - intros j d f Hj. split; [rewrite D1; apply (initial_field j d f Hj)|].
      exists 0%nat. split; [apply Z|]. split; [apply F1; apply nth_error_Some; congruence|]. intros; lia.
    - split; [rewrite D1; apply initial_diag|]. exists 0%nat. split; [apply Z|]. split; [exact G1|]. intros; lia.
  Qed.

  Lemma Inv_step s s' : Inv s -> step c s = Continue s' -> Inv s'.
  Proof.
    intros (S1 & F1 & G1) H. destruct (step_happens s s' S1 H) as (S2 & Hh). split; [exact S2|].
    destruct Hh as [i Hi Hr [P1 P2 P3 P4 P5]|j tn Hj Et Hr P1 P2 P3 P4|tn Et Hr P1 P2 P3 P4 P5 P6].
    - split.
      + intros j d f Hj. rewrite P5, field_times_app. cbn. rewrite app_nil_r.
        apply (ticking_same s); [apply P2; lia|apply P4; lia|apply (F1 _ _ _ Hj)].
      + rewrite P5, diag_times_app. cbn. rewrite app_nil_r.
        apply (ticking_same s); [apply P2; lia|apply P4; lia|exact G1].
    - split.
      + intros j' d f Hj'. rewrite P4, field_times_app. cbn. destruct (Nat.eqb_spec j j') as [<-|Hn].
        * apply (ticking_more s s' (nb + j)); auto. rewrite P3. reflexivity.
        * rewrite app_nil_r. apply (ticking_same s); [apply P2; lia|rewrite P3; reflexivity|apply (F1 _ _ _ Hj')].
      + rewrite P4, diag_times_app. cbn. rewrite app_nil_r.
        apply (ticking_same s); [apply P2; lia|rewrite P3; reflexivity|exact G1].
    - split.
      + intros j d f Hj. assert (j < n_fields c)%nat by (apply nth_error_Some; unfold n_fields in *; congruence).
        rewrite P5. apply (ticking_same s); [apply P2; lia|apply P3; lia|apply (F1 _ _ _ Hj)].
      + rewrite P4. apply (ticking_more s s' (nb + n_fields c)); auto. apply P3. lia.
  Qed.

  (** An invariant of the steps holds at the end, where nobody has a step left. *)
  Lemma loop_end (P : state B F -> Prop) :
    (forall s s', P s -> step c s = Continue s' -> P s') ->
    (forall s, P s -> shape s) ->
    forall fuel s s', P s -> loop fuel c s = Done s' ->
      P s' /\ forall k, (k < length (objects c))%nat ->
        rnd T < rnd (fl (nth k (tobj s') 0 + nth k (dtobj s') 0)).
  Proof.
    intros Hstep Hshape. induction fuel as [|fuel IH]; intros s s' Hs H; [discriminate|].
    cbn [loop_fl] in H. destruct (step c s) as [s1|s1|e s1] eqn:E; [|injection H as <-|discriminate].
    - apply (IH s1); eauto.
    - assert (s1 = s).
      { unfold step_fl in E. destruct (argmin _); [|discriminate]. destruct (Qltb _ _); [congruence|discriminate]. }
      subst s1. split; [exact Hs|]. intros k Hk. destruct (Hshape s Hs) as (A1 & A2 & A3).
      unfold step_fl in E. destruct (argmin _) as [i|] eqn:Ea; [|discriminate].
      destruct (argmin_spec _ _ Ea) as (Hi & Hmin & _).
      destruct (Qltb _ _) eqn:Eb; [|discriminate]. apply Qltb_true in Eb.
      assert (Ln : length (next_times fl (tobj s) (dtobj s)) = length (objects c)).
      { unfold next_times. rewrite map_length, vadd_length; lia. }
      rewrite map_length, Ln in Hi.
      assert (Et : forall k, (k < length (objects c))%nat ->
                 nth k (next_times fl (tobj s) (dtobj s)) 0 = fl (nth k (tobj s) 0 + nth k (dtobj s) 0)).
      { intros k' Hk'. unfold next_times. rewrite (nth_indep _ 0 (fl 0)) by (rewrite map_length, vadd_length; lia).
        rewrite map_nth, vadd_nth by lia. reflexivity. }
      specialize (Hmin k ltac:(rewrite map_length, Ln; exact Hk)).
      rewrite !(nth_indep _ 0 (rnd 0)) in Hmin by (rewrite map_length, Ln; assumption).
      rewrite !map_nth in Hmin. rewrite (Et k Hk) in Hmin. eapply Qlt_le_trans; eassumption.
  Qed.

  Lemma ticks_lemma fuel s : loop fuel c begin = Done s ->
    (exists N, all_ticks fl rnd T (dt_diags_fl fl c) N (diag_times (log s))) /\
    (forall j d f, nth_error (c_fields c) j = Some (d, f) ->
       exists N, all_ticks fl rnd T (adjust_dt_fl fl f T d) N (field_times j (log s))).
  Proof.
    intros H. destruct (loop_end Inv Inv_step (fun s h => proj1 h) fuel begin s Inv_begin H) as ((S1 & F1 & G1) & E).
    pose proof obj_len as L. split.
    - destruct G1 as (D1 & n & D2 & D3 & D4). exists n. repeat split; auto.
      specialize (E (nb + n_fields c)%nat ltac:(lia)). rewrite D1, D2 in E. exact E.
    - intros j d f Hj. assert (j < n_fields c)%nat by (apply nth_error_Some; unfold n_fields in *; congruence).
      destruct (F1 j d f Hj) as (D1 & n & D2 & D3 & D4). exists n. repeat split; auto.
      specialize (E (nb + j)%nat ltac:(lia)). rewrite D1, D2 in E. exact E.
  Qed.
End Loop.
