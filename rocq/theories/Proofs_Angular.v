(** Proofs for C120. *)
From Coq Require Import QArith Reals Qreals String List Arith Lia Lra.
From Coquelicot Require Import Coquelicot.
From Verif Require Model_Laser.
From Verif Require Import Model_Push Spec_Push Proofs_Push Model_Interp Model_QS Model_Tracker Proofs_Tracker Model_Run Model_RZ
  Model_Bunch Spec_Bunch Proofs_Bunch Model_Sim Spec_Sim Proofs_Sim Proofs_Sim2 Proofs_Sim3 Proofs_Sim4 Proofs_Sim5 Spec_Angular.
Import ListNotations.
Open Scope R_scope.

(** ** Invariants of runs *)
Section Kept.
  Variables B F : Type.
  Variable evolve : F -> B -> Q -> Q -> B.
  Variable update : nat -> F -> list B -> F.
  Variable auto_dt : B -> Q.
  Variable copy : B -> B.
  Variable rnd : Q -> Q.
  Variable Pf : F -> Prop.
  Variable P : nat -> B -> Prop.
  Hypothesis Hevolve : forall f i b t dt, Pf f -> P i b -> P i (evolve f b t dt).
  Hypothesis Hupdate : forall j f l, Pf f -> Pf (update j f l).
  Hypothesis Hcopy : forall i b, P i b -> P i (copy b).
  Notation st := (state B F).
  Definition kept (n : nat) (s : st) : Prop :=
    Pf (fs s) /\ List.length (bs s) = n /\ (forall i b, nth_error (bs s) i = Some b -> P i b) /\
    (forall i l b, nth_error (out s) i = Some l -> In b l -> P i b).
  Lemma kept_advance n i d s : kept n s -> kept n (advance B F i d s).
  Proof. exact (fun H => H). Qed.
  Lemma kept_update n t j s : kept n s -> kept n (update_field B F update t j s).
  Proof. intros (H1 & H2). split; [apply Hupdate, H1|exact H2]. Qed.
  Lemma kept_evolve n c sync i t t' dt s : kept n s -> kept n (evolve_bunch B F evolve auto_dt rnd c sync i t t' dt s).
  Proof.
    intros (H1 & H2 & H3 & H4). unfold evolve_bunch. destruct (nth_error (bs s) i) as [b|] eqn:E; [|split; auto].
    split; [exact H1|]. cbn [bs out]. split; [rewrite upd_length; exact H2|]. split; [|exact H4].
    intros k b' Hk. destruct (Nat.eq_dec k i) as [->|N].
    - rewrite upd_nth_error_same in Hk by (apply nth_error_Some; congruence). injection Hk as <-. apply Hevolve; [exact H1|apply H3, E].
    - rewrite upd_nth_error_other in Hk by exact N. apply H3, Hk.
  Qed.
  Lemma append_nth out bs i l : nth_error (append_out B copy out bs) i = Some l ->
    exists o b, nth_error out i = Some o /\ nth_error bs i = Some b /\ l = o ++ [copy b].
  Proof.
    unfold append_out. revert bs i. induction out as [|o out IH]; intros bs i; [destruct i; discriminate|].
    destruct bs as [|b bs]; [destruct i; discriminate|]. destruct i as [|i]; cbn; [intros E; injection E as <-; eauto|apply IH].
  Qed.
  Lemma kept_diag n t s : kept n s -> kept n (generate_diagnostics B F copy t s).
  Proof.
    intros (H1 & H2 & H3 & H4). split; [exact H1|]. split; [exact H2|]. split; [exact H3|].
    cbn [out generate_diagnostics]. intros i l b Hl Hb. destruct (append_nth _ _ _ _ Hl) as (o & b0 & E1 & E2 & ->).
    apply in_app_or in Hb as [Hb|[<-|[]]]; [eapply H4; eassumption|apply Hcopy, H3, E2].
  Qed.
  Lemma kept_fold n c t' l s : kept n s -> kept n (fold_left (push_to B F evolve auto_dt rnd c t') l s).
  Proof.
    revert s. induction l as [|i l IH]; intros s H; [exact H|]. cbn [fold_left]. apply IH. unfold push_to. cbv zeta.
    apply kept_advance, kept_evolve, H.
  Qed.
  Definition left_in (o : Model_Tracker.outcome B F) : st :=
    match o with Continue s => s | Model_Tracker.Done s => s | Model_Tracker.Raise _ s => s end.
  Lemma kept_step n c s : kept n s -> kept n (left_in (step B F evolve update auto_dt copy rnd c s)).
  Proof.
    intros H. unfold step. cbv zeta. destruct (argmin _) as [i|]; [|exact H]. destruct (Qltb _ _); [exact H|]. cbn [left_in].
    apply kept_advance. destruct (nth_error (objects c) i) as [[k|j|]|]; [apply kept_evolve, H|apply kept_update, H| |exact H].
    apply kept_diag. destruct (c_push_before c); [apply kept_fold, H|exact H].
  Qed.
  Lemma kept_loop n fuel c s : kept n s -> kept n (left_in (loop B F evolve update auto_dt copy rnd fuel c s)).
  Proof.
    revert s. induction fuel as [|k IH]; intros s H; [exact H|]. cbn [loop]. pose proof (kept_step n c s H) as K.
    destruct (step _ _ _ _ _ _ _ c s) as [s'|s'|e s']; [apply IH, K|exact K|exact K].
  Qed.
  Lemma kept_tracking fuel c bs0 fs0 : Pf fs0 -> (forall i b, nth_error bs0 i = Some b -> P i b) ->
    kept (List.length bs0) (left_in (do_tracking B F evolve update auto_dt copy rnd fuel c bs0 fs0)).
  Proof.
    intros H1 H2.
    assert (K : kept (List.length bs0) (start B F update auto_dt c bs0 fs0)).
    { unfold start. assert (G : forall l s, kept (List.length bs0) s -> kept (List.length bs0) (fold_left (fun s j => update_field B F update 0 j s) l s)).
      { induction l as [|j l IH]; intros s H; [exact H|]. cbn [fold_left]. apply IH, kept_update, H. }
      apply G. split; [exact H1|]. split; [reflexivity|]. split; [exact H2|]. cbn [out]. intros i l b Hl Hb.
      rewrite nth_error_map in Hl. destruct (nth_error bs0 i); [|discriminate]. injection Hl as <-. destruct Hb. }
    unfold do_tracking. cbv zeta. destruct (c_ndiags c); [|apply kept_loop, kept_diag, K].
    destruct bs0 as [|b0 bs0]; [|exact K]. pose proof (kept_loop _ fuel c _ K) as L.
    destruct (loop _ _ _ _ _ _ _ fuel c _); exact L.
  Qed.
End Kept.

(** ** Fields that look the same after reflections *)
(** Reflection at the plane through the axis perpendicular to (a, b). *)
Definition mirror (a b : R) : plane :=
  let n := a * a + b * b in mkpl ((b * b - a * a) / n) (- 2 * a * b / n) (- 2 * a * b / n) ((a * a - b * b) / n).
Lemma square_sum a b : (a <> 0 \/ b <> 0) -> 0 < a * a + b * b.
Proof. intros [H|H]; [pose proof (Rsqr_pos_lt a H); pose proof (Rle_0_sqr b)|pose proof (Rsqr_pos_lt b H); pose proof (Rle_0_sqr a)]; unfold Rsqr in *; lra. Qed.
Lemma mirror_orthogonal a b : (a <> 0 \/ b <> 0) -> orthogonal (mirror a b).
Proof.
  intros H. apply square_sum in H. unfold orthogonal, mirror. cbv zeta. cbn [m11 m12 m21 m22].
  assert (a * a + b * b <> 0) by lra. repeat split; field; assumption.
Qed.
Lemma mirror_fixes a b u v : (a <> 0 \/ b <> 0) ->
  (m11 (mirror a b) * u + m12 (mirror a b) * v = u /\ m21 (mirror a b) * u + m22 (mirror a b) * v = v) <-> a * u + b * v = 0.
Proof.
  intros H. pose proof (square_sum a b H) as N. unfold mirror. cbv zeta. cbn [m11 m12 m21 m22]. set (n := a * a + b * b) in *.
  assert (E1 : (b * b - a * a) / n * u + - 2 * a * b / n * v = u - 2 * (a * u + b * v) * (a / n)) by (unfold n; field; fold n; lra).
  assert (E2 : - 2 * a * b / n * u + (a * a - b * b) / n * v = v - 2 * (a * u + b * v) * (b / n)) by (unfold n; field; fold n; lra).
  rewrite E1, E2. split; [|intros ->; split; ring]. intros [A1 A2].
  assert (B1 : (a * u + b * v) * (a / n) = 0) by lra. assert (B2 : (a * u + b * v) * (b / n) = 0) by lra.
  replace (a * u + b * v) with ((a * u + b * v) * (a / n) * a + (a * u + b * v) * (b / n) * b) by (unfold n; field; fold n; lra).
  rewrite B1, B2. ring.
Qed.
Lemma plane_fixed a b p : (a <> 0 \/ b <> 0) -> turn (mirror a b) p = p <-> in_plane a b p.
Proof.
  intros H. unfold in_plane. rewrite <- !(mirror_fixes a b _ _ H). unfold turn. destruct p as [x0 y0 z0 px0 py0 pz0].
  cbn [x y xi px py pz]. split.
  - intros E. injection E as E1 E2 E3 E4. auto.
  - intros [[E1 E2] [E3 E4]]. rewrite E1, E2, E3, E4. reflexivity.
Qed.
Lemma mirror_det a b : (a <> 0 \/ b <> 0) -> det (mirror a b) = -1.
Proof. intros H. apply square_sum in H. unfold det, mirror. cbv zeta. cbn [m11 m12 m21 m22]. field. lra. Qed.

(** Off the axis there is no torque: the electric field is radial, the magnetic field azimuthal. *)
Lemma no_torque fields u v z t f : symmetric_fields fields -> (u <> 0 \/ v <> 0) -> gather1 fields (u, v, z) t em0 = Some f ->
  exists a b, ex f = a * u /\ ey f = a * v /\ bx f = - b * v /\ by_ f = b * u /\ bz f = 0.
Proof.
  intros A H E. assert (H' : - v <> 0 \/ u <> 0) by (destruct H; [right|left]; lra).
  pose proof (gather0_turn (mirror (- v) u) fields (u, v, z) t (mirror_orthogonal _ _ H') A) as G.
  assert (X : turn_pos (mirror (- v) u) (u, v, z) = (u, v, z)).
  { unfold turn_pos. destruct (proj2 (mirror_fixes (- v) u u v H')) as [-> ->]; [ring|reflexivity]. }
  rewrite X, E in G. cbn [option_map] in G. injection G as G. symmetry in G.
  pose proof (f_equal ex G) as G1. pose proof (f_equal ey G) as G2. pose proof (f_equal bx G) as G3. pose proof (f_equal by_ G) as G4.
  pose proof (f_equal bz G) as G5. unfold turn_em in G1, G2, G3, G4, G5. cbn [ex ey bx by_ bz] in G1, G2, G3, G4, G5.
  rewrite (mirror_det _ _ H') in G3, G4, G5.
  pose proof (square_sum u v H) as N. set (n := u * u + v * v) in *.
  pose proof (proj1 (mirror_fixes (- v) u _ _ H') (conj G1 G2)) as K.
  assert (L : u * bx f + v * by_ f = 0).
  { revert G3 G4. unfold mirror. cbv zeta. cbn [m11 m12 m21 m22]. intros G3 G4.
    assert (N' : - v * - v + u * u <> 0) by (unfold n in N; lra).
    assert (F1 : (u * bx f + v * by_ f) * (u / n) = 0).
    { assert (Z : -1 * ((u * u - - v * - v) / (- v * - v + u * u) * bx f + - 2 * - v * u / (- v * - v + u * u) * by_ f) =
                  bx f - 2 * ((u * bx f + v * by_ f) * (u / n))) by (unfold n in N |- *; field; lra).
      lra. }
    assert (F2 : (u * bx f + v * by_ f) * (v / n) = 0).
    { assert (Z : -1 * (- 2 * - v * u / (- v * - v + u * u) * bx f + (- v * - v - u * u) / (- v * - v + u * u) * by_ f) =
                  by_ f - 2 * ((u * bx f + v * by_ f) * (v / n))) by (unfold n in N |- *; field; lra).
      lra. }
    replace (u * bx f + v * by_ f) with ((u * bx f + v * by_ f) * (u / n) * u + (u * bx f + v * by_ f) * (v / n) * v)
      by (unfold n; field; fold n; lra). rewrite F1, F2. ring. }
  exists ((u * ex f + v * ey f) / n), ((u * by_ f - v * bx f) / n).
  assert (D : n <> 0) by lra.
  assert (div : forall r s, r * n = s -> r = s / n) by (intros r s <-; field; exact D).
  split; [|split; [|split; [|split; [|lra]]]].
  - transitivity ((u * (u * ex f + v * ey f)) / n); [|field; exact D]. apply div. unfold n.
    transitivity (u * (u * ex f + v * ey f) - v * (- v * ex f + u * ey f)); [ring|rewrite K; ring].
  - transitivity ((v * (u * ex f + v * ey f)) / n); [|field; exact D]. apply div. unfold n.
    transitivity (v * (u * ex f + v * ey f) + u * (- v * ex f + u * ey f)); [ring|rewrite K; ring].
  - transitivity ((- v * (u * by_ f - v * bx f)) / n); [|field; exact D]. apply div. unfold n.
    transitivity (- v * (u * by_ f - v * bx f) + u * (u * bx f + v * by_ f)); [ring|rewrite L; ring].
  - transitivity ((u * (u * by_ f - v * bx f)) / n); [|field; exact D]. apply div. unfold n.
    transitivity (u * (u * by_ f - v * bx f) + v * (u * bx f + v * by_ f)); [ring|rewrite L; ring].
Qed.

(** ** One push *)
Lemma half_angular dt p : angular (half_position_push1 dt p) = angular p.
Proof. unfold angular, half_position_push1. cbv zeta. cbn [x y px py]. ring. Qed.
Lemma momentum_angular dt qm p f a b :
  ex f = a * x p -> ey f = a * y p -> bx f = - b * y p -> by_ f = b * x p -> bz f = 0 ->
  angular (push_momentum1 dt qm p f) = angular p.
Proof.
  intros E1 E2 E3 E4 E5. unfold angular, push_momentum1. cbv zeta. cbn [x y px py]. rewrite E1, E2, E3, E4, E5.
  set (cg := c_SI / sqrt _). set (s := 2 / _). clearbody cg s. ring.
Qed.
Lemma axis_angular p : x p = 0 -> y p = 0 -> angular p = 0.
Proof. unfold angular. intros -> ->. ring. Qed.
Lemma boris1_angular fields qm t dt p p' : symmetric_fields fields -> boris1 fields qm t dt p = Some p' -> angular p' = angular p.
Proof.
  intros A. unfold boris1. cbv zeta. set (p1 := half_position_push1 dt p).
  destruct (gather1 _ _ _ _) as [f|] eqn:E; [|discriminate]. intros H. injection H as <-.
  rewrite half_angular, <- (half_angular dt p). fold p1. clearbody p1.
  destruct (Req_dec (x p1) 0) as [Ex|Nx]; [destruct (Req_dec (y p1) 0) as [Ey|Ny]|].
  - rewrite !axis_angular; auto.
  - destruct (no_torque fields (x p1) (y p1) (xi p1) _ f A (or_intror Ny) E) as (a & b & K1 & K2 & K3 & K4 & K5).
    exact (momentum_angular dt qm p1 f a b K1 K2 K3 K4 K5).
  - destruct (no_torque fields (x p1) (y p1) (xi p1) _ f A (or_introl Nx) E) as (a & b & K1 & K2 & K3 & K4 & K5).
    exact (momentum_angular dt qm p1 f a b K1 K2 K3 K4 K5).
Qed.
Lemma push1_plane pusher fields q m t dt a b p p' : (a <> 0 \/ b <> 0) -> symmetric_fields fields ->
  push1 pusher fields q m t dt p = Some p' -> in_plane a b p -> in_plane a b p'.
Proof.
  intros H A E. rewrite <- !plane_fixed by exact H. intros T.
  pose proof (push1_turn (mirror a b) pusher fields q m t dt p (mirror_orthogonal a b H) A) as X.
  rewrite T, E in X. cbn [option_map] in X. injection X as X. symmetry. exact X.
Qed.

(** ** Runs *)
Section Runs.
  Variable to_main : Model_Laser.sparams -> nat * nat -> Model_Laser.carr2 -> Model_Laser.carr2.
  Variable to_sub : Model_Laser.sparams -> nat * nat -> (nat -> nat -> R) -> (nat -> nat -> R).
  Variables e_ch m_e eps_0 light : R.
  Variables (argsort : list R -> list nat) (skin_depth wave_breaking : R -> R).
  Variable pusher : string.
  Variable auto_dt : option tracked -> Q.
  Variable rnd : Q -> Q.
  Notation sim := (simulate to_main to_sub e_ch m_e eps_0 light argsort skin_depth wave_breaking pusher auto_dt rnd).
  (** A property that every push of every particle keeps. *)
  Lemma run_each (I : nat -> list part -> Prop) fuel c l fields : symmetric_fields fields ->
    (forall i fs q m t dt ps ps', symmetric_fields fs ->
       Forall2 (fun p p' => push1 pusher fs q m t dt p = Some p') ps ps' -> I i ps -> I i ps') ->
    (forall i hb, nth_error l i = Some hb -> sound hb /\ I i (parts hb)) ->
    throughout (List.length l) (sim fuel c l fields) (fun i r => I i (parts r)).
  Proof.
    intros A H Hl. unfold simulate.
    pose (P := fun (i : nat) (b : option tracked) => match b with Some hb => sound hb /\ I i (parts hb) | None => True end).
    assert (X1 : forall f i b t dt, ok_fields symmetric_fields f -> P i b -> P i (sim_evolve pusher f b t dt)).
    { intros f i b t dt Hf Hb. unfold sim_evolve. destruct f as [f|]; [|exact Logic.I]. destruct b as [b|]; [|exact Logic.I].
      destruct (push_bunch pusher f b (Q2R t) (Q2R dt)) as [b'|] eqn:E; [|exact Logic.I]. destruct Hb as [S Hb].
      pose proof (push_cases pusher f b (Q2R t) (Q2R dt) S) as C. rewrite E in C. destruct C as (C & S' & _).
      split; [exact S'|]. unfold pushed in C. destruct (acts b f) as [fs|] eqn:Ea; [|discriminate].
      destruct (knownb pusher); [|discriminate].
      refine (H i fs (q_species (snd b)) (m_species (snd b)) (Q2R t) (Q2R dt) (parts b) (parts b') (acts_sub symmetric_fields b f fs symmetric_nil Hf Ea) _ Hb).
      apply travo_some in C. revert C. generalize (parts b'). generalize (parts b). clear.
      induction l as [|p l IH]; intros [|p' l'] C; try discriminate; constructor; [injection C as C _; exact C|].
      apply IH. injection C as _ C. exact C. }
    assert (X2 : forall i b, P i b -> P i (sim_copy b)).
    { intros i [b|] Hb; [|exact Logic.I]. destruct Hb as [S Hb]. destruct (copy_sound b S) as (S' & E & _). split; [exact S'|]. rewrite E. exact Hb. }
    destruct (kept_tracking (option tracked) (option (list efield)) (sim_evolve pusher)
      (sim_update to_main to_sub e_ch m_e eps_0 light argsort skin_depth wave_breaking) auto_dt sim_copy rnd (ok_fields symmetric_fields) P
      X1 (sim_update_symmetric to_main to_sub e_ch m_e eps_0 light argsort skin_depth wave_breaking) X2 fuel c (map Some l)
      (Some (adjust_wakes (Q2R (c_tfinal c)) fields))) as (_ & K1 & K2 & K3).
    - apply adjust_symmetric, A.
    - intros i b Hb. rewrite nth_error_map in Hb. destruct (nth_error l i) as [hb|] eqn:E; [|discriminate]. injection Hb as <-. apply Hl, E.
    - unfold throughout. cbv zeta. rewrite map_length in K1. split; [exact K1|]. split.
      + intros i r Hr. apply (K2 i (Some r) Hr).
      + intros i o r Ho Hr. apply (K3 i o (Some r) Ho Hr).
  Qed.
End Runs.
