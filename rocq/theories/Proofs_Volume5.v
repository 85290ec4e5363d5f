(** Lemmas: volume in whole runs of the tracker with a fixed time step. *)
From Coq Require Import Reals QArith Qreals String List Bool Arith Classical Lia Lra.
From Coquelicot Require Import Coquelicot.
From Verif Require Import Model_Push Spec_Push Proofs_Push Model_Bunch Spec_Bunch Proofs_Bunch
  Model_Tracker Spec_Tracker Proofs_Tracker Model_Run Spec_Run Proofs_Run Proofs_Solo Proofs_Split2
  Spec_Conv Proofs_Conv Proofs_Conv2 Proofs_Conv5 Proofs_Conv6 Spec_Volume Proofs_Volume Proofs_Volume2 Proofs_Volume3 Proofs_Volume4.
From Verif Require Spec_Sim Proofs_Sim Proofs_Sim4.
Import ListNotations.

(** Without adaptive steps the step function does not matter. *)
Section Fixed.
  Variables B F : Type.
  Variable evolve : F -> B -> Q -> Q -> B.
  Variable update : nat -> F -> list B -> F.
  Variables auto1 auto2 : B -> Q.
  Variable copy : B -> B.
  Variable rnd : Q -> Q.
  Variable c : config.
  Hypothesis Hc : forall i, is_auto c i = false.
  Lemma evolve_auto sync i t t' dt s :
    evolve_bunch B F evolve auto1 rnd c sync i t t' dt s = evolve_bunch B F evolve auto2 rnd c sync i t t' dt s.
  Proof. unfold evolve_bunch. rewrite Hc. reflexivity. Qed.
  Lemma push_to_auto t l : forall s,
    fold_left (push_to B F evolve auto1 rnd c t) l s = fold_left (push_to B F evolve auto2 rnd c t) l s.
  Proof.
    induction l as [|i l IH]; intros s; [reflexivity|]. cbn [fold_left]. rewrite IH. f_equal. unfold push_to. rewrite evolve_auto. reflexivity.
  Qed.
  Lemma step_auto s : step B F evolve update auto1 copy rnd c s = step B F evolve update auto2 copy rnd c s.
  Proof.
    unfold step. destruct (argmin _) as [i|]; [|reflexivity]. destruct (Qltb _ _); [reflexivity|].
    destruct (nth_error (objects c) i) as [[k|k|]|]; try reflexivity.
    - rewrite evolve_auto. reflexivity.
    - rewrite push_to_auto. reflexivity.
  Qed.
  Lemma loop_auto fuel : forall s, loop B F evolve update auto1 copy rnd fuel c s = loop B F evolve update auto2 copy rnd fuel c s.
  Proof.
    induction fuel as [|fuel IH]; intros s; [reflexivity|]. cbn [loop]. rewrite step_auto. destruct (step _ _ _ _ _ _ _ _ _); auto.
  Qed.
  Lemma initial_auto l : forall bs, (forall d, In d l -> d <> None) -> initial_dtb B auto1 l bs = initial_dtb B auto2 l bs.
  Proof.
    induction l as [|d l IH]; intros [|b bs] H; cbn; try reflexivity. f_equal; [|apply IH; intros; apply H; right; assumption].
    destruct d; [reflexivity|]. exfalso. apply (H None); [left|]; reflexivity.
  Qed.
  Lemma run_auto fuel bs0 fs0 : (forall d, In d (c_dtb c) -> d <> None) ->
    do_tracking B F evolve update auto1 copy rnd fuel c bs0 fs0 = do_tracking B F evolve update auto2 copy rnd fuel c bs0 fs0.
  Proof.
    intros H. unfold do_tracking, start, initial_dt. rewrite (initial_auto (c_dtb c) bs0 H), loop_auto.
    destruct (c_ndiags c); [destruct bs0; [|reflexivity]|apply loop_auto]. reflexivity.
  Qed.
End Fixed.

(** The run in which the maps themselves are tracked. *)
Definition zero_dt {A} (_ : A) : Q := 0%Q.
Definition map_run (q m : R) (G : pos -> R -> em) (rnd : Q -> Q) (fuel : nat) (c : config) (d : Q) :
  Model_Tracker.outcome (part -> part) unit :=
  do_tracking (part -> part) unit (fun _ F t dt p => boris1 (q / (m * c_SI)) G (Q2R t) (Q2R dt) (F p))
    (fun _ _ _ => tt) zero_dt (fun F => F) rnd fuel (with_steps [Some d] c) [fun p => p] tt.

Definition carries (q m : R) (l0 : list part) (hb : tracked) (F : part -> part) : Prop :=
  Spec_Sim.sound hb /\ z_injection (snd hb) = None /\ q_species (snd hb) = q /\ m_species (snd hb) = m /\
  particles (fst hb) (snd hb) = map F l0.
Lemma carries_step q m l0 fields G hb F t dt : gathers fields G -> carries q m l0 hb F ->
  carries q m l0 (evolve_tracked "boris" fields hb t dt) (fun p => boris1 (q / (m * c_SI)) G (Q2R t) (Q2R dt) (F p)).
Proof.
  intros HG ((V & Fi) & Hz & Hq & Hm & Hp).
  assert (Hr : ready hb) by (split; [exact V|]; split; [exact Fi|left; exact Hz]).
  destruct (evolve_view "boris" fields G hb t dt (or_intror eq_refl) HG Hr) as (fs & G' & A & _ & _ & Rr & W).
  unfold acting in A. rewrite Hz in A. injection A as <-.
  cbv zeta in Rr, W. set (r := evolve_tracked "boris" fields hb t dt) in *.
  rewrite (fresh_push1 "boris" _ _ fields G _ _ _ (or_intror eq_refl) HG), Hq, Hm in W.
  unfold view, seen, contents in W. injection W as V1 V2 V3 V4 V5 V6.
  destruct Rr as (Vr & Fr & _). split; [split; [exact Vr|exact Fr]|]. split; [congruence|]. split; [congruence|]. split; [congruence|].
  rewrite V1, Hp, map_map. reflexivity.
Qed.
Lemma carries_copy q m l0 hb F : carries q m l0 hb F -> carries q m l0 (copy_tracked hb) F.
Proof.
  intros (S0 & Hz & Hq & Hm & Hp). destruct (Proofs_Sim4.copy_sound hb S0) as (S1 & P1 & _ & A). unfold Proofs_Sim4.copy_attributes in A.
  split; [exact S1|]. split; [apply A|]. split; [|split].
  - destruct A as (_ & _ & _ & _ & _ & _ & _ & -> & _). exact Hq.
  - destruct A as (_ & _ & _ & _ & _ & _ & _ & _ & ->). exact Hm.
  - exact (eq_trans P1 Hp).
Qed.
Lemma forall2_get {A C} (P : A -> C -> Prop) l l' i a : Forall2 P l l' -> nth_error l i = Some a -> exists b, nth_error l' i = Some b /\ P a b.
Proof.
  intros H E. pose proof (Proofs_Sim.forall2_nth P l l' H i) as N. rewrite E in N. destruct (nth_error l' i) as [b|]; [|contradiction].
  exists b. auto.
Qed.

(** A run with a fixed step applies the maps of the map run. *)
Lemma run_applies fields G q m rnd c d auto_dt fuel bunches s i b : gathers fields G ->
  List.length bunches = List.length (c_dtb c) -> nth_error (c_dtb c) i = Some (Some d) -> nth_error bunches i = Some b ->
  ready b -> z_injection (snd b) = None -> q_species (snd b) = q -> m_species (snd b) = m ->
  track "boris" auto_dt rnd fields fuel c bunches = Model_Tracker.Done s ->
  exists fuel' s', map_run q m G rnd fuel' c d = Model_Tracker.Done s' /\
  (exists r F, nth_error (bs s) i = Some r /\ nth_error (bs s') 0 = Some F /\ particles (fst r) (snd r) = map F (particles (fst b) (snd b))) /\
  (exists o Fs, nth_error (out s) i = Some o /\ nth_error (out s') 0 = Some Fs /\
     Forall2 (fun r F => particles (fst r) (snd r) = map F (particles (fst b) (snd b))) o Fs).
Proof.
  intros HG Hl Hd Hb (V & Fi & _) Hz Hq Hm H. unfold track in H.
  destruct (solo_lemma tracked (list field) (evolve_tracked "boris") no_update auto_dt copy_tracked rnd c (fun _ _ _ _ _ => eq_refl) i (Some d) Hd fuel
    bunches fields b s Hl Hb H) as (fuel1 & s1 & H1 & Rl).
  rewrite (run_auto _ _ _ _ auto_dt zero_dt) in H1.
  2:{ intros k. destruct k as [|[|k]]; reflexivity. }
  2:{ intros e [<-|[]]. discriminate. }
  assert (C0 : carries q m (particles (fst b) (snd b)) b (fun p => p)).
  { split; [split; [exact V|exact Fi]|]. rewrite map_id. auto. }
  pose proof (Proofs_Sim.run_related tracked (list field) (part -> part) unit (evolve_tracked "boris") no_update zero_dt copy_tracked
    (fun _ F t dt p => boris1 (q / (m * c_SI)) G (Q2R t) (Q2R dt) (F p)) (fun _ _ _ => tt) zero_dt (fun F => F) rnd
    (carries q m (particles (fst b) (snd b))) (fun f _ => f = fields)) as RR.
  specialize (RR ltac:(intros f f' hb F t dt -> Hc; apply carries_step; assumption)
    ltac:(intros j f f' l l' -> _; reflexivity) ltac:(reflexivity) ltac:(intros; apply carries_copy; assumption)
    fuel1 (with_steps [Some d] c) [b] [fun p => p] fields tt eq_refl ltac:(constructor; [exact C0|constructor])).
  assert (RR' : Spec_Sim.same_run (fun f (_ : unit) => f = fields) (carries q m (particles (fst b) (snd b))) (Model_Tracker.Done s1) (map_run q m G rnd fuel1 c d))
    by (rewrite <- H1; exact RR). clear RR. rename RR' into RR.
  exists fuel1. destruct (map_run q m G rnd fuel1 c d) as [s'|s'|e s']; try contradiction. exists s'. split; [reflexivity|].
  destruct RR as (RB & _ & _ & _ & RO & _).
  pose proof (r_wf1 _ _ _ _ _ _ _ Rl) as W1.
  pose proof (w_b _ _ _ _ W1) as Lb. pose proof (w_o _ _ _ _ W1) as Lo.
  rewrite (r_b _ _ _ _ _ _ _ Rl), (r_o _ _ _ _ _ _ _ Rl).
  split.
  - destruct (nth_error (bs s1) 0) as [r|] eqn:E; [|apply nth_error_None in E; rewrite Lb in E; cbn in E; lia].
    destruct (forall2_get _ _ _ _ _ RB E) as (F & EF & CF). exists r, F. split; [reflexivity|]. split; [exact EF|]. apply CF.
  - destruct (nth_error (out s1) 0) as [o|] eqn:E; [|apply nth_error_None in E; rewrite Lo in E; cbn in E; lia].
    destruct (forall2_get _ _ _ _ _ RO E) as (Fs & EF & CF). exists o, Fs. split; [reflexivity|]. split; [exact EF|].
    revert CF. clear. induction 1; constructor; [apply H|assumption].
Qed.

(** Every map in the map run conserves volume. *)
Lemma maps_preserve q m G rnd fuel c d s' : (forall t, differentiable G t) -> map_run q m G rnd fuel c d = Model_Tracker.Done s' ->
  List.Forall volume_preserving (bs s') /\ List.Forall (List.Forall volume_preserving) (out s').
Proof.
  intros HG H.
  pose proof (Proofs_Sim.run_related (part -> part) unit (part -> part) unit
    (fun _ F t dt p => boris1 (q / (m * c_SI)) G (Q2R t) (Q2R dt) (F p)) (fun _ _ _ => tt) zero_dt (fun F => F)
    (fun _ F t dt p => boris1 (q / (m * c_SI)) G (Q2R t) (Q2R dt) (F p)) (fun _ _ _ => tt) zero_dt (fun F => F) rnd
    (fun F F' => F = F' /\ volume_preserving F) (fun _ _ => True)) as RR.
  specialize (RR ltac:(intros f f' F F' t dt _ [<- HF]; split; [reflexivity|apply volume_push; [apply HG|exact HF]])
    ltac:(intros; exact I) ltac:(reflexivity) ltac:(intros; assumption)
    fuel (with_steps [Some d] c) [fun p => p] [fun p => p] tt tt I ltac:(constructor; [split; [reflexivity|apply volume_id]|constructor])).
  assert (RR' : Spec_Sim.same_run (fun (_ _ : unit) => True) (fun F F' => F = F' /\ volume_preserving F)
    (Model_Tracker.Done s') (Model_Tracker.Done s')) by (rewrite <- H; exact RR).
  destruct RR' as (RB & _ & _ & _ & RO & _).
  assert (K : forall l l' : list (part -> part), Forall2 (fun F F' => F = F' /\ volume_preserving F) l l' -> List.Forall volume_preserving l).
  { induction 1; constructor; [apply H0|assumption]. }
  split; [eapply K, RB|]. revert RO. generalize (out s') at 2. induction 1; constructor; [eapply K; eassumption|assumption].
Qed.

(** Two finished map runs agree. *)
Lemma map_run_det q m G rnd f1 f2 c d s1 s2 : map_run q m G rnd f1 c d = Model_Tracker.Done s1 ->
  map_run q m G rnd f2 c d = Model_Tracker.Done s2 -> s1 = s2.
Proof.
  unfold map_run, do_tracking. destruct (c_ndiags (with_steps [Some d] c)); [discriminate|]. intros H1 H2. eapply loop_det; eassumption.
Qed.

Lemma tracking_volume fields G q m rnd c d : gathers fields G -> (forall t, differentiable G t) ->
  exists F Fs, volume_preserving F /\ List.Forall volume_preserving Fs /\
  forall auto_dt fuel bunches s i b,
  List.length bunches = List.length (c_dtb c) -> nth_error (c_dtb c) i = Some (Some d) -> nth_error bunches i = Some b ->
  ready b -> z_injection (snd b) = None -> q_species (snd b) = q -> m_species (snd b) = m ->
  track "boris" auto_dt rnd fields fuel c bunches = Model_Tracker.Done s ->
  (exists r, nth_error (bs s) i = Some r /\ particles (fst r) (snd r) = map F (particles (fst b) (snd b))) /\
  (exists o, nth_error (out s) i = Some o /\
     Forall2 (fun r Fk => particles (fst r) (snd r) = map Fk (particles (fst b) (snd b))) o Fs).
Proof.
  intros HG HD.
  destruct (classic (exists fuel s' F Fs, map_run q m G rnd fuel c d = Model_Tracker.Done s' /\ nth_error (bs s') 0 = Some F /\ nth_error (out s') 0 = Some Fs))
    as [(fuel' & s' & F & Fs & Hr & HF & HFs)|N].
  - destruct (maps_preserve q m G rnd fuel' c d s' HD Hr) as [PB PO].
    exists F, Fs. split; [rewrite Forall_forall in PB; apply PB; eapply nth_error_In, HF|].
    split; [rewrite Forall_forall in PO; apply PO; eapply nth_error_In, HFs|].
    intros auto_dt fuel bunches s i b Hl Hd Hb Hrd Hz Hq Hm H.
    destruct (run_applies fields G q m rnd c d auto_dt fuel bunches s i b HG Hl Hd Hb Hrd Hz Hq Hm H) as (fu & s2 & H2 & (r & F2 & E1 & E2 & E3) & (o & Fs2 & E4 & E5 & E6)).
    rewrite (map_run_det _ _ _ _ _ _ _ _ _ _ Hr H2) in HF, HFs. rewrite HF in E2. rewrite HFs in E5. injection E2 as <-. injection E5 as <-.
    split; [exists r; auto|exists o; auto].
  - exists (fun p => p), []. split; [apply volume_id|]. split; [constructor|].
    intros auto_dt fuel bunches s i b Hl Hd Hb Hrd Hz Hq Hm H. exfalso. apply N.
    destruct (run_applies fields G q m rnd c d auto_dt fuel bunches s i b HG Hl Hd Hb Hrd Hz Hq Hm H) as (fu & s2 & H2 & (r & F2 & E1 & E2 & E3) & (o & Fs2 & E4 & E5 & E6)).
    exists fu, s2, F2, Fs2. auto.
Qed.

Lemma volume_conserved F : volume_preserving F -> conserves_volume F.
Proof.
  intros H p. destruct (H p) as (J & HJ & E). split; [exists J; exact HJ|]. intros J' HJ'. rewrite (jacobian_unique _ _ _ _ HJ' HJ). exact E.
Qed.

Open Scope R_scope.
Lemma affine_gradient f s : affine f -> forall r, exists d, forall eps, 0 < eps -> exists a, 0 < a /\
  forall r', rdist r' r <= a -> Rabs (f r' s - f r s - inner d r r') <= eps * rdist r' r.
Proof.
  intros (a & b & c & e & k & E) r. exists (a, b, c). intros eps He. exists 1. split; [lra|]. intros r' _. rewrite !E. unfold inner. cbn [fst snd].
  match goal with |- Rabs ?z <= _ => replace z with 0 by ring end. rewrite Rabs_R0.
  apply Rmult_le_pos; [lra|]. unfold rdist. repeat apply Rplus_le_le_0_compat; apply Rabs_pos.
Qed.
Lemma affine_differentiable G : affine (fun r t => ex (G r t)) -> affine (fun r t => ey (G r t)) -> affine (fun r t => ez (G r t)) ->
  affine (fun r t => bx (G r t)) -> affine (fun r t => by_ (G r t)) -> affine (fun r t => bz (G r t)) -> forall s, differentiable G s.
Proof.
  intros H1 H2 H3 H4 H5 H6 s r e [<-|[<-|[<-|[<-|[<-|[<-|[]]]]]]].
  - apply (affine_gradient _ s H1 r).
  - apply (affine_gradient _ s H2 r).
  - apply (affine_gradient _ s H3 r).
  - apply (affine_gradient _ s H4 r).
  - apply (affine_gradient _ s H5 r).
  - apply (affine_gradient _ s H6 r).
Qed.
