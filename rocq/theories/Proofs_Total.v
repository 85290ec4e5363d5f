(** Runs in which nothing raises. *)
From Coq Require Import QArith Reals Qreals String List Bool Arith Lia Lra.
From Coquelicot Require Import Coquelicot.
From Verif Require Model_Laser.
From Verif Require Import Model_Push Model_Interp Model_QS Model_Tracker Model_Run
  Model_RZ Model_Bunch Spec_Bunch Proofs_Bunch Model_Sim Spec_Sim Proofs_Sim Proofs_Sim2 Proofs_Sim3 Proofs_Sim4 Proofs_Sim5
  Proofs_Sim7 Spec_Group Proofs_Group3.
Import ListNotations.
Open Scope R_scope.

Lemma analytic_gather fields : only_analytic fields -> forall ps t b, exists v, gather_each fields ps t b = Ok v.
Proof.
  intros H. induction fields as [|[env pl o|c] r IH]; intros ps t b; cbn [gather_each].
  - exists b. reflexivity.
  - exfalso. destruct (H (Wake env pl o) (or_introl eq_refl)) as [c E]. discriminate.
  - apply IH. intros f Hf. apply H. right. exact Hf.
Qed.
Lemma analytic_push pusher fields b t dt : only_analytic fields -> known pusher -> trackable b ->
  exists b', push_bunch pusher fields b t dt = Some b' /\ trackable b'.
Proof.
  intros A K [S I]. pose proof (push_cases pusher fields b t dt S) as C.
  destruct (push_bunch pusher fields b t dt) as [b'|] eqn:E.
  - exists b'. split; [reflexivity|]. destruct C as (Q1 & S' & W & M). split; [exact S'|].
    destruct M as (_ & _ & _ & Mz & _). rewrite Mz. destruct I as [I|I]; [left; exact I|right]. intros E'.
    apply I. unfold pushed in Q1. destruct (acts b fields); [|discriminate]. destruct (knownb pusher); [|discriminate].
    apply travo_len in Q1. rewrite E' in Q1. destruct (parts b); [reflexivity|discriminate].
  - exfalso. destruct b as [h b]. destruct (push_raises pusher fields h b t dt E) as [X|[(X1 & X2)|(ps & t' & f & k & X)]].
    + apply X, K.
    + destruct I as [I|I]; [apply X1, I|]. apply I. unfold parts. cbn [fst snd].
      assert (L : length (particles h b) = 0%nat).
      { rewrite particles_length. destruct S as [(_ & _ & V) _]. cbn [fst snd] in V.
        rewrite <- (V (b_xi b)); [rewrite X2; reflexivity|]. unfold footprint. cbn. tauto. }
      destruct (particles h b); [reflexivity|discriminate].
    + unfold gather_all in X. destruct (analytic_gather fields A ps t' (reset_particle_fields f)) as [v Ev]. congruence.
Qed.
Lemma analytic_update to_main to_sub e_ch m_e eps_0 light argsort skin_depth wave_breaking l fields j :
  only_analytic fields ->
  update_wake to_main to_sub e_ch m_e eps_0 light argsort skin_depth wave_breaking j fields l = Some fields.
Proof.
  intros H. induction fields as [|[env pl o|c] r IH]; cbn [update_wake].
  - reflexivity.
  - exfalso. destruct (H (Wake env pl o) (or_introl eq_refl)) as [c E]. discriminate.
  - rewrite IH; [reflexivity|]. intros f Hf. apply H. right. exact Hf.
Qed.
Lemma analytic_adjust T fields : only_analytic fields -> adjust_wakes T fields = fields.
Proof.
  intros H. induction fields as [|[env pl o|c] r IH]; cbn [adjust_wakes].
  - reflexivity.
  - exfalso. destruct (H (Wake env pl o) (or_introl eq_refl)) as [c E]. discriminate.
  - rewrite IH; [reflexivity|]. intros f Hf. apply H. right. exact Hf.
Qed.
Lemma copy_trackable b : trackable b -> trackable (copy_tracked b).
Proof.
  intros [S I]. destruct (copy_sound b S) as (T & P & W & C). split; [exact T|]. left. apply C.
Qed.

Section Runs.
  Variable to_main : Model_Laser.sparams -> nat * nat -> Model_Laser.carr2 -> Model_Laser.carr2.
  Variable to_sub : Model_Laser.sparams -> nat * nat -> (nat -> nat -> R) -> (nat -> nat -> R).
  Variables e_ch m_e eps_0 light : R.
  Variables (argsort : list R -> list nat) (skin_depth wave_breaking : R -> R).
  Variable pusher : string.
  Variable auto_dt : option tracked -> Q.
  Variable rnd : Q -> Q.
  Notation sim := (simulate to_main to_sub e_ch m_e eps_0 light argsort skin_depth wave_breaking pusher auto_dt rnd).
  Lemma run_nothing_raised fuel c bunches fields r : only_analytic fields -> known pusher ->
    (forall b, In b bunches -> trackable b) -> sim fuel c bunches fields = Model_Tracker.Done r ->
    nothing_raised r /\ fs r = Some fields.
  Proof.
    intros A K T H.
    assert (X : same_run (fun f f' => f = f' /\ f = Some fields)
                  (fun u u' : option tracked => u = u' /\ exists b, u = Some b /\ trackable b)
                  (sim fuel c bunches fields) (sim fuel c bunches fields)).
    { unfold simulate. rewrite (analytic_adjust _ _ A). apply run_related.
      - intros f f' u u' t dt [<- ->] [<- (b & -> & Hb)]. split; [reflexivity|]. cbn [sim_evolve].
        apply analytic_push; assumption.
      - intros j f f' l l' [<- ->] Hl.
        assert (El : l = l') by (clear - Hl; induction Hl as [|u u' l l' [E _] Hl IH]; congruence). subst l'.
        split; [reflexivity|]. unfold sim_update.
        assert (Ex : exists v, all_some l = Some v).
        { clear - Hl. induction l as [|u l IH]; [exists []; reflexivity|]. inversion Hl as [|? ? ? ? [_ (b & -> & _)] Hl']. subst.
          destruct (IH Hl') as [v E]. exists (b :: v). cbn. rewrite E. reflexivity. }
        destruct Ex as [v ->]. apply analytic_update, A.
      - intros u u' [<- _]. reflexivity.
      - intros u u' [<- (b & -> & Hb)]. split; [reflexivity|]. exists (copy_tracked b). split; [reflexivity|].
        apply copy_trackable, Hb.
      - split; reflexivity.
      - clear H. induction bunches as [|b l IH]; cbn [map]; constructor.
        + split; [reflexivity|]. exists b. split; [reflexivity|]. apply T. left. reflexivity.
        + apply IH. intros b0 Hb. apply T. right. exact Hb. }
    rewrite H in X. destruct X as (X1 & [_ X2] & _ & _ & X3 & _). split; [|exact X2].
    assert (F : forall l l', Forall2 (fun u u' : option tracked => u = u' /\ exists b, u = Some b /\ trackable b) l l' ->
              forall u, In u l -> u <> None).
    { induction 1 as [|u u' l l' [_ (b & -> & _)] Hl IH]; intros v Hv; [destruct Hv|].
      destruct Hv as [<-|Hv]; [discriminate|apply IH, Hv]. }
    split; [|split].
    - apply (F _ _ X1).
    - congruence.
    - intros o u Ho Hu. clear - F X3 Ho Hu. revert Ho. generalize dependent (out r).
      intros l. generalize l at 2. intros l' X3. induction X3 as [|a a' l l' Ha X3 IH]; intros Ho; [destruct Ho|].
      destruct Ho as [<-|Ho]; [apply (F _ _ Ha u Hu)|apply IH, Ho].
  Qed.
End Runs.
