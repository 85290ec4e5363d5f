(** Lemmas: what a push keeps, through whole simulations with wakefields. *)
From Coq Require Import Reals QArith Qreals String List Bool Arith ZArith Lia Lqa Lra.
From Coquelicot Require Import Coquelicot.
From Verif Require Model_Laser Proofs_Run.
From Verif Require Import Model_Push Model_Bunch Spec_Bunch Model_Interp
  Model_Tracker Spec_Tracker Proofs_Tracker Properties_Tracker Model_Run Spec_Run Model_RZ Model_Sim Spec_Sim
  Proofs_Sim3 Proofs_Sim4 Spec_Group.
Import ListNotations.
Open Scope Q_scope.

(** As Proofs_Run.along, for fields that change. *)
Section Along.
  Variables B F : Type.
  Variable evolve : F -> B -> Q -> Q -> B.
  Variable update : nat -> F -> list B -> F.
  Variable auto_dt : B -> Q.
  Variable copy : B -> B.
  Variable fs0 : F.
  Variable P : Q -> B -> Prop.
  Hypothesis Pext : forall t t' b, t == t' -> P t b -> P t' b.
  Hypothesis Pstep : forall f t t' d b, t' == t -> P t b -> P (t + d) (evolve f b t' d).

  Lemma replay_P i l : forall f t0 t bs b, chain t0 (Spec_Tracker.pushes i l) t ->
    nth_error bs i = Some b -> P t0 b ->
    exists b', nth_error (snd (replay B F evolve update l (f, bs))) i = Some b' /\ P t b'.
  Proof.
    unfold replay. induction l as [|e l IH]; intros f t0 t bs b Hc Hb HP.
    - cbn in *. inversion Hc; subst. exists b. split; [assumption|]. eapply Pext; eassumption.
    - cbn [fold_left]. destruct e as [k s d y|j s|s sn]; cbn [effect Spec_Tracker.pushes] in *.
      + destruct (nth_error bs k) as [bk|] eqn:Ek.
        * assert (Hk : (k < length bs)%nat) by (apply nth_error_Some; congruence).
          destruct (Nat.eqb_spec k i) as [->|Hne].
          -- inversion Hc; subst.
             apply (IH f (t0 + d) t _ (evolve f bk s d)).
             ++ assumption.
             ++ rewrite Proofs_Run.nth_error_replace_at, Nat.eqb_refl by assumption. reflexivity.
             ++ apply Pstep; [assumption|]. congruence.
          -- apply (IH f t0 t _ b); try assumption.
             rewrite Proofs_Run.nth_error_replace_at by assumption.
             destruct (Nat.eqb_spec i k); [congruence|assumption].
        * destruct (Nat.eqb_spec k i) as [->|Hne]; [congruence|].
          apply (IH f t0 t _ b); assumption.
      + apply (IH _ t0 t _ b); assumption.
      + apply (IH f t0 t _ b); assumption.
  Qed.

  Variable c : config.
  Variable bs0 : list B.
  Hypothesis Hgood : good_config c bs0.
  Variable m : Q.
  Hypothesis Hauto : bounded_below auto_dt m.
  Hypothesis Hpb : c_push_before c = true.

  Lemma along_any fuel s i b :
    do_tracking B F evolve update auto_dt copy exact fuel c bs0 fs0 = Done s ->
    nth_error bs0 i = Some b -> P 0 b ->
    (exists b', nth_error (bs s) i = Some b' /\ P (c_tfinal c) b') /\
    (exists o, nth_error (out s) i = Some o /\ length o = S (c_ndiags c) /\
       forall k, (k <= c_ndiags c)%nat ->
       exists b', nth_error o k = Some (copy b') /\
         P (inject_Z (Z.of_nat k) * (c_tfinal c / inject_Z (Z.of_nat (c_ndiags c)))) b').
  Proof.
    intros H Hb HP.
    assert (Hi : (i < length bs0)%nat) by (apply nth_error_Some; congruence).
    split.
    - pose proof (C06_log_explains_state B F evolve update auto_dt copy c bs0 fs0 fuel s exact
                    Hgood H) as E.
      pose proof (C03_pushes_tile_the_interval B F evolve update auto_dt copy c bs0 fs0 m fuel s i
                    Hgood Hauto H Hi Hpb) as (Hc & _).
      destruct (replay_P i (log s) fs0 0 (c_tfinal c) bs0 b Hc Hb HP) as (b' & E' & HP').
      exists b'. rewrite <- E in E'. auto.
    - pose proof (C05_one_output_list_per_bunch B F evolve update auto_dt copy c bs0 fs0 m fuel s
                    exact Hgood Hauto H) as [Lo _].
      destruct (nth_error (out s) i) as [o|] eqn:Eo; [|apply nth_error_None in Eo; lia].
      destruct (C05_outputs_are_synchronous B F evolve update auto_dt copy c bs0 fs0 m fuel s i o
                  Hgood Hauto H Hpb Eo) as [Ln Ho].
      exists o. split; [reflexivity|]. split; [exact Ln|]. intros k Hk.
      destruct (nth_error o k) as [x|] eqn:Ex; [|apply nth_error_None in Ex; lia].
      destruct (Ho k x Ex) as (l1 & t & sn & l2 & b0 & El & _ & Et & E0 & -> & Hc).
      destruct (replay_P i l1 fs0 0 t bs0 b Hc Hb HP) as (b' & E' & HP').
      exists b'. split; [congruence|]. eapply Pext; eassumption.
  Qed.
End Along.

(** What a push keeps. *)
Definition keeps (b0 : tracked) (t : Q) (u : option tracked) : Prop :=
  forall b, u = Some b -> sound b /\ length (parts b) = length (parts b0) /\ weights b = weights b0 /\
    moved_on (snd b0) (snd b) (Q2R t * c_SI).
Lemma keeps_ext b0 t t' u : t == t' -> keeps b0 t u -> keeps b0 t' u.
Proof. intros E H b Eb. rewrite <- (Qeq_eqR _ _ E). apply H, Eb. Qed.
Lemma keeps_start b : sound b -> keeps b 0 (Some b).
Proof.
  intros S b' E. injection E as <-. split; [exact S|]. do 2 (split; [reflexivity|]).
  unfold moved_on. replace (Q2R 0) with 0%R by (unfold Q2R; cbn; lra).
  split; [reflexivity|]. split; [ring|]. repeat split.
Qed.
Lemma pushed_length pusher fields b t dt l : pushed pusher fields b t dt = Some l -> length l = length (parts b).
Proof.
  unfold pushed. destruct (acts b fields) as [fs|]; [|discriminate]. destruct (knownb pusher); [|discriminate].
  apply travo_length.
Qed.
Lemma keeps_step pusher b0 f t t' d u : t' == t -> keeps b0 t u -> keeps b0 (t + d) (sim_evolve pusher f u t' d).
Proof.
  intros _ H b' E. unfold sim_evolve in E. destruct f as [fields|]; [|discriminate]. destruct u as [b|]; [|discriminate].
  destruct (H b eq_refl) as (S & L & W & M).
  pose proof (push_cases pusher fields b (Q2R t') (Q2R d) S) as C. rewrite E in C. destruct C as (Q1 & S' & W' & M').
  apply pushed_length in Q1.
  split; [exact S'|]. split; [congruence|]. split; [congruence|].
  unfold moved_on in *. destruct M as (M1 & M2 & M3 & M4 & M5 & M6 & M7 & M8 & M9).
  destruct M' as (N1 & N2 & N3 & N4 & N5 & N6 & N7 & N8 & N9).
  split; [congruence|]. split; [rewrite N2, M2, Q2R_plus; ring|]. repeat split; congruence.
Qed.
