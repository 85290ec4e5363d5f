(** Lemmas about tracking particle bunches through analytical fields (Model_Run). *)
From Coq Require Import Reals QArith Qreals String List Bool Arith ZArith Lia Lqa Lra.
From Verif Require Import Model_Push Spec_Push Proofs_Push Model_Bunch Spec_Bunch Proofs_Bunch
  Model_Tracker Spec_Tracker Proofs_Tracker Properties_Tracker Model_Run Spec_Run.
Import ListNotations.
Open Scope Q_scope.

Notation pushes_of := (@Spec_Tracker.pushes _).

(** * Along a run *)
Section Along.
  Variables B F : Type.
  Variable evolve : F -> B -> Q -> Q -> B.
  Variable update : nat -> F -> list B -> F.
  Variable auto_dt : B -> Q.
  Variable copy : B -> B.
  Hypothesis Hupd : forall j f l, update j f l = f.
  Variable fs0 : F.
  Variable P : Q -> B -> Prop.
  Hypothesis Pext : forall t t' b, t == t' -> P t b -> P t' b.
  Hypothesis Pstep : forall t t' d b, t' == t -> P t b -> P (t + d) (evolve fs0 b t' d).

  Lemma replay_fs l : forall w, fst (replay B F evolve update l w) = fst w.
  Proof.
    unfold replay. induction l as [|e l IH]; intros [f bs]; [reflexivity|].
    cbn [fold_left]. rewrite IH. destruct e as [i t d y|j t|t sn]; cbn [effect fst].
    - destruct (nth_error bs i); reflexivity.
    - apply Hupd.
    - reflexivity.
  Qed.

  Lemma nth_error_replace_at i (v : B) l k : (i < length l)%nat ->
    nth_error (replace_at B i v l) k = if Nat.eqb k i then Some v else nth_error l k.
  Proof.
    unfold replace_at. revert i k; induction l as [|y l IH]; intros [|i] [|k] H;
      cbn [firstn skipn app nth_error Nat.eqb length] in *; try lia; try reflexivity.
    rewrite IH by lia. destruct (Nat.eqb k i); reflexivity.
  Qed.

  Lemma replay_P i l : forall t0 t bs b, chain t0 (Spec_Tracker.pushes i l) t ->
    nth_error bs i = Some b -> P t0 b ->
    exists b', nth_error (snd (replay B F evolve update l (fs0, bs))) i = Some b' /\ P t b'.
  Proof.
    unfold replay. induction l as [|e l IH]; intros t0 t bs b Hc Hb HP.
    - cbn in *. inversion Hc; subst. exists b. split; [assumption|]. eapply Pext; eassumption.
    - cbn [fold_left]. destruct e as [k s d y|j s|s sn]; cbn [effect Spec_Tracker.pushes] in *.
      + destruct (nth_error bs k) as [bk|] eqn:Ek.
        * assert (Hk : (k < length bs)%nat) by (apply nth_error_Some; congruence).
          destruct (Nat.eqb_spec k i) as [->|Hne].
          -- inversion Hc; subst.
             apply (IH (t0 + d) t _ (evolve fs0 bk s d)).
             ++ assumption.
             ++ rewrite nth_error_replace_at, Nat.eqb_refl by assumption. reflexivity.
             ++ apply Pstep; [assumption|]. congruence.
          -- apply (IH t0 t _ b); try assumption.
             rewrite nth_error_replace_at by assumption.
             destruct (Nat.eqb_spec i k); [congruence|assumption].
        * destruct (Nat.eqb_spec k i) as [->|Hne]; [congruence|].
          apply (IH t0 t _ b); assumption.
      + rewrite Hupd. apply (IH t0 t _ b); assumption.
      + apply (IH t0 t _ b); assumption.
  Qed.

  Variable c : config.
  Variable bs0 : list B.
  Hypothesis Hgood : good_config c bs0.
  Variable m : Q.
  Hypothesis Hauto : bounded_below auto_dt m.
  Hypothesis Hpb : c_push_before c = true.

  Lemma along fuel s i b :
    do_tracking B F evolve update auto_dt copy exact fuel c bs0 fs0 = Done s ->
    nth_error bs0 i = Some b -> P 0 b ->
    (exists b', nth_error (bs s) i = Some b' /\ P (c_tfinal c) b') /\
    (exists o, nth_error (out s) i = Some o /\ length o = S (c_ndiags c) /\
       forall k, (k <= c_ndiags c)%nat ->
       exists b', nth_error o k = Some (copy b') /\
         P (inject_Z (Z.of_nat k) * (c_tfinal c / inject_Z (Z.of_nat (c_ndiags c)))) b').
  Proof.
    intros H Hb HP.
    assert (Hi : (i < length bs0)%nat) by (apply nth_error_Some; congruence).
    split.
    - pose proof (C06_log_explains_state B F evolve update auto_dt copy c bs0 fs0 fuel s exact
                    Hgood H) as E.
      pose proof (C03_pushes_tile_the_interval B F evolve update auto_dt copy c bs0 fs0 m fuel s i
                    Hgood Hauto H Hi Hpb) as (Hc & _).
      destruct (replay_P i (log s) 0 (c_tfinal c) bs0 b Hc Hb HP) as (b' & E' & HP').
      exists b'. rewrite <- E in E'. auto.
    - pose proof (C05_one_output_list_per_bunch B F evolve update auto_dt copy c bs0 fs0 m fuel s
                    exact Hgood Hauto H) as [Lo _].
      destruct (nth_error (out s) i) as [o|] eqn:Eo; [|apply nth_error_None in Eo; lia].
      destruct (C05_outputs_are_synchronous B F evolve update auto_dt copy c bs0 fs0 m fuel s i o
                  Hgood Hauto H Hpb Eo) as [Ln Ho].
      exists o. split; [reflexivity|]. split; [exact Ln|]. intros k Hk.
      destruct (nth_error o k) as [x|] eqn:Ex; [|apply nth_error_None in Ex; lia].
      destruct (Ho k x Ex) as (l1 & t & sn & l2 & b0 & El & _ & Et & E0 & -> & Hc).
      destruct (replay_P i l1 0 t bs0 b Hc Hb HP) as (b' & E' & HP').
      exists b'. split; [congruence|]. eapply Pext; eassumption.
  Qed.
End Along.

(** * Pushes of particle bunches *)
Lemma ready_acting hb fields : ready hb ->
  acting (fst hb) (snd hb) fields = Some fields \/ acting (fst hb) (snd hb) fields = Some [].
Proof.
  destruct hb as [h b]. cbn [fst snd]. intros (V & _ & Hz). cbn [fst snd] in *.
  unfold acting. destruct (z_injection b) as [z|]; [|left; reflexivity].
  destruct Hz as [Hz|Hz]; [discriminate|].
  destruct (amax (rd h (b_xi b))) as [v|] eqn:E.
  - destruct (Rlt_dec _ _); [right|left]; reflexivity.
  - exfalso. apply Hz. destruct (arrays_of_particles h b V) as (_ & _ & Ex & _).
    rewrite Ex in E. destruct (particles h b); [reflexivity|discriminate].
Qed.

(** One push: what it does to a ready bunch in the fields [G]. *)
Lemma evolve_tracked_eff pusher fields G hb t d : known pusher -> gathers fields G -> ready hb ->
  exists fs G', (fs = fields /\ G' = G \/ fs = [] /\ G' = fun _ _ => em0) /\ gathers fs G' /\
  let r := evolve_tracked pusher fields hb t d in
  ready r /\ q_species (snd r) = q_species (snd hb) /\ m_species (snd r) = m_species (snd hb) /\
  z_injection (snd r) = z_injection (snd hb) /\
  seen r = (fresh_push (q_species (snd hb)) (m_species (snd hb))
              (particles (fst hb) (snd hb)) (fs, Q2R t, Q2R d, pusher),
            rd (fst hb) (b_w (snd hb)),
            (prop_distance (snd hb) + c_SI * Q2R d)%R).
Proof.
  intros K HG Hr. destruct hb as [h b].
  assert (Hf : exists fs G', (fs = fields /\ G' = G \/ fs = [] /\ G' = fun _ _ => em0) /\
             gathers fs G' /\ acting h b fields = Some fs).
  { destruct (ready_acting (h, b) fields Hr) as [A|A]; cbn [fst snd] in A.
    - exists fields, G. auto.
    - exists [], (fun _ _ => em0). split; [right; auto|]. split; [apply gathers_nil|exact A]. }
  destruct Hf as (fs & G' & Hc & HG' & A). exists fs, G'. split; [exact Hc|]. split; [exact HG'|].
  destruct Hr as (V & Fi & Hz). cbn [fst snd] in *.
  destruct (evolve_lemma h b fields fs G' (Q2R t) (Q2R d) pusher V Fi K A HG')
    as (h' & b' & E & V' & F' & _ & _ & Pp & W & D & At & _).
  unfold evolve_tracked. cbn [fst snd]. rewrite E. cbn [fst snd].
  injection At as A1 A2 A3 A4 A5 A6 A7 A8.
  split; [|split; [exact A7|split; [exact A8|split; [exact A3|]]]].
  - split; [exact V'|]. split; [exact F'|]. cbn [fst snd]. rewrite A3.
    destruct Hz as [Hz|Hz]; [left; exact Hz|right]. rewrite Pp.
    destruct (fresh_map (q_species b) (m_species b) fs G' (Q2R t) (Q2R d) pusher HG' K)
      as [f Ef]. rewrite Ef. destruct (particles h b); [contradiction|discriminate].
  - unfold seen, contents. cbn [fst snd]. rewrite Pp, W, D. f_equal. ring.
Qed.

Lemma copy_seen hb : ready hb -> seen (copy_tracked hb) = seen hb.
Proof.
  destruct hb as [h b]. intros (V & _). cbn [fst snd] in V. unfold copy_tracked. cbn [fst snd].
  destruct (Model_Bunch.copy h 0 b) as [[h' b'] n'] eqn:E.
  unfold seen. cbn [fst snd]. rewrite (copy_contents h 0 b h' b' n' E). f_equal.
  unfold Model_Bunch.copy in E. cbn in E. injection E as _ <- _. reflexivity.
Qed.

Lemma triple hb l w d : seen hb = (l, w, d) ->
  particles (fst hb) (snd hb) = l /\ rd (fst hb) (b_w (snd hb)) = w /\ prop_distance (snd hb) = d.
Proof. unfold seen, contents. intros H. injection H; auto. Qed.

(** ** Any fields: particles are neither lost nor created *)
Definition kept (hb0 : tracked) (t : Q) (hb : tracked) : Prop :=
  ready hb /\
  length (particles (fst hb) (snd hb)) = length (particles (fst hb0) (snd hb0)) /\
  rd (fst hb) (b_w (snd hb)) = rd (fst hb0) (b_w (snd hb0)) /\
  q_species (snd hb) = q_species (snd hb0) /\ m_species (snd hb) = m_species (snd hb0) /\
  prop_distance (snd hb) = (prop_distance (snd hb0) + c_SI * Q2R t)%R.

Lemma kept_ext hb0 t t' hb : t == t' -> kept hb0 t hb -> kept hb0 t' hb.
Proof.
  intros E (K1 & K2 & K3 & K4 & K5 & K6). unfold kept. rewrite <- (Qeq_eqR _ _ E). auto 10.
Qed.
Lemma kept_step pusher fields G hb0 t t' d hb : known pusher -> gathers fields G ->
  t' == t -> kept hb0 t hb -> kept hb0 (t + d) (evolve_tracked pusher fields hb t' d).
Proof.
  intros K HG _ (K1 & K2 & K3 & K4 & K5 & K6).
  destruct (evolve_tracked_eff pusher fields G hb t' d K HG K1)
    as (fs & G' & _ & HG' & Hr & Eq & Em & _ & Es).
  apply triple in Es as (E1 & E2 & E3).
  destruct (fresh_map (q_species (snd hb)) (m_species (snd hb)) fs G' (Q2R t') (Q2R d) pusher
              HG' K) as [f Ef].
  split; [exact Hr|]. split; [|split; [|split; [|split]]].
  - rewrite E1, Ef, map_length. exact K2.
  - congruence.
  - congruence.
  - congruence.
  - rewrite E3, K6, Q2R_plus. ring.
Qed.
Lemma kept_start hb : ready hb -> kept hb 0 hb.
Proof.
  intros Hr. split; [exact Hr|]. do 4 (split; [reflexivity|]).
  assert (E0 : Q2R 0 = 0%R) by (unfold Q2R; cbn; lra). rewrite E0. ring.
Qed.

(** ** No fields *)
Definition flown (hb0 : tracked) (t : Q) (hb : tracked) : Prop :=
  ready hb /\
  seen hb = (map (drift (Q2R t)) (particles (fst hb0) (snd hb0)),
             rd (fst hb0) (b_w (snd hb0)), (prop_distance (snd hb0) + c_SI * Q2R t)%R).
Lemma flown_ext hb0 t t' hb : t == t' -> flown hb0 t hb -> flown hb0 t' hb.
Proof. intros E [H1 H2]. unfold flown. rewrite <- (Qeq_eqR _ _ E). auto. Qed.
Lemma flown_step pusher hb0 t t' d hb : known pusher ->
  t' == t -> flown hb0 t hb -> flown hb0 (t + d) (evolve_tracked pusher [] hb t' d).
Proof.
  intros K _ [Hr Es0].
  destruct (evolve_tracked_eff pusher [] (fun _ _ => em0) hb t' d K gathers_nil Hr)
    as (fs & G' & Hc & HG' & Hr' & _ & _ & _ & Es).
  split; [exact Hr'|]. rewrite Es.
  assert (fs = []) as -> by (destruct Hc as [[-> _]|[-> _]]; reflexivity).
  apply triple in Es0 as (E1 & E2 & E3).
  rewrite fresh_free by exact K. rewrite E1, E2, E3, map_map, Q2R_plus. f_equal; [f_equal|ring].
  apply map_ext. intros p. rewrite drift_add. f_equal. ring.
Qed.
Lemma flown_start hb : ready hb -> flown hb 0 hb.
Proof.
  intros Hr. split; [exact Hr|]. unfold seen, contents.
  assert (E0 : Q2R 0 = 0%R) by (unfold Q2R; cbn; lra).
  rewrite E0. f_equal; [f_equal|ring].
  rewrite <- (map_id (particles (fst hb) (snd hb))) at 1. apply map_ext.
  intros p. symmetry. apply drift_zero.
Qed.

(** ** Magnetic fields *)
Definition same_energy (hb0 : tracked) (t : Q) (hb : tracked) : Prop :=
  ready hb /\
  map pmod (particles (fst hb) (snd hb)) = map pmod (particles (fst hb0) (snd hb0)).
Lemma same_energy_ext hb0 t t' hb : t == t' -> same_energy hb0 t hb -> same_energy hb0 t' hb.
Proof. intros _ H. exact H. Qed.
Lemma same_energy_step fields G hb0 t t' d hb :
  gathers fields G -> (forall r s, e_field (G r s) = (0, 0, 0)%R) ->
  t' == t -> same_energy hb0 t hb ->
  same_energy hb0 (t + d) (evolve_tracked "boris" fields hb t' d).
Proof.
  intros HG HE _ [Hr Es0].
  destruct (evolve_tracked_eff "boris" fields G hb t' d (or_intror eq_refl) HG Hr)
    as (fs & G' & Hc & HG' & Hr' & _ & _ & _ & Es).
  split; [exact Hr'|]. apply triple in Es as (E1 & _ & _).
  rewrite E1, (fresh_boris _ _ fs G') by exact HG'. rewrite map_map, <- Es0.
  apply map_ext. intros p. apply boris1_modulus. intros r s.
  destruct Hc as [[_ ->]|[_ ->]]; [apply HE|reflexivity].
Qed.
Lemma same_energy_start hb : ready hb -> same_energy hb 0 hb.
Proof. intros Hr. split; [exact Hr|reflexivity]. Qed.
