(** Lemmas: tracking in fitting steps is calling [evolve] step by step. *)
From Coq Require Import Reals QArith Qreals String List Bool Arith ZArith Lia Lqa Lra.
From Verif Require Import Model_Push Spec_Push Proofs_Push Model_Bunch Spec_Bunch Proofs_Bunch
  Model_Tracker Spec_Tracker Proofs_Tracker Properties_Tracker Model_Run Spec_Run Proofs_Run Spec_Split Proofs_Split.
Import ListNotations.
Open Scope Q_scope.

(** What a later push depends on. *)
Definition view (hb : tracked) : (list part * list R * R) * (R * R * option R) :=
  (seen hb, (q_species (snd hb), m_species (snd hb), z_injection (snd hb))).

Lemma view_parts hb hb' : view hb = view hb' ->
  particles (fst hb) (snd hb) = particles (fst hb') (snd hb') /\ rd (fst hb) (b_w (snd hb)) = rd (fst hb') (b_w (snd hb')) /\
  prop_distance (snd hb) = prop_distance (snd hb') /\ q_species (snd hb) = q_species (snd hb') /\
  m_species (snd hb) = m_species (snd hb') /\ z_injection (snd hb) = z_injection (snd hb').
Proof. unfold view, seen, contents. intros E. injection E. auto 10. Qed.

Lemma acting_view hb hb' fields : ready hb -> ready hb' -> view hb = view hb' ->
  acting (fst hb) (snd hb) fields = acting (fst hb') (snd hb') fields.
Proof.
  intros (V & _) (V' & _) E. apply view_parts in E as (E1 & _ & E3 & _ & _ & E6). unfold acting. rewrite E6, E3.
  destruct (arrays_of_particles _ _ V) as (_ & _ & X & _). destruct (arrays_of_particles _ _ V') as (_ & _ & X' & _).
  rewrite X, X', E1. reflexivity.
Qed.

(** One push, with the fields that act. *)
Lemma evolve_view pusher fields G hb t d : known pusher -> gathers fields G -> ready hb ->
  exists fs G', acting (fst hb) (snd hb) fields = Some fs /\
    (fs = fields /\ G' = G \/ fs = [] /\ G' = fun _ _ => em0) /\ gathers fs G' /\
  let r := evolve_tracked pusher fields hb t d in
  ready r /\
  view r = ((fresh_push (q_species (snd hb)) (m_species (snd hb))
              (particles (fst hb) (snd hb)) (fs, Q2R t, Q2R d, pusher),
            rd (fst hb) (b_w (snd hb)),
            (prop_distance (snd hb) + c_SI * Q2R d)%R),
            (q_species (snd hb), m_species (snd hb), z_injection (snd hb))).
Proof.
  intros K HG Hr. destruct hb as [h b].
  assert (Hf : exists fs G', (fs = fields /\ G' = G \/ fs = [] /\ G' = fun _ _ => em0) /\
             gathers fs G' /\ acting h b fields = Some fs).
  { destruct (ready_acting (h, b) fields Hr) as [A|A]; cbn [fst snd] in A.
    - exists fields, G. auto.
    - exists [], (fun _ _ => em0). split; [right; auto|]. split; [apply gathers_nil|exact A]. }
  destruct Hf as (fs & G' & Hc & HG' & A). exists fs, G'. split; [exact A|]. split; [exact Hc|]. split; [exact HG'|].
  destruct Hr as (V & Fi & Hz). cbn [fst snd] in *.
  destruct (evolve_lemma h b fields fs G' (Q2R t) (Q2R d) pusher V Fi K A HG')
    as (h' & b' & E & V' & F' & _ & _ & Pp & W & D & At & _).
  unfold evolve_tracked. cbn [fst snd]. rewrite E. cbn [fst snd].
  injection At as A1 A2 A3 A4 A5 A6 A7 A8.
  split.
  - split; [exact V'|]. split; [exact F'|]. cbn [fst snd]. rewrite A3.
    destruct Hz as [Hz|Hz]; [left; exact Hz|right]. rewrite Pp.
    destruct (fresh_map (q_species b) (m_species b) fs G' (Q2R t) (Q2R d) pusher HG' K)
      as [f Ef]. rewrite Ef. destruct (particles h b); [contradiction|discriminate].
  - unfold view, seen, contents. cbn [fst snd]. rewrite Pp, W, D, A7, A8, A3. do 2 f_equal. ring.
Qed.
Lemma evolve_ready pusher fields G hb t d : known pusher -> gathers fields G -> ready hb ->
  ready (evolve_tracked pusher fields hb t d).
Proof. intros K HG Hr. destruct (evolve_view pusher fields G hb t d K HG Hr) as (fs & G' & _ & _ & _ & R1 & _). exact R1. Qed.

Lemma evolve_same pusher fields G hb hb' t t' d d' : known pusher -> gathers fields G -> ready hb -> ready hb' ->
  view hb = view hb' -> t == t' -> d == d' ->
  view (evolve_tracked pusher fields hb t d) = view (evolve_tracked pusher fields hb' t' d').
Proof.
  intros K HG Hr Hr' E Et Ed.
  destruct (evolve_view pusher fields G hb t d K HG Hr) as (fs & G1 & A & _ & _ & _ & ->).
  destruct (evolve_view pusher fields G hb' t' d' K HG Hr') as (fs' & G1' & A' & _ & _ & _ & ->).
  rewrite (acting_view hb hb' fields Hr Hr' E), A' in A. injection A as ->.
  apply view_parts in E as (-> & -> & -> & -> & -> & ->).
  rewrite (Qeq_eqR _ _ Et), (Qeq_eqR _ _ Ed). reflexivity.
Qed.

(** A push of no duration changes no particle. *)
Lemma part_eq p q : x p = x q -> y p = y q -> xi p = xi q -> px p = px q -> py p = py q -> pz p = pz q -> p = q.
Proof. destruct p, q. cbn. congruence. Qed.
Lemma padd_nothing p w : padd p (pscal (0 / 6) w) = p.
Proof. unfold padd, pscal. apply part_eq; cbn [x y xi px py pz]; unfold Rdiv; ring. Qed.
Lemma rk4_zero f t p : classical_rk4 f t 0 p = p.
Proof. unfold classical_rk4. cbv zeta. apply padd_nothing. Qed.
Lemma momentum_zero k p f : push_momentum1 0 k p f = p.
Proof.
  unfold push_momentum1. cbv zeta.
  replace (k * 0 / 2)%R with 0%R by (unfold Rdiv; ring).
  apply part_eq; cbn [x y xi px py pz]; ring.
Qed.
Lemma boris_zero k G t p : boris1 k G t 0 p = p.
Proof.
  unfold boris1. cbv zeta. replace (0 / 2)%R with 0%R by (unfold Rdiv; ring).
  rewrite momentum_zero, !drift_zero. reflexivity.
Qed.
Lemma evolve_zero pusher fields G hb t d : known pusher -> gathers fields G -> ready hb -> d == 0 ->
  view (evolve_tracked pusher fields hb t d) = view hb.
Proof.
  intros K HG Hr Ed. destruct (evolve_view pusher fields G hb t d K HG Hr) as (fs & G1 & A & _ & HG1 & _ & ->).
  rewrite (Qeq_eqR _ _ Ed). replace (Q2R 0) with 0%R by (unfold Q2R; cbn; lra).
  unfold view, seen, contents. do 3 f_equal; [|ring].
  destruct K as [-> | ->].
  - rewrite (fresh_rk4 _ _ fs G1) by exact HG1. rewrite <- (map_id (particles (fst hb) (snd hb))) at 2.
    apply map_ext. intros p. apply rk4_zero.
  - rewrite (fresh_boris _ _ fs G1) by exact HG1. rewrite <- (map_id (particles (fst hb) (snd hb))) at 2.
    apply map_ext. intros p. apply boris_zero.
Qed.

Lemma rk4_static f t t' dt p : (forall s s' p', f s p' = f s' p') -> classical_rk4 f t dt p = classical_rk4 f t' dt p.
Proof.
  intros H. unfold classical_rk4. cbv zeta.
  rewrite (H t t'), !(H (t + dt / 2) (t' + dt / 2))%R, (H (t + dt) (t' + dt))%R. reflexivity.
Qed.
(** Static fields: the time of a push is immaterial. *)
Lemma evolve_static pusher fields hb t t' d : known pusher -> static fields -> ready hb ->
  view (evolve_tracked pusher fields hb t d) = view (evolve_tracked pusher fields hb t' d).
Proof.
  intros K (G & HG & St) Hr.
  destruct (evolve_view pusher fields G hb t d K HG Hr) as (fs & G1 & A & C1 & HG1 & _ & ->).
  destruct (evolve_view pusher fields G hb t' d K HG Hr) as (fs' & G1' & A' & C1' & HG1' & _ & ->).
  rewrite A in A'. injection A' as <-.
  assert (St1 : forall r s s', G1 r s = G1 r s').
  { destruct C1 as [[_ ->]|[_ ->]]; [exact St|reflexivity]. }
  do 3 f_equal. destruct K as [-> | ->].
  - rewrite !(fresh_rk4 _ _ fs G1) by exact HG1. apply map_ext. intros p.
    apply rk4_static. intros s s' p'. unfold lorentz. rewrite (St1 _ s s'). reflexivity.
  - rewrite !(fresh_boris _ _ fs G1) by exact HG1. apply map_ext. intros p.
    unfold boris1. cbv zeta. do 2 f_equal. apply St1.
Qed.

Section Steps.
  Variable pusher : string.
  Variable fields : list field.
  Variable G : pos -> R -> em.
  Hypothesis K : known pusher.
  Hypothesis HG : gathers fields G.

  Lemma by_hand_ready d b : ready b -> forall n, ready (by_hand pusher fields d n b).
  Proof. intros Hr n. induction n as [|n IH]; cbn [by_hand]; [exact Hr|]. apply (evolve_ready pusher fields G); assumption. Qed.

  Definition stepped_so_far d b0 (j : nat) (b : tracked) : Prop :=
    ready b /\ view b = view (by_hand pusher fields d j b0).
  Lemma stepped_next d b0 : ready b0 -> forall j t x b, t == times j d -> x == d ->
    stepped_so_far d b0 j b -> stepped_so_far d b0 (S j) (evolve_tracked pusher fields b t x).
  Proof.
    intros H0 j t x b Et Ex [Hr E]. split; [apply (evolve_ready pusher fields G); assumption|].
    cbn [by_hand]. apply (evolve_same pusher fields G); try assumption. apply by_hand_ready, H0.
  Qed.
  Lemma stepped_zero d b0 : forall j t x b, t == times j d -> x == 0 ->
    stepped_so_far d b0 j b -> stepped_so_far d b0 j (evolve_tracked pusher fields b t x).
  Proof.
    intros j t x b _ Ex [Hr E]. split; [apply (evolve_ready pusher fields G); assumption|].
    rewrite <- E. apply (evolve_zero pusher fields G); assumption.
  Qed.

  Lemma tracking_is_stepping auto_dt m fuel c bunches s i b d k :
    good_config c bunches -> bounded_below auto_dt m -> steps_fit c i d k ->
    track pusher auto_dt exact fields fuel c bunches = Model_Tracker.Done s ->
    nth_error bunches i = Some b -> ready b ->
    (exists r, nth_error (bs s) i = Some r /\ ready r /\ view r = view (by_hand pusher fields d (c_ndiags c * k) b)) /\
    (exists o, nth_error (out s) i = Some o /\ length o = S (c_ndiags c) /\
       forall q, (q <= c_ndiags c)%nat -> exists r, nth_error o q = Some r /\ seen r = seen (by_hand pusher fields d (q * k) b)).
  Proof.
    intros Hg Ha (Hpb & Hd & Hk) H Hb Hr.
    assert (Hi : (i < length bunches)%nat) by (apply nth_error_Some; congruence).
    destruct (along_steps tracked (list field) (evolve_tracked pusher) no_update auto_dt copy_tracked c bunches fields
                Hg m Ha Hpb fuel s H i d k Hi Hd Hk (fun _ _ _ => eq_refl) (stepped_so_far d b)
                (stepped_next d b Hr) (stepped_zero d b) b Hb (conj Hr eq_refl)) as ((r & Er & Rr & Vr) & (o & Eo & Lo & Ho)).
    split.
    - exists r. auto.
    - exists o. split; [exact Eo|]. split; [exact Lo|]. intros q Hq. destruct (Ho q Hq) as (r' & E' & Rr' & Vr').
      exists (copy_tracked r'). split; [exact E'|]. rewrite copy_seen by exact Rr'. unfold view in Vr'. congruence.
  Qed.
End Steps.

Lemma by_hand_app pusher fields d b : known pusher -> static fields -> ready b -> forall n2 n1,
  view (by_hand pusher fields d (n2 + n1) b) = view (by_hand pusher fields d n2 (by_hand pusher fields d n1 b)).
Proof.
  intros K St Hr. pose proof St as (G & HG & _). induction n2 as [|n2 IH]; intros n1; [reflexivity|].
  cbn [by_hand Nat.add]. etransitivity.
  - apply (evolve_static pusher fields _ _ (times n2 d)); [exact K|exact St|]. apply (by_hand_ready pusher fields G K HG), Hr.
  - apply (evolve_same pusher fields G); try assumption; try reflexivity.
    + apply (by_hand_ready pusher fields G K HG), Hr.
    + apply (by_hand_ready pusher fields G K HG), (by_hand_ready pusher fields G K HG), Hr.
    + apply IH.
Qed.
Lemma by_hand_view pusher fields d b b' G : known pusher -> gathers fields G -> ready b -> ready b' -> view b = view b' ->
  forall n, view (by_hand pusher fields d n b) = view (by_hand pusher fields d n b').
Proof.
  intros K HG Hr Hr' E. induction n as [|n IH]; [exact E|]. cbn [by_hand].
  apply (evolve_same pusher fields G); try assumption; try reflexivity; apply (by_hand_ready pusher fields G K HG); assumption.
Qed.
