(** Bunches that represent the same distribution. *)
From Coq Require Import QArith Reals Qreals String List Arith Lia Lra Permutation.
From Coquelicot Require Import Coquelicot.
From Verif Require Model_Laser.
From Verif Require Import Model_Push Spec_Push Proofs_Push Model_Interp Model_QS Model_Tracker Model_Run Model_RZ
  Model_Bunch Spec_Bunch Proofs_Bunch Model_Sim Spec_Sim Proofs_Sim Proofs_Sim2 Proofs_Sim3 Proofs_Sim4 Proofs_Sim5.
Import ListNotations.
Open Scope R_scope.

Lemma amax_none l : amax l = None <-> l = [].
Proof. destruct l; split; try discriminate; reflexivity. Qed.
Lemma amax_same l l' : (forall v, In v l <-> In v l') -> amax l = amax l'.
Proof.
  intros H. destruct (amax l) as [m|] eqn:E, (amax l') as [m'|] eqn:E'.
  - apply amax_spec in E as [I1 L1]. apply amax_spec in E' as [I2 L2]. f_equal. apply Rle_antisym.
    + apply L2, H, I1.
    + apply L1, H, I2.
  - apply amax_none in E'. subst. apply amax_spec in E as [I1 _]. apply H in I1. destruct I1.
  - apply amax_none in E. subst. apply amax_spec in E' as [I1 _]. apply H in I1. destruct I1.
  - reflexivity.
Qed.
Lemma map_support {A B} (f : A -> B) l l' : (forall a, In a l <-> In a l') -> forall b, In b (map f l) <-> In b (map f l').
Proof. intros H b. rewrite !in_map_iff. split; intros (a & E & Ha); exists a; (split; [exact E|apply H, Ha]). Qed.
Lemma travo_same {A B} (f : A -> option B) l l' : (forall a, In a l <-> In a l') ->
  travo f l = None <-> travo f l' = None.
Proof. intros H. rewrite !travo_none. split; intros (a & Ha & E); exists a; (split; [apply H, Ha|exact E]). Qed.
Lemma weighted_map f l : forall w g, weighted (map f l) w g = weighted l w (fun p => g (f p)).
Proof. unfold weighted. intros w g. rewrite map2_map_l. reflexivity. Qed.
Lemma push_distribution pusher fields hb hb' t dt : same_distribution hb hb' ->
  both same_distribution (push_bunch pusher fields hb t dt) (push_bunch pusher fields hb' t dt).
Proof.
  intros (S1 & S2 & At & P & W).
  pose proof (push_cases pusher fields hb t dt S1) as C1. pose proof (push_cases pusher fields hb' t dt S2) as C2.
  assert (EA : acts hb fields = acts hb' fields).
  { apply acts_same; [exact At|]. apply amax_same, map_support, P. }
  assert (E : exists f, pushed pusher fields hb t dt = bindo (acts hb fields) (fun fs => if knownb pusher then travo (f fs) (parts hb) else None) /\
    pushed pusher fields hb' t dt = bindo (acts hb fields) (fun fs => if knownb pusher then travo (f fs) (parts hb') else None)).
  { exists (fun fs => push1 pusher fs (q_species (snd hb)) (m_species (snd hb)) t dt). unfold pushed.
    destruct At as (_ & _ & _ & _ & _ & _ & _ & Eq & Em). rewrite <- EA, <- Eq, <- Em. split; reflexivity. }
  destruct E as (f & E1 & E2).
  destruct (push_bunch pusher fields hb t dt) as [u|], (push_bunch pusher fields hb' t dt) as [u'|]; cbn [both].
  - destruct C1 as (Q1 & T1 & W1 & M1), C2 as (Q2 & T2 & W2 & M2). rewrite Q1 in E1. rewrite Q2 in E2.
    destruct (acts hb fields) as [fs|]; [|discriminate]. cbn [bindo] in E1, E2. destruct (knownb pusher); [|discriminate].
    symmetry in E1, E2. apply travo_or_self in E1 as [E1 _]. apply travo_or_self in E2 as [E2 _].
    split; [exact T1|]. split; [exact T2|]. split; [eapply moved_same; eassumption|]. rewrite E1, E2. split.
    + apply map_support, P.
    + intros g. rewrite !weighted_map, W1, W2. apply W.
  - destruct C1 as (Q1 & _). rewrite Q1 in E1. rewrite C2 in E2. destruct (acts hb fields) as [fs|]; [|discriminate].
    cbn [bindo] in E1, E2. destruct (knownb pusher); [|discriminate]. symmetry in E2.
    apply (travo_same (f fs) (parts hb) (parts hb') P) in E2. congruence.
  - destruct C2 as (Q2 & _). rewrite Q2 in E2. rewrite C1 in E1. destruct (acts hb fields) as [fs|]; [|discriminate].
    cbn [bindo] in E1, E2. destruct (knownb pusher); [|discriminate]. symmetry in E1.
    apply (travo_same (f fs) (parts hb) (parts hb') P) in E1. congruence.
  - exact I.
Qed.
Lemma copy_distribution hb hb' : same_distribution hb hb' -> same_distribution (copy_tracked hb) (copy_tracked hb').
Proof.
  intros (S1 & S2 & At & P & W). destruct (copy_sound hb S1) as (T1 & P1 & W1 & C1).
  destruct (copy_sound hb' S2) as (T2 & P2 & W2 & C2).
  split; [exact T1|]. split; [exact T2|]. split; [eapply copied_same; eassumption|]. rewrite P2, P1, W2, W1. auto.
Qed.
Lemma sound_lengths hb : sound hb -> length (weights hb) = length (parts hb).
Proof.
  intros [(_ & _ & V) _]. unfold weights, parts. rewrite particles_length. apply V. unfold footprint. simpl. auto 10.
Qed.
Lemma keys_of l : forall w : list R, length w = length l -> map key (combine (map pos_of l) w) = map (fun p => (x p ^ 2 + y p ^ 2, xi p)) l.
Proof.
  induction l as [|p l IH]; intros [|v w] H; try discriminate; [reflexivity|]. cbn [map combine]. rewrite IH by (cbn in H; lia). reflexivity.
Qed.
Lemma qsum_of l q g : forall w, qsum (combine (map pos_of l) (map (fun v => v * q) w)) g =
  q * weighted l w (fun p => g (x p ^ 2 + y p ^ 2) (xi p)).
Proof.
  induction l as [|p l IH]; intros [|v w]; try (cbn; ring). specialize (IH w). unfold qsum, weighted in *.
  cbn [map combine map2 fold_right]. rewrite IH. cbn [key pos_of fst snd]. ring.
Qed.
Lemma charges_distribution hb hb' : same_distribution hb hb' -> alike (charges_of hb) (charges_of hb').
Proof.
  intros (S1 & S2 & At & P & W). unfold charges_of, get_q.
  change (particles (fst hb) (snd hb)) with (parts hb). change (particles (fst hb') (snd hb')) with (parts hb').
  change (rd (fst hb) (b_w (snd hb))) with (weights hb). change (rd (fst hb') (b_w (snd hb'))) with (weights hb').
  destruct At as (_ & _ & _ & _ & _ & _ & _ & Eq & _). rewrite <- Eq. split.
  - intros k. rewrite !keys_of by (rewrite map_length; apply sound_lengths; assumption). apply map_support, P.
  - intros g. rewrite !qsum_of, W. reflexivity.
Qed.
Section Runs.
  Variable to_main : Model_Laser.sparams -> nat * nat -> Model_Laser.carr2 -> Model_Laser.carr2.
  Variable to_sub : Model_Laser.sparams -> nat * nat -> (nat -> nat -> R) -> (nat -> nat -> R).
  Variables e_ch m_e eps_0 light : R.
  Variables (argsort : list R -> list nat) (skin_depth wave_breaking : R -> R).
  Variable pusher : string.
  Variable auto_dt : option tracked -> Q.
  Variable rnd : Q -> Q.
  Notation sim := (simulate to_main to_sub e_ch m_e eps_0 light argsort skin_depth wave_breaking pusher auto_dt rnd).
  Lemma run_distribution fuel c l l' fields :
    (forall u u', same_distribution u u' -> auto_dt (Some u) = auto_dt (Some u')) ->
    Forall2 same_distribution l l' -> same_run eq (both same_distribution) (sim fuel c l fields) (sim fuel c l' fields).
  Proof.
    intros Ha Hl. unfold simulate. apply run_related.
    - intros f f' b b' t dt <- Hb. unfold sim_evolve. destruct f as [f|]; [|exact I].
      destruct b as [b|], b' as [b'|]; cbn in Hb; try contradiction; [|exact I]. apply push_distribution; assumption.
    - intros j f f' u u' <- Hu.
      apply (sim_update_same to_main to_sub e_ch m_e eps_0 light argsort skin_depth wave_breaking same_distribution); [|exact Hu].
      apply charges_distribution.
    - intros [b|] [b'|] Hb; cbn in Hb; try contradiction; [apply Ha, Hb|reflexivity].
    - intros [b|] [b'|] Hb; cbn in Hb; try contradiction; [apply copy_distribution, Hb|exact I].
    - reflexivity.
    - apply map_some_both, Hl.
  Qed.
End Runs.
(** Reordering the macroparticles, or replacing one by several at the same place with the same total weight. *)
Lemma weighted_combine l : forall w g, weighted l w g = fold_right Rplus 0 (map (fun pw => snd pw * g (fst pw)) (combine l w)).
Proof. unfold weighted. induction l as [|p l IH]; intros [|v w] g; try reflexivity. cbn. rewrite IH. reflexivity. Qed.
Lemma sum_permutation l l' : Permutation l l' -> fold_right Rplus 0 l = fold_right Rplus 0 l'.
Proof. induction 1; cbn; lra. Qed.
Lemma reordered hb hb' : sound hb -> sound hb' -> same_attributes (snd hb) (snd hb') ->
  Permutation (combine (parts hb) (weights hb)) (combine (parts hb') (weights hb')) -> same_distribution hb hb'.
Proof.
  intros S1 S2 At P. split; [exact S1|]. split; [exact S2|]. split; [exact At|].
  assert (F : forall hb, sound hb -> parts hb = map fst (combine (parts hb) (weights hb))).
  { intros u Su. pose proof (sound_lengths u Su) as L. revert L. generalize (parts u), (weights u).
    induction l as [|p l IH]; intros [|v w] H; try discriminate; [reflexivity|]. cbn. f_equal. apply IH. cbn in H. lia. }
  split.
  - intros p. rewrite (F hb S1), (F hb' S2). pose proof (Permutation_map fst P) as Q.
    split; apply Permutation_in; [exact Q|symmetry; exact Q].
  - intros g. rewrite !weighted_combine. apply sum_permutation, Permutation_map, P.
Qed.
Lemma weighted_app l1 l2 w1 w2 g : length l1 = length w1 -> weighted (l1 ++ l2) (w1 ++ w2) g = weighted l1 w1 g + weighted l2 w2 g.
Proof.
  unfold weighted. revert w1. induction l1 as [|p l1 IH]; intros [|v w1] H; try discriminate; cbn; [lra|].
  rewrite IH by (cbn in H; lia). lra.
Qed.
Lemma weighted_repeat p vs g : weighted (repeat p (length vs)) vs g = fold_right Rplus 0 vs * g p.
Proof. unfold weighted. induction vs as [|v vs IH]; cbn; [ring|]. rewrite IH. ring. Qed.
Lemma split_particle hb hb' l1 p l2 w1 v w2 vs : sound hb -> sound hb' -> same_attributes (snd hb) (snd hb') ->
  length l1 = length w1 -> vs <> [] -> fold_right Rplus 0 vs = v ->
  parts hb = l1 ++ p :: l2 -> weights hb = w1 ++ v :: w2 ->
  parts hb' = l1 ++ repeat p (length vs) ++ l2 -> weights hb' = w1 ++ vs ++ w2 ->
  same_distribution hb hb'.
Proof.
  intros S1 S2 At L N V P1 W1 P2 W2. split; [exact S1|]. split; [exact S2|]. split; [exact At|].
  rewrite P1, P2, W1, W2. split.
  - intros u. rewrite !in_app_iff. cbn [In]. destruct vs as [|v0 vs]; [congruence|]. split.
    + intros [H|[H|H]]; auto. right. left. left. exact H.
    + intros [H|[H|H]]; auto. apply repeat_spec in H. auto.
  - intros g. rewrite !weighted_app by (rewrite ?repeat_length; auto). rewrite weighted_repeat, V.
    unfold weighted at 2. cbn. unfold weighted. lra.
Qed.
