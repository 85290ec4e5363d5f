(** The same beam given as other bunches. *)
From Coq Require Import QArith Reals Qreals String List Bool Arith Lia Lra Permutation FinFun.
From Coquelicot Require Import Coquelicot.
From Verif Require Model_Laser.
From Verif Require Import Model_Push Model_Interp Model_QS Model_Tracker Spec_Tracker Proofs_Tracker Model_Run Spec_Run
  Model_RZ Model_Bunch Spec_Bunch Proofs_Bunch Model_Sim Spec_Sim Proofs_Sim2 Proofs_Sim3 Proofs_Sim4 Proofs_Sim5
  Spec_Group Proofs_Group Proofs_Group2.
Import ListNotations.
Open Scope R_scope.

(** ** Selections *)
Lemma travo_len {A B} (f : A -> option B) l : forall l', travo f l = Some l' -> length l' = length l.
Proof.
  induction l as [|a l IH]; intros l' E; cbn [travo] in E; [injection E as <-; reflexivity|].
  destruct (f a); [|discriminate]. destruct (travo f l) as [r|]; [|discriminate]. injection E as <-.
  cbn. rewrite (IH r eq_refl). reflexivity.
Qed.
Lemma travo_nth {A B} (f : A -> option B) d e l : forall l', travo f l = Some l' -> forall j, (j < length l)%nat ->
  f (nth j l d) = Some (nth j l' e).
Proof.
  induction l as [|a l IH]; intros l' E j Hj; cbn [travo] in E; [cbn in Hj; lia|].
  destruct (f a) eqn:Ea; [|discriminate]. destruct (travo f l) as [r|]; [|discriminate]. injection E as <-.
  destruct j as [|j]; cbn [nth]; [exact Ea|]. apply IH; [reflexivity|cbn in Hj; lia].
Qed.
Lemma travo_select {A B} (f : A -> option B) d e l l' js : travo f l = Some l' ->
  (forall j, In j js -> (j < length l)%nat) ->
  travo f (map (fun j => nth j l d) js) = Some (map (fun j => nth j l' e) js).
Proof.
  intros E. induction js as [|j js IH]; intros H; [reflexivity|]. cbn [map travo].
  rewrite (travo_nth f d e l l' E j (H j (or_introl eq_refl))), IH; [reflexivity|].
  intros i Hi. apply H. right. exact Hi.
Qed.
Lemma sound_lengths u : sound u -> length (weights u) = length (parts u).
Proof.
  intros [(_ & _ & V) _]. unfold weights, parts. rewrite particles_length. apply V. unfold footprint.
  cbn. tauto.
Qed.
Lemma combine_nth_seq {A B} (l : list A) (r : list B) d e : length l = length r ->
  combine l r = map (fun j => (nth j l d, nth j r e)) (seq 0 (length l)).
Proof.
  revert r. induction l as [|a l IH]; intros [|b r] E; try discriminate; [reflexivity|].
  cbn [combine length seq map nth]. f_equal. rewrite <- seq_shift, map_map. apply IH. injection E as E. exact E.
Qed.
Lemma combine_maps {A B D} (f : A -> B) (g : A -> D) l : combine (map f l) (map g l) = map (fun a => (f a, g a)) l.
Proof. induction l as [|a l IH]; cbn; [reflexivity|]. rewrite IH. reflexivity. Qed.
Lemma flat_map_seq {A B} (f : A -> list B) v :
  flat_map f v = flat_map (fun k => match nth_error v k with Some b => f b | None => [] end) (seq 0 (length v)).
Proof.
  induction v as [|a v IH]; [reflexivity|]. cbn [flat_map length seq nth_error]. f_equal. rewrite IH, <- seq_shift.
  rewrite !flat_map_concat_map, map_map. reflexivity.
Qed.
Lemma map_flat_map {A B D} (g : B -> D) (f : A -> list B) l : map g (flat_map f l) = flat_map (fun a => map g (f a)) l.
Proof. induction l as [|a l IH]; [reflexivity|]. cbn [flat_map]. rewrite map_app, IH. reflexivity. Qed.
Lemma flat_map_same {A B} (f g : A -> list B) l : (forall a, In a l -> f a = g a) -> flat_map f l = flat_map g l.
Proof.
  induction l as [|a l IH]; intros H; [reflexivity|]. cbn [flat_map]. rewrite (H a (or_introl eq_refl)), IH; [reflexivity|].
  intros b Hb. apply H. right. exact Hb.
Qed.
(** Position and charge of particle [j]. *)
Definition one_charge (b : tracked) (j : nat) : pos * R :=
  (pos_of (nth j (parts b) no_part), nth j (weights b) 0 * q_species (snd b)).
Lemma charges_seq b : sound b -> charges_of b = map (one_charge b) (seq 0 (length (parts b))).
Proof.
  intros S. pose proof (sound_lengths b S) as L. unfold charges_of, get_q.
  change (particles (fst b) (snd b)) with (parts b). change (rd (fst b) (b_w (snd b))) with (weights b).
  rewrite (combine_nth_seq _ _ (pos_of no_part) (0 * q_species (snd b))) by (rewrite !map_length; congruence).
  rewrite map_length. apply map_ext. intros j. unfold one_charge. rewrite (map_nth pos_of).
  rewrite (map_nth (fun w => w * q_species (snd b))). reflexivity.
Qed.
Lemma charges_taken js b b' : taken js b b' -> charges_of b' = map (one_charge b) js.
Proof.
  intros (_ & _ & _ & Eq & _ & _ & _ & _ & P & W). unfold charges_of, get_q.
  change (particles (fst b') (snd b')) with (parts b'). change (rd (fst b') (b_w (snd b'))) with (weights b').
  rewrite P, W, !map_map, Eq, combine_maps. reflexivity.
Qed.
Lemma divided_charges picks v v' : Forall2 (fun q b' => exists b, nth_error v (fst q) = Some b /\ taken (snd q) b b') picks v' ->
  (forall b, In b v -> sound b) -> divides (map (fun b => length (parts b)) v) picks ->
  alike_all (map charges_of v) (map charges_of v').
Proof.
  intros H Sv [D1 D2]. rewrite map_length in D1.
  pose (ch := fun kj : nat * nat => match nth_error v (fst kj) with Some b => one_charge b (snd kj) | None => (pos_of no_part, 0) end).
  assert (E' : concat (map charges_of v') = map ch (flat_map (fun q => map (pair (fst q)) (snd q)) picks)).
  { clear D1 D2. induction H as [|q b' picks v' (b & Hb & Ht) H IH]; [reflexivity|]. cbn [map concat flat_map].
    rewrite map_app, IH, (charges_taken _ _ _ Ht), map_map. f_equal. apply map_ext. intros j. unfold ch. cbn [fst snd].
    rewrite Hb. reflexivity. }
  assert (E : concat (map charges_of v) =
    map ch (flat_map (fun k => map (pair k) (seq 0 (nth k (map (fun b => length (parts b)) v) 0%nat))) (seq 0 (length (map (fun b => length (parts b)) v))))).
  { rewrite <- flat_map_concat_map, flat_map_seq, map_flat_map, map_length. apply flat_map_same. intros k Hk.
    apply in_seq in Hk. destruct (nth_error v k) as [b|] eqn:Eb; [|apply nth_error_None in Eb; lia].
    rewrite (charges_seq b) by (apply Sv; eapply nth_error_In; exact Eb).
    rewrite (nth_error_nth (map (fun b => length (parts b)) v) k 0%nat (map_nth_error _ k v Eb)).
    rewrite map_map. apply map_ext. intros j. unfold ch. cbn [fst snd]. rewrite Eb. reflexivity. }
  split.
  - split; intros X.
    + destruct v; [|discriminate]. destruct H as [|q b' picks v' (b & Hb & _) H]; [reflexivity|].
      destruct (fst q); discriminate.
    + destruct v' as [|b' v']; [|discriminate]. destruct v as [|b v]; [reflexivity|].
      specialize (D1 0%nat ltac:(cbn; lia)). inversion H; subst. destruct D1.
  - apply alike_perm. rewrite E, E'. apply Permutation_map, Permutation_sym, D2.
Qed.
Lemma push_taken pusher fields js b b' t dt u : taken js b b' -> push_bunch pusher fields b t dt = Some u ->
  exists u', push_bunch pusher fields b' t dt = Some u' /\ taken js u u' /\ length (parts u) = length (parts b).
Proof.
  intros (S1 & S2 & Ep & Eq & Em & Z1 & Z2 & Hj & P & W) E.
  pose proof (push_cases pusher fields b t dt S1) as C1. rewrite E in C1. destruct C1 as (Q1 & T1 & W1 & M1).
  pose proof (push_cases pusher fields b' t dt S2) as C2.
  assert (L : length (parts u) = length (parts b)).
  { unfold pushed, acts in Q1. rewrite Z1 in Q1. destruct (knownb pusher); [|discriminate]. apply travo_len in Q1. exact Q1. }
  assert (Q2 : pushed pusher fields b' t dt = Some (map (fun j => nth j (parts u) no_part) js)).
  { unfold pushed, acts in *. rewrite Z1 in Q1. rewrite Z2. destruct (knownb pusher); [|discriminate].
    rewrite Eq, Em, P. apply travo_select; [exact Q1|exact Hj]. }
  destruct (push_bunch pusher fields b' t dt) as [u'|]; [|congruence].
  destruct C2 as (Q2' & T2 & W2 & M2). rewrite Q2 in Q2'. injection Q2' as Q2'.
  exists u'. split; [reflexivity|]. split; [|exact L].
  destruct M1 as (_ & M1p & _ & M1z & _ & _ & _ & M1q & M1m). destruct M2 as (_ & M2p & _ & M2z & _ & _ & _ & M2q & M2m).
  split; [exact T1|]. split; [exact T2|]. split; [congruence|]. split; [congruence|]. split; [congruence|].
  split; [congruence|]. split; [congruence|]. split; [intros j Hin; rewrite L; apply Hj, Hin|].
  split; [symmetry; exact Q2'|]. rewrite W1, W2. exact W.
Qed.
Lemma copy_taken js b b' : taken js b b' -> taken js (copy_tracked b) (copy_tracked b') /\
  length (parts (copy_tracked b)) = length (parts b).
Proof.
  intros (S1 & S2 & Ep & Eq & Em & Z1 & Z2 & Hj & P & W). destruct (copy_sound b S1) as (T1 & P1 & W1 & C1).
  destruct (copy_sound b' S2) as (T2 & P2 & W2 & C2).
  destruct C1 as (_ & C1p & _ & C1z & _ & _ & _ & C1q & C1m). destruct C2 as (_ & C2p & _ & C2z & _ & _ & _ & C2q & C2m).
  split; [|rewrite P1; reflexivity].
  split; [exact T1|]. split; [exact T2|]. split; [congruence|]. split; [congruence|]. split; [congruence|].
  split; [congruence|]. split; [congruence|]. split; [rewrite P1; exact Hj|].
  split; [rewrite P2, P1; exact P|rewrite W2, W1; exact W].
Qed.

Section Runs.
  Variable to_main : Model_Laser.sparams -> nat * nat -> Model_Laser.carr2 -> Model_Laser.carr2.
  Variable to_sub : Model_Laser.sparams -> nat * nat -> (nat -> nat -> R) -> (nat -> nat -> R).
  Variables e_ch m_e eps_0 light : R.
  Variables (argsort : list R -> list nat) (skin_depth wave_breaking : R -> R).
  Variable pusher : string.
  Variable auto_dt : option tracked -> Q.
  Variable rnd : Q -> Q.
  Notation sim := (simulate to_main to_sub e_ch m_e eps_0 light argsort skin_depth wave_breaking pusher auto_dt rnd).
  Notation su := (sim_update to_main to_sub e_ch m_e eps_0 light argsort skin_depth wave_breaking).

  (** ** Another order *)
  Lemma reordering_perm {A} n p (l l' : list A) : reordering n p -> length l = n -> length l' = n ->
    (forall i, (i < n)%nat -> nth_error l' i = nth_error l (p i)) -> Permutation l l'.
  Proof.
    intros [P1 P2] L L' H. apply Permutation_nth_error. split; [congruence|].
    exists (fun i => if Nat.ltb i n then p i else i). split.
    - intros i j E. destruct (Nat.ltb_spec i n), (Nat.ltb_spec j n).
      + apply P2; assumption.
      + specialize (P1 i H0). lia.
      + specialize (P1 j H1). lia.
      + exact E.
    - intros i. destruct (Nat.ltb_spec i n); [apply H; assumption|].
      rewrite (proj2 (nth_error_None l' i)), (proj2 (nth_error_None l i)) by lia. reflexivity.
  Qed.
  Lemma update_perm j f l l' : Permutation l l' -> su j f l = su j f l'.
  Proof.
    intros H. unfold sim_update. destruct f as [f|]; [|reflexivity].
    pose proof (all_some_perm l l' H) as A. destruct (all_some l), (all_some l'); try contradiction; [|reflexivity].
    apply update_regroup, alike_all_perm, Permutation_map, A.
  Qed.
  Lemma run_reordered p fuel c steps bunches bunches' fields r :
    reordering (length bunches) p -> length (c_dtb c) = length bunches ->
    length bunches' = length bunches -> length steps = length bunches ->
    (forall i, (i < length bunches)%nat -> nth_error bunches' i = nth_error bunches (p i)) ->
    (forall i, (i < length bunches)%nat -> nth_error steps i = nth_error (c_dtb c) (p i)) ->
    sim fuel c bunches fields = Model_Tracker.Done r ->
    exists fuel' r', sim fuel' (with_steps steps c) bunches' fields = Model_Tracker.Done r' /\
      fs r' = fs r /\ length (bs r') = length bunches /\ length (out r') = length bunches /\
      (forall i, (i < length bunches)%nat ->
         nth_error (bs r') i = nth_error (bs r) (p i) /\ nth_error (out r') i = nth_error (out r) (p i) /\
         Spec_Tracker.pushes i (log r') = Spec_Tracker.pushes (p i) (log r)) /\
      (forall j, field_times j (log r') = field_times j (log r)) /\ diag_times (log r') = diag_times (log r).
  Proof.
    intros Rp Lc L' Ls Hb Hs H. unfold simulate in H. pose proof Rp as [P1 P2].
    assert (Hp : forall i, (i < nb (with_steps steps c))%nat -> (p i < nb c)%nat /\ nth_error steps i = nth_error (c_dtb c) (p i)).
    { intros i Hi. unfold nb, n_bunches in *. cbn [with_steps c_dtb] in Hi. rewrite Ls in Hi. rewrite Lc. auto. }
    assert (Hnb : (0 < nb c)%nat -> (0 < nb (with_steps steps c))%nat).
    { unfold nb, n_bunches. cbn [with_steps c_dtb]. lia. }
    destruct (group_tracking _ _ (sim_evolve pusher) su auto_dt sim_copy rnd c steps p Hp Hnb
                (fun _ => eq) eq) with (fuel := fuel) (l := map Some bunches) (l' := map Some bunches')
              (f := Some (adjust_wakes (Q2R (c_tfinal c)) fields)) (f' := Some (adjust_wakes (Q2R (c_tfinal c)) fields)) (r := r)
      as (fuel' & r' & Hr & G).
    - intros i f f' b b' t d _ <- <-. reflexivity.
    - intros j f f' l l' L1 L2 Hl <-. apply update_perm.
      unfold nb, n_bunches in *. cbn [with_steps c_dtb] in L2. rewrite Lc in L1. rewrite Ls in L2.
      apply (reordering_perm (length bunches) p); try assumption. intros i Hi.
      destruct (nth_error l' i) as [b'|] eqn:E'; [|apply nth_error_None in E'; lia]. specialize (P1 i Hi).
      destruct (nth_error l (p i)) as [b|] eqn:E; [|apply nth_error_None in E; lia].
      rewrite (Hl i b b' E E'). reflexivity.
    - intros i b b' _ <-. reflexivity.
    - intros i b b' _ _ <-. reflexivity.
    - rewrite map_length. unfold nb, n_bunches. congruence.
    - rewrite map_length. unfold nb, n_bunches. cbn [with_steps c_dtb]. congruence.
    - intros i b b' E E'. assert (Hi : (i < length bunches)%nat).
      { rewrite <- L', <- (map_length Some). apply nth_error_Some. congruence. }
      specialize (Hb i Hi). rewrite nth_error_map in E, E'. rewrite Hb in E'. congruence.
    - reflexivity.
    - exact H.
    - assert (Nn : nb (with_steps steps c) = length bunches) by (unfold nb, n_bunches; cbn [with_steps c_dtb]; exact Ls).
      exists fuel', r'. split; [exact Hr|]. split; [symmetry; exact (g_f _ _ _ _ _ _ _ _ _ G)|].
      split; [rewrite <- Nn; exact (w_b _ _ _ _ (g_wf' _ _ _ _ _ _ _ _ _ G))|].
      split; [rewrite <- Nn; exact (w_o _ _ _ _ (g_wf' _ _ _ _ _ _ _ _ _ G))|].
      split; [|split; [intros j; symmetry; apply (g_ft _ _ _ _ _ _ _ _ _ G)|symmetry; exact (g_dt _ _ _ _ _ _ _ _ _ G)]].
      intros i Hi. rewrite <- Nn in Hi.
      destruct (g_c _ _ _ _ _ _ _ _ _ G i Hi) as (b & b' & t & d & l & E1 & E2 & <-). unfold Proofs_Group.cell in E1, E2.
      injection E1 as E1 _ _ E1l. injection E2 as E2 _ _ E2l.
      destruct (g_o _ _ _ _ _ _ _ _ _ G i Hi) as (o & o' & O1 & O2 & O3).
      split; [congruence|]. split; [|congruence]. rewrite O1, O2. f_equal. clear - O3. induction O3; congruence.
  Qed.

  (** ** Divided bunches *)
  Lemma run_divided picks fuel c bunches bunches' fields r :
    length (c_dtb c) = length bunches -> (forall d, In d (c_dtb c) -> d <> None) ->
    divides (map (fun b => length (parts b)) bunches) picks ->
    Forall2 (fun q b' => exists b, nth_error bunches (fst q) = Some b /\ taken (snd q) b b') picks bunches' ->
    sim fuel c bunches fields = Model_Tracker.Done r -> nothing_raised r ->
    let c' := with_steps (map (fun q => nth (fst q) (c_dtb c) None) picks) c in
    exists fuel' r', sim fuel' c' bunches' fields = Model_Tracker.Done r' /\ nothing_raised r' /\
      fs r' = fs r /\
      Forall2 (fun q u' => exists b b', nth_error (bs r) (fst q) = Some (Some b) /\ u' = Some b' /\ taken (snd q) b b')
        picks (bs r') /\
      Forall2 (fun q o' => exists o, nth_error (out r) (fst q) = Some o /\
                 Forall2 (fun u u' => exists b b', u = Some b /\ u' = Some b' /\ taken (snd q) b b') o o')
        picks (out r') /\
      (forall i q, nth_error picks i = Some q -> Spec_Tracker.pushes i (log r') = Spec_Tracker.pushes (fst q) (log r)) /\
      (forall j, field_times j (log r') = field_times j (log r)) /\ diag_times (log r') = diag_times (log r).
  Proof.
    intros Lc Fix Div HP H (NR1 & NR2 & NR3) c'. unfold simulate in H.
    set (steps := map (fun q => nth (fst q) (c_dtb c) None) picks) in c'.
    set (p := fun i => fst (nth i picks (0%nat, []))). set (sel := fun i => snd (nth i picks (0%nat, []))).
    set (sizes := map (fun b => length (parts b)) bunches) in *.
    assert (Ls : length steps = length picks) by (unfold steps; apply map_length).
    assert (Nn : nb c' = length picks) by (unfold nb, n_bunches, c'; cbn [with_steps c_dtb]; exact Ls).
    assert (Nc : nb c = length bunches) by (unfold nb, n_bunches; exact Lc).
    assert (Lb : length bunches' = length picks) by (clear - HP; induction HP; cbn; congruence).
    assert (Hin : forall i, (i < length picks)%nat -> exists b b', nth_error bunches (p i) = Some b /\
              nth_error bunches' i = Some b' /\ taken (sel i) b b').
    { unfold p, sel. clear - HP. induction HP as [|q b' picks l (b & E & T) HP IH]; intros i Hi; cbn in Hi; [lia|].
      destruct i as [|i]; cbn [nth nth_error]; [exists b, b'; auto|]. apply IH. lia. }
    assert (Hp : forall i, (i < nb c')%nat -> (p i < nb c)%nat /\ nth_error steps i = nth_error (c_dtb c) (p i)).
    { intros i Hi. rewrite Nn in Hi. destruct (Hin i Hi) as (b & b' & E & _).
      assert (Hl : (p i < length bunches)%nat) by (apply nth_error_Some; congruence).
      split; [rewrite Nc; exact Hl|]. unfold steps.
      rewrite (map_nth_error _ i picks (nth_error_nth' picks (0%nat, []) Hi)). symmetry.
      apply nth_error_nth'. rewrite Lc. exact Hl. }
    assert (Hnb : (0 < nb c)%nat -> (0 < nb c')%nat).
    { rewrite Nn, Nc. intros Hl. destruct Div as [D1 _]. unfold sizes in D1. rewrite map_length in D1.
      specialize (D1 0%nat Hl). destruct picks; [destruct D1|cbn; lia]. }
    set (Rp := fun i (u u' : option tracked) => forall b, u = Some b -> exists b', u' = Some b' /\
                 taken (sel i) b b' /\ length (parts b) = nth (p i) sizes 0%nat).
    set (Rf := fun f f' : option (list efield) => forall v, f = Some v -> f' = Some v).
    destruct (group_tracking _ _ (sim_evolve pusher) su auto_dt sim_copy rnd c steps p Hp Hnb Rp Rf)
      with (fuel := fuel) (l := map Some bunches) (l' := map Some bunches')
              (f := Some (adjust_wakes (Q2R (c_tfinal c)) fields)) (f' := Some (adjust_wakes (Q2R (c_tfinal c)) fields)) (r := r)
      as (fuel' & r' & Hr & G).
    - intros i f f' u u' t d _ Hf Hu v E. unfold sim_evolve in *. destruct f as [f|]; [|discriminate].
      rewrite (Hf f eq_refl). destruct u as [b|]; [|discriminate]. destruct (Hu b eq_refl) as (b' & -> & T & Lx).
      destruct (push_taken _ _ _ _ _ _ _ _ T E) as (v' & E' & T' & L2). exists v'.
      split; [exact E'|]. split; [exact T'|]. congruence.
    - fold c'. intros j f f' l l' L1 L2 Hl Hf v E. unfold sim_update in E. destruct f as [f|]; [|discriminate].
      rewrite (Hf f eq_refl). destruct (all_some l) as [w|] eqn:Ew; [|discriminate]. apply all_some_spec in Ew. subst l.
      rewrite map_length in L1. rewrite Nc in L1. rewrite Nn in L2.
      assert (P2 : forall i, (i < length picks)%nat -> exists b b', nth_error w (p i) = Some b /\ nth_error l' i = Some (Some b') /\
                taken (sel i) b b' /\ length (parts b) = nth (p i) sizes 0%nat).
      { intros i Hi. destruct (Hp i ltac:(lia)) as [Hpi _]. rewrite Nc in Hpi.
        destruct (nth_error w (p i)) as [b|] eqn:Eb; [|apply nth_error_None in Eb; lia].
        destruct (nth_error l' i) as [u'|] eqn:Eu; [|apply nth_error_None in Eu; lia].
        destruct (Hl i (Some b) u' (map_nth_error Some (p i) w Eb) Eu b eq_refl) as (b' & -> & T & Lx).
        exists b, b'. auto. }
      assert (Ex : exists w', l' = map Some w' /\
                Forall2 (fun q b' => exists b, nth_error w (fst q) = Some b /\ taken (snd q) b b') picks w').
      { unfold p, sel in P2. clear - P2 L2. revert l' P2 L2. induction picks as [|q picks IH]; intros l' P2 L2.
        - destruct l'; [|discriminate]. exists []. split; [reflexivity|constructor].
        - destruct l' as [|u' l']; [discriminate|]. destruct (P2 0%nat ltac:(cbn; lia)) as (b & b' & E1 & E2 & T & _).
          cbn [nth nth_error] in E1, E2, T. injection E2 as ->.
          destruct (IH l') as (w' & -> & F); [|injection L2 as L2; exact L2|].
          + intros i Hi. apply (P2 (S i)). cbn. lia.
          + exists (b' :: w'). split; [reflexivity|]. constructor; [exists b; auto|exact F]. }
      destruct Ex as (w' & -> & F). unfold sim_update. rewrite (proj2 (all_some_spec (map Some w') w') eq_refl).
      rewrite <- E. symmetry. apply update_regroup.
      assert (Known : forall k b, nth_error w k = Some b -> sound b /\ length (parts b) = nth k sizes 0%nat).
      { intros k b Eb. assert (Hk : (k < length sizes)%nat).
        { unfold sizes. rewrite map_length, <- L1. apply nth_error_Some. congruence. }
        destruct Div as [D1 _]. specialize (D1 k Hk). apply in_map_iff in D1 as (q & Eq & Hq).
        apply In_nth_error in Hq as (i & Ei). assert (Hi : (i < length picks)%nat) by (apply nth_error_Some; congruence).
        destruct (P2 i Hi) as (b1 & b1' & E1 & _ & T & Lx).
        assert (Epi : p i = k) by (unfold p; rewrite (nth_error_nth picks i _ Ei); exact Eq).
        rewrite Epi in E1, Lx. assert (b1 = b) by congruence. subst b1. split; [apply T|exact Lx]. }
      apply divided_charges with (picks := picks).
      + exact F.
      + intros b Hb. apply In_nth_error in Hb as (k & Eb). apply (Known k b Eb).
      + replace (map (fun b => length (parts b)) w) with sizes; [exact Div|].
        apply (nth_ext _ _ 0%nat 0%nat).
        * unfold sizes. rewrite !map_length. congruence.
        * intros k Hk. unfold sizes in Hk. rewrite map_length, <- L1 in Hk.
          destruct (nth_error w k) as [b|] eqn:Eb; [|apply nth_error_None in Eb; lia].
          rewrite (nth_error_nth (map (fun b => length (parts b)) w) k 0%nat (map_nth_error _ k w Eb)).
          symmetry. apply (Known k b Eb).
    - intros i u u' _ Hu v E. unfold sim_copy in *. destruct u as [b|]; [|discriminate]. injection E as <-.
      destruct (Hu b eq_refl) as (b' & -> & T & Lx). destruct (copy_taken _ _ _ T) as [T' L2].
      exists (copy_tracked b'). split; [reflexivity|]. split; [exact T'|]. congruence.
    - fold c'. intros i u u' Hi Au. exfalso. unfold is_auto in Au. cbn [c' with_steps c_dtb] in Au.
      destruct (Hp i Hi) as [Hpi E]. rewrite E in Au.
      destruct (nth_error (c_dtb c) (p i)) as [[d|]|] eqn:Ed; try discriminate.
      apply (Fix None); [|reflexivity]. eapply nth_error_In. exact Ed.
    - rewrite map_length, Nc. reflexivity.
    - fold c'. rewrite map_length, Nn. exact Lb.
    - intros i u u' E E' b Eb. subst u. assert (Hi : (i < length picks)%nat).
      { rewrite <- Lb, <- (map_length Some). apply nth_error_Some. congruence. }
      destruct (Hin i Hi) as (b1 & b' & E1 & E2 & T). rewrite nth_error_map in E, E'. rewrite E1 in E. rewrite E2 in E'.
      injection E as <-. injection E' as <-. exists b'. split; [reflexivity|]. split; [exact T|].
      unfold sizes. symmetry. apply (nth_error_nth (map (fun b => length (parts b)) bunches) (p i) 0%nat).
      apply (map_nth_error (fun b => length (parts b)) (p i) bunches E1).
    - intros v E. exact E.
    - exact H.
    - fold c' in Hr, G. pose proof (g_wf' _ _ _ _ _ _ _ _ _ G) as W'. fold c' in W'.
      assert (Wb : length (bs r') = length picks) by (rewrite <- Nn; exact (w_b _ _ _ _ W')).
      assert (Wo : length (out r') = length picks) by (rewrite <- Nn; exact (w_o _ _ _ _ W')).
      assert (Cells : forall i, (i < length picks)%nat -> exists b b', nth_error (bs r) (p i) = Some (Some b) /\
                nth_error (bs r') i = Some (Some b') /\ taken (sel i) b b' /\ Spec_Tracker.pushes i (log r') = Spec_Tracker.pushes (p i) (log r)).
      { intros i Hi. rewrite <- Nn in Hi.
        destruct (g_c _ _ _ _ _ _ _ _ _ G i Hi) as (u & u' & t & d & l & E1 & E2 & HR). unfold Proofs_Group.cell in E1, E2.
        injection E1 as E1 _ _ E1l. injection E2 as E2 _ _ E2l.
        destruct u as [b|]; [|exfalso; apply (NR1 None); [eapply nth_error_In; exact E1|reflexivity]].
        destruct (HR b eq_refl) as (b' & -> & T & _). exists b, b'. split; [exact E1|]. split; [exact E2|]. split; [exact T|]. congruence. }
      assert (Outs : forall i, (i < length picks)%nat -> exists o o', nth_error (out r) (p i) = Some o /\
                nth_error (out r') i = Some o' /\
                Forall2 (fun u u' => exists b b', u = Some b /\ u' = Some b' /\ taken (sel i) b b') o o').
      { intros i Hi. rewrite <- Nn in Hi. destruct (g_o _ _ _ _ _ _ _ _ _ G i Hi) as (o & o' & O1 & O2 & O3).
        exists o, o'. split; [exact O1|]. split; [exact O2|].
        assert (So : forall u, In u o -> u <> None) by (intros u Hu; apply (NR3 o u); [eapply nth_error_In; exact O1|exact Hu]).
        clear - O3 So. induction O3 as [|u u' o o' HR O3 IH]; [constructor|]. constructor.
        - destruct u as [b|]; [|exfalso; apply (So None); [left; reflexivity|reflexivity]].
          destruct (HR b eq_refl) as (b' & -> & T & _). exists b, b'. auto.
        - apply IH. intros v Hv. apply So. right. exact Hv. }
      assert (F2 : forall {A} (P : nat * list nat -> A -> Prop) (l : list A), length l = length picks ->
                (forall i a, nth_error l i = Some a -> P (nth i picks (0%nat, [])) a) -> Forall2 P picks l).
      { clear. intros A P. induction picks as [|q picks IH]; intros [|a l] L Hx; try discriminate; constructor.
        - apply (Hx 0%nat a eq_refl).
        - apply IH; [injection L as L; exact L|]. intros i a0 E. apply (Hx (S i) a0 E). }
      destruct (fs r) as [ff|] eqn:Ef; [|congruence].
      pose proof (g_f _ _ _ _ _ _ _ _ _ G ff Ef) as Ef'.
      exists fuel', r'. split; [exact Hr|]. split.
      { split; [|split].
        - intros u Hu. apply In_nth_error in Hu as (i & Ei). assert (Hi : (i < length picks)%nat) by (rewrite <- Wb; apply nth_error_Some; congruence).
          destruct (Cells i Hi) as (b & b' & _ & E2 & _). congruence.
        - congruence.
        - intros o u Ho Hu. apply In_nth_error in Ho as (i & Ei). assert (Hi : (i < length picks)%nat) by (rewrite <- Wo; apply nth_error_Some; congruence).
          destruct (Outs i Hi) as (o0 & o' & _ & O2 & O3). assert (o' = o) by congruence. subst o'.
          clear - O3 Hu. induction O3 as [|a a' o0 o (b & b' & -> & -> & _) O3 IH]; [destruct Hu|].
          destruct Hu as [<-|Hu]; [discriminate|apply IH, Hu]. }
      split; [congruence|]. split; [|split; [|split]].
      + apply F2; [exact Wb|]. intros i u Eu. assert (Hi : (i < length picks)%nat) by (rewrite <- Wb; apply nth_error_Some; congruence).
        destruct (Cells i Hi) as (b & b' & E1 & E2 & T & _). exists b, b'. split; [exact E1|]. split; [congruence|exact T].
      + apply F2; [exact Wo|]. intros i u Eu. assert (Hi : (i < length picks)%nat) by (rewrite <- Wo; apply nth_error_Some; congruence).
        destruct (Outs i Hi) as (o & o' & O1 & O2 & O3). exists o. split; [exact O1|]. assert (o' = u) by congruence. subst o'. exact O3.
      + intros i q Eq. assert (Hi : (i < length picks)%nat) by (apply nth_error_Some; congruence).
        destruct (Cells i Hi) as (b & b' & _ & _ & _ & E). rewrite E. unfold p. rewrite (nth_error_nth picks i _ Eq). reflexivity.
      + split; [intros j; symmetry; apply (g_ft _ _ _ _ _ _ _ _ _ G)|symmetry; exact (g_dt _ _ _ _ _ _ _ _ _ G)].
  Qed.
End Runs.
