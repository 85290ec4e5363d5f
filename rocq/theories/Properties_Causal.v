(** C110: what is behind has no effect on what is ahead. *)
From Coq Require Import QArith Reals Qreals ZArith String List Arith Lia Lra.
From Coquelicot Require Import Coquelicot.
From Verif Require Model_Laser.
From Verif Require Import Model_Push Model_Interp Model_QS Model_Tracker Spec_Tracker Proofs_Tracker Model_Run Spec_Run Model_RZ Spec_RZ
  Model_Bunch Spec_Bunch Model_Sim Spec_Sim Spec_Neutral Spec_Causal Proofs_Causal Proofs_Causal2 Proofs_Causal3 Proofs_Causal4
  Properties_Tracker Properties_RZ Properties_Sim Properties_Neutral.
Import ListNotations.
Open Scope R_scope.

(** ** C110 *)
(** Bunches that differ only behind [x0] are tracked with fixed steps and the Boris pusher in the same
    wakefields and analytical fields.  Both runs make the same pushes, updates and outputs at the same
    times, and bunches, fields and outputs differ only behind a position that starts at [x0] and moves
    forward by five cells of a wakefield at each update of that wakefield.  [if_both]: as far as no
    calculation raised. *)
Theorem C110_causality :
  forall to_main to_sub e_ch m_e eps_0 light argsort skin_depth wave_breaking auto_dt m
    fuel c x0 bunches bunches' fields s,
  good_config c bunches -> bounded_below auto_dt m -> ~ In None (c_dtb c) ->
  List.Forall (usable skin_depth) fields -> List.Forall2 (same_ahead x0) bunches bunches' ->
  simulate to_main to_sub e_ch m_e eps_0 light argsort skin_depth wave_breaking "boris" auto_dt exact
    fuel c bunches fields = Model_Tracker.Done s ->
  exists s', simulate to_main to_sub e_ch m_e eps_0 light argsort skin_depth wave_breaking "boris" auto_dt exact
      fuel c bunches' fields = Model_Tracker.Done s' /\
    (let z := frontier (cell_lengths fields) x0 (log s) in
     List.Forall2 (if_both (same_ahead z)) (bs s) (bs s') /\
     if_both (List.Forall2 (same_field z)) (fs s) (fs s') /\
     List.Forall2 (List.Forall2 (if_both (same_ahead z))) (out s) (out s')) /\
    length (log s') = length (log s) /\
    forall k e, nth_error (log s) k = Some e ->
      match e with
      | EDiag t snap => exists snap', nth_error (log s') k = Some (EDiag t snap') /\
          List.Forall2 (if_both (same_ahead (frontier (cell_lengths fields) x0 (firstn k (log s))))) snap snap'
      | EPush i t d y => nth_error (log s') k = Some (EPush i t d y)
      | EField j t => nth_error (log s') k = Some (EField j t)
      end.
Proof.
  intros to_main to_sub e_ch m_e eps_0 light argsort skin_depth wave_breaking auto_dt m fuel c x0 bunches bunches' fields s
    Hg Ha Hc Hu Hb H.
  destruct (adjust_usable skin_depth (Q2R (c_tfinal c)) fields Hu) as [Hu' Ec].
  set (fields1 := adjust_wakes (Q2R (c_tfinal c)) fields) in *.
  assert (Hf : List.Forall2 (frd skin_depth x0) fields1 fields1).
  { clear - Hu'. induction Hu' as [|f l Hf H IH]; constructor; [apply usable_frd, Hf|exact IH]. }
  pose proof (run_rel to_main to_sub e_ch m_e eps_0 light argsort skin_depth wave_breaking auto_dt c fuel x0 bunches bunches'
    fields1 fields1 Hc Hb Hf) as O.
  unfold simulate in *. fold fields1 in H |- *.
  assert (Fw : forward (option tracked) (length bunches) (log s)).
  { intros i t d y Hi Hn. destruct Hg as (G1 & G2 & G3 & G4).
    destruct (push_lengths_lemma _ _ _ _ _ _ c (map Some bunches) _ (conj G1 (conj (eq_trans (map_length _ _) G2) (conj G3 G4))) m Ha fuel s i H) as [P _].
    { rewrite map_length. exact Hn. }
    rewrite List.Forall_forall in P. apply (P (t, d)). eapply pushed, Hi. }
  rewrite H in O. destruct (do_tracking _ _ _ _ _ _ _ fuel c (map Some bunches') _) as [s'|s'|e s'] eqn:E'; try contradiction.
  exists s'. split; [reflexivity|]. cbn [orel] in O. destruct O as [O1 O2 O3 O4 O5 O6]. rewrite Ec in *. split; [|split].
  - destruct (O6 Fw) as (Q1 & Q2 & Q3). cbv zeta. split; [exact Q1|]. split; [|exact Q3].
    unfold rfs in Q2. destruct (fs s) as [f|], (fs s') as [f'|]; cbn [if_both] in *; auto. destruct Q2 as [_ Q2].
    eapply forall2_impl; [|exact Q2]. intros a b. apply frd_same.
  - symmetry. eapply logs_length; exact O5.
  - intros k e He. destruct (logs_nth _ _ _ _ _ _ _ O5 k e He) as (e' & E1 & E2).
    destruct e as [i t d y|j t|t sn], e' as [i' t' d' y'|j' t'|t' sn']; cbn [event_rel] in E2; try contradiction.
    + destruct E2 as (-> & -> & -> & ->). exact E1.
    + destruct E2 as (-> & ->). exact E1.
    + destruct E2 as (-> & E2). exists sn'. split; [exact E1|]. apply E2. apply forward_firstn, Fw.
Qed.

(** A bunch that is all ahead of that position at the end is the same in both runs. *)
Theorem C110_bunch_ahead :
  forall z hb hb', same_ahead z hb hb' -> (forall p, In p (parts hb) -> z <= xi p) -> (forall p, In p (parts hb') -> z <= xi p) ->
  parts hb = parts hb' /\ weights hb = weights hb'.
Proof.
  intros z hb hb' (S1 & S2 & _ & E) H H'.
  assert (G : forall u, (forall p, In p (parts u) -> z <= xi p) -> from z (combine (parts u) (weights u)) = combine (parts u) (weights u)).
  { intros u Hu. assert (K : forall pw, In pw (combine (parts u) (weights u)) -> z <= xi (fst pw)).
    { intros [p w] Hi. apply in_combine_l in Hi. apply Hu, Hi. }
    clear Hu. induction (combine (parts u) (weights u)) as [|a l IH]; [reflexivity|]. cbn.
    destruct (Rle_dec z (xi (fst a))) as [L|L]; [|exfalso; apply L, K; left; reflexivity].
    f_equal. apply IH. intros pw Hi. apply K. right. exact Hi. }
  rewrite (G hb H), (G hb' H') in E.
  assert (S : forall (a : list part) (b : list R), length a = length b -> split (combine a b) = (a, b)) by (intros a b; apply combine_split).
  pose proof (S _ _ (sound_lengths hb S1)) as E1. pose proof (S _ _ (sound_lengths hb' S2)) as E2. rewrite E in E1. rewrite E1 in E2.
  split; congruence.
Qed.

(** Leaving out a bunch that is behind everything of interest.  [s0] is the run with an empty bunch in its
    place, which exists by [C110_causality]. *)
Lemma forall2_without {A B} (P : A -> B -> Prop) i l l' : List.Forall2 P l l' -> List.Forall2 P (without i l) (without i l').
Proof.
  intros H. revert i. induction H as [|a b l l' Hab H IH]; intros [|i]; cbn; try constructor; auto. apply (IH i).
Qed.
Lemma forall2_upd {A} (P : A -> A -> Prop) i u l : (forall a, In a l -> P a a) -> (forall a, nth_error l i = Some a -> P a u) -> List.Forall2 P l (upd i u l).
Proof.
  revert i. induction l as [|a l IH]; intros i Hr Hu; [destruct i; constructor|]. destruct i as [|i]; cbn.
  - constructor; [apply Hu; reflexivity|]. clear - Hr. induction l as [|b l IH]; constructor; [apply Hr; cbn; auto|]. apply IH. intros c [->|Hc]; apply Hr; cbn; auto.
  - constructor; [apply Hr; left; reflexivity|]. apply IH; [intros b Hb; apply Hr; right; exact Hb|exact Hu].
Qed.
Lemma without_upd {A} i (u : A) l : without i (upd i u l) = without i l.
Proof. revert i. induction l as [|a l IH]; intros [|i]; try reflexivity. cbn. f_equal. apply IH. Qed.
Theorem C110_bunch_behind :
  forall to_main to_sub e_ch m_e eps_0 light argsort skin_depth wave_breaking auto_dt m
    fuel c x0 bunches fields i hb hb0 s s0,
  good_config c bunches -> bounded_below auto_dt m -> ~ In None (c_dtb c) -> (0 < c_ndiags c)%nat ->
  List.Forall (usable skin_depth) fields -> List.Forall sound bunches ->
  nth_error bunches i = Some hb -> (forall p, In p (parts hb) -> xi p < x0) ->
  sound hb0 -> parts hb0 = [] -> same_attributes (snd hb) (snd hb0) ->
  simulate to_main to_sub e_ch m_e eps_0 light argsort skin_depth wave_breaking "boris" auto_dt exact
    fuel c bunches fields = Model_Tracker.Done s ->
  simulate to_main to_sub e_ch m_e eps_0 light argsort skin_depth wave_breaking "boris" auto_dt exact
    fuel c (upd i hb0 bunches) fields = Model_Tracker.Done s0 -> fs s0 <> None ->
  exists fuel1 s1, simulate to_main to_sub e_ch m_e eps_0 light argsort skin_depth wave_breaking "boris" auto_dt exact
      fuel1 (with_steps (without i (c_dtb c)) c) (without i bunches) fields = Model_Tracker.Done s1 /\
    let z := frontier (cell_lengths fields) x0 (log s) in
    List.Forall2 (if_both (same_ahead z)) (without i (bs s)) (bs s1) /\
    if_both (List.Forall2 (same_field z)) (fs s) (fs s1) /\
    List.Forall2 (List.Forall2 (if_both (same_ahead z))) (without i (out s)) (out s1).
Proof.
  intros to_main to_sub e_ch m_e eps_0 light argsort skin_depth wave_breaking auto_dt m fuel c x0 bunches fields i hb hb0 s s0
    Hg Ha Hc Hd Hu Hs Hi Hbe Hs0 H0 At H1 H2 Hf.
  assert (Rf : forall a, In a bunches -> same_ahead x0 a a).
  { intros a Ha'. rewrite List.Forall_forall in Hs. split; [apply Hs, Ha'|]. split; [apply Hs, Ha'|]. split; [repeat split|reflexivity]. }
  assert (E : List.Forall2 (same_ahead x0) bunches (upd i hb0 bunches)).
  { apply forall2_upd; [exact Rf|]. intros a Ea. assert (a = hb) as -> by congruence.
    split; [rewrite List.Forall_forall in Hs; apply Hs; eapply nth_error_In, Hi|]. split; [exact Hs0|]. split; [exact At|].
    rewrite H0. cbn [combine from filter]. unfold from.
    assert (K : forall pw, In pw (combine (parts hb) (weights hb)) -> xi (fst pw) < x0).
    { intros [p w] Hpw. apply in_combine_l in Hpw. apply Hbe, Hpw. }
    clear - K. induction (combine (parts hb) (weights hb)) as [|a l IH]; [reflexivity|]. cbn [filter].
    destruct (Rle_dec x0 (xi (fst a))) as [L|L]; [exfalso; specialize (K a (or_introl eq_refl)); lra|].
    apply IH. intros pw Hp. apply K. right. exact Hp. }
  destruct (C110_causality to_main to_sub e_ch m_e eps_0 light argsort skin_depth wave_breaking auto_dt m fuel c x0 bunches _ fields s
    Hg Ha Hc Hu E H1) as (s0' & H2' & (Q1 & Q2 & Q3) & _).
  rewrite H2 in H2'. injection H2' as <-.
  assert (L : length (upd i hb0 bunches) = length bunches) by (symmetry; eapply forall2_length; exact E).
  assert (Ni : nth_error (upd i hb0 bunches) i = Some hb0).
  { clear - Hi. revert i Hi. induction bunches as [|a l IH]; intros [|i] Hi; try discriminate; [reflexivity|]. cbn. apply IH, Hi. }
  assert (Ne : neutral hb0).
  { intros w Hw. assert (Z : weights hb0 = []).
    { pose proof (sound_lengths hb0 Hs0) as S. rewrite H0 in S. destruct (weights hb0); [reflexivity|discriminate]. }
    rewrite Z in Hw. destruct Hw. }
  destruct (C109_test_bunch to_main to_sub e_ch m_e eps_0 light argsort skin_depth wave_breaking "boris" auto_dt exact fuel c (upd i hb0 bunches) fields i hb0 s0
    Hd (eq_trans L (proj1 (proj2 Hg))) Ni Hs0 Ne H2 Hf) as (g & s1 & E1 & F1 & B1 & O1 & _).
  rewrite without_upd in E1. exists g, s1. split; [exact E1|]. rewrite F1, B1, O1.
  split; [apply forall2_without, Q1|]. split; [exact Q2|]. apply forall2_without, Q3.
Qed.

(** Two bunches that differ in two macroparticles behind 5.5, and in their number; a laser that evolves, two
    wakefields and a lens. *)
Definition other_h : heap := [[9; 2; 8]; [7; 4; 3]; [1; 6; 2]; [0; 3; 1]; [4; 0; 1]; [0; 4; 2]; [2; 3; 6]].
Definition lit_box : box := mkbox (fun _ => Some 1) 1 0 1 3 3 None true 1 None None true "cold_fluid_1d".
Definition lit_fields : list efield :=
  [Wake (fun _ _ => RtoC 1) (ColdFluid "linear" true) (new_wake lit_box (Some (Model_Laser.new_pulse 1 "linear")));
   Analytic (mkcomp no_field no_field no_field (fun p _ b => b - 5 * snd (fst p)) (fun p _ b => b + 5 * fst (fst p)) no_field);
   Wake (fun _ _ => RtoC 0) (Baxevanis (mkqs 2 None (fun _ => 0) "linear" 10 "ab5")) (new_wake lit_box None)].
Definition lit_run : config :=
  {| c_tfinal := 1; c_dtb := [Some (1 # 2); Some (1 # 3)]; c_fields := [(1 # 4, false); (1 # 2, true)]; c_ndiags := 2; c_push_before := true |}%Q.
Example C110_example :
  good_config lit_run [(one_h, one_b); (one_h, one_b)] /\ List.Forall (usable (fun _ => 1)) lit_fields /\
  List.Forall2 (same_ahead 5.5) [(one_h, one_b); (one_h, one_b)] [(other_h, one_b); (one_h, one_b)] /\
  parts (one_h, one_b) <> parts (other_h, one_b) /\ cell_lengths lit_fields = [(1 - 0) / (3 - 1); (1 - 0) / (3 - 1)] /\
  forall to_main to_sub e_ch m_e eps_0 light argsort wave_breaking,
  exists fuel s, simulate to_main to_sub e_ch m_e eps_0 light argsort (fun _ => 1) wave_breaking "boris" (fun _ => 1%Q) exact
    fuel lit_run [(one_h, one_b); (one_h, one_b)] lit_fields = Model_Tracker.Done s.
Proof.
  assert (Gc : forall B (l : list B), length l = 2%nat -> good_config lit_run l).
  { intros B l Hl. split; [reflexivity|]. split; [exact Hl|]. split.
    - intros d [E|[E|[]]]; injection E as <-; reflexivity.
    - intros d b [E|[E|[]]]; injection E as <- _; reflexivity. }
  split; [apply Gc; reflexivity|]. split; [|split; [|split; [|split]]].
  - repeat (apply List.Forall_cons; [|]); try constructor; cbn.
    + reflexivity.
    + split; [|split; [exists 1, "linear"%string; reflexivity|auto]].
      unfold fluid_domain; cbn. repeat split; try lra; try lia; [left; reflexivity|]. intros _. exists 1. repeat split; lra.
    + reflexivity.
    + split; [|exact I]. unfold qs_domain; cbn. repeat split; try lra; try lia; [left; reflexivity|right; reflexivity|].
      intros _. exists 1. split; [reflexivity|lra].
  - assert (S1 : sound (one_h, one_b)) by apply C106_example.
    assert (S3 : sound (other_h, one_b)).
    { assert (G : forall a, In a (footprint one_b) -> (a < 7)%nat /\ length (rd other_h a) = 3%nat).
      { intros a Ha. cbn in Ha. repeat (destruct Ha as [<-|Ha]; [split; [lia|reflexivity]|]). destruct Ha. }
      split; cbn [fst snd].
      - split; [cbn; repeat constructor; cbn; lia|]. split; [intros a Ha; apply G, Ha|].
        intros a Ha. rewrite (proj2 (G a Ha)). reflexivity.
      - split; [intros f E; discriminate|intros p q r E; discriminate]. }
    assert (A : same_attributes one_b one_b) by (repeat split).
    constructor; [|constructor; [|constructor]].
    + split; [exact S1|]. split; [exact S3|]. split; [exact A|]. unfold parts, weights, particles, from. cbn.
      repeat (destruct (Rle_dec _ _); try (exfalso; lra)). reflexivity.
    + split; [exact S1|]. split; [exact S1|]. split; [exact A|reflexivity].
  - unfold parts, particles. cbn. discriminate.
  - reflexivity.
  - intros. set (bb := [(one_h, one_b); (one_h, one_b)]).
    destruct (C01_tracking_terminates _ _ (sim_evolve "boris")
      (sim_update to_main to_sub e_ch m_e eps_0 light argsort (fun _ => 1) wave_breaking) (fun _ => 1%Q) sim_copy
      lit_run (map Some bb) (Some (adjust_wakes (Q2R (c_tfinal lit_run)) lit_fields)) 1%Q) as (N & s & H).
    + apply Gc. reflexivity.
    + split; [reflexivity|]. intros b. apply Qle_refl.
    + cbn. lia.
    + exists N, s. exact (H N (le_n _)).
Qed.

Print Assumptions C110_causality.
Print Assumptions C110_bunch_ahead.
Print Assumptions C110_bunch_behind.
