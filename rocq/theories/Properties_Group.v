(** C113: the same beam given in another order, or as more bunches, in a whole simulation. *)
From Coq Require Import QArith Reals Qreals String List Bool Arith Lia Lra Permutation.
From Coquelicot Require Import Coquelicot.
From Verif Require Model_Laser Spec_Tracker.
From Verif Require Import Model_Push Model_Interp Model_QS Model_Tracker Model_Run Spec_Run
  Model_RZ Model_Bunch Spec_Bunch Model_Sim Spec_Sim Spec_Group Proofs_Group3 Properties_Sim Properties_Total.
Import ListNotations.
Open Scope R_scope.

(** The order in which the bunches are given does not matter: the run with the bunches (and their steps,
    fixed or automatic) in another order ends with the same fields, the same bunches and the same outputs,
    in that order, after the same pushes of each bunch and the same updates and outputs. *)
Theorem C113_order :
  forall to_main to_sub e_ch m_e eps_0 light argsort skin_depth wave_breaking pusher auto_dt rnd
    p fuel c steps bunches bunches' fields r,
  let sim := simulate to_main to_sub e_ch m_e eps_0 light argsort skin_depth wave_breaking pusher auto_dt rnd in
  reordering (length bunches) p -> length (c_dtb c) = length bunches ->
  length bunches' = length bunches -> length steps = length bunches ->
  (forall i, (i < length bunches)%nat -> nth_error bunches' i = nth_error bunches (p i)) ->
  (forall i, (i < length bunches)%nat -> nth_error steps i = nth_error (c_dtb c) (p i)) ->
  sim fuel c bunches fields = Model_Tracker.Done r ->
  exists fuel' r', sim fuel' (with_steps steps c) bunches' fields = Model_Tracker.Done r' /\
    fs r' = fs r /\ length (bs r') = length bunches /\ length (out r') = length bunches /\
    (forall i, (i < length bunches)%nat ->
       nth_error (bs r') i = nth_error (bs r) (p i) /\ nth_error (out r') i = nth_error (out r) (p i) /\
       Spec_Tracker.pushes i (log r') = Spec_Tracker.pushes (p i) (log r)) /\
    (forall j, Spec_Tracker.field_times j (log r') = Spec_Tracker.field_times j (log r)) /\
    Spec_Tracker.diag_times (log r') = Spec_Tracker.diag_times (log r).
Proof.
  intros to_main to_sub e_ch m_e eps_0 light argsort skin_depth wave_breaking pusher auto_dt rnd p fuel c steps bunches
    bunches' fields r sim. apply run_reordered.
Qed.

(** Nor does it matter whether a beam is given as one bunch or as several: if the particles of the
    bunches are distributed over more bunches (every particle in exactly one of them), with fixed steps and
    without injection positions, the run ends with the same fields, and at the end and in every output
    the new bunches consist of the same particles as if they had been tracked as one bunch. *)
Theorem C113_divided :
  forall to_main to_sub e_ch m_e eps_0 light argsort skin_depth wave_breaking pusher auto_dt rnd
    picks fuel c bunches bunches' fields r,
  let sim := simulate to_main to_sub e_ch m_e eps_0 light argsort skin_depth wave_breaking pusher auto_dt rnd in
  length (c_dtb c) = length bunches -> (forall d, In d (c_dtb c) -> d <> None) ->
  divides (map (fun b => length (parts b)) bunches) picks ->
  Forall2 (fun q b' => exists b, nth_error bunches (fst q) = Some b /\ taken (snd q) b b') picks bunches' ->
  sim fuel c bunches fields = Model_Tracker.Done r -> nothing_raised r ->
  exists fuel' r',
    sim fuel' (with_steps (map (fun q => nth (fst q) (c_dtb c) None) picks) c) bunches' fields = Model_Tracker.Done r' /\
    nothing_raised r' /\ fs r' = fs r /\
    Forall2 (fun q u' => exists b b', nth_error (bs r) (fst q) = Some (Some b) /\ u' = Some b' /\ taken (snd q) b b')
      picks (bs r') /\
    Forall2 (fun q o' => exists o, nth_error (out r) (fst q) = Some o /\
               Forall2 (fun u u' => exists b b', u = Some b /\ u' = Some b' /\ taken (snd q) b b') o o')
      picks (out r') /\
    (forall i q, nth_error picks i = Some q -> Spec_Tracker.pushes i (log r') = Spec_Tracker.pushes (fst q) (log r)) /\
    (forall j, Spec_Tracker.field_times j (log r') = Spec_Tracker.field_times j (log r)) /\
    Spec_Tracker.diag_times (log r') = Spec_Tracker.diag_times (log r).
Proof.
  intros to_main to_sub e_ch m_e eps_0 light argsort skin_depth wave_breaking pusher auto_dt rnd picks fuel c bunches
    bunches' fields r sim. apply run_divided.
Qed.

(** Two particles with weights 1 and 3 as one bunch, and as two bunches in the other order. *)
Definition whole_b : bunch :=
  mkb 0%nat 1%nat 2%nat 3%nat 4%nat 5%nat 6%nat None 7 0 None 0 0 "b" (-1) 1 None None.
Definition first_h : heap := [[1]; [3]; [5]; [0]; [4]; [0]; [1]].
Definition second_h : heap := [[2]; [4]; [6]; [3]; [0]; [4]; [3]].
Lemma sound_n n (h : heap) (b : bunch) : footprint b = [0; 1; 2; 3; 4; 5; 6]%nat -> length h = 7%nat ->
  (forall v, In v h -> length v = n) -> b_fld b = None -> b_rk b = None -> sound (h, b).
Proof.
  intros F L A N1 N2.
  assert (G : forall a, In a (footprint b) -> (a < length h)%nat /\ length (rd h a) = n).
  { intros a Ha. assert (X : (a < length h)%nat) by (rewrite L; rewrite F in Ha; cbn in Ha; lia).
    split; [exact X|]. apply A, nth_In, X. }
  split; cbn [fst snd].
  - split; [rewrite F; repeat constructor; cbn; lia|]. split; [intros a Ha; apply G, Ha|].
    intros a Ha. rewrite (proj2 (G a Ha)). symmetry. apply G. left. reflexivity.
  - split; [intros f E; congruence|intros p q r E; congruence].
Qed.
Example C113_example_divided :
  divides (map (fun b => length (parts b)) [(one_h, whole_b)]) [(0%nat, [1%nat]); (0%nat, [0%nat])] /\
  Forall2 (fun q b' => exists b, nth_error [(one_h, whole_b)] (fst q) = Some b /\ taken (snd q) b b')
    [(0%nat, [1%nat]); (0%nat, [0%nat])] [(second_h, whole_b); (first_h, whole_b)].
Proof.
  assert (S0 : sound (one_h, whole_b)).
  { apply (sound_n 2); try reflexivity. cbn. intros v Hv. repeat (destruct Hv as [<-|Hv]; [reflexivity|]). destruct Hv. }
  assert (S1 : sound (first_h, whole_b)).
  { apply (sound_n 1); try reflexivity. cbn. intros v Hv. repeat (destruct Hv as [<-|Hv]; [reflexivity|]). destruct Hv. }
  assert (S2 : sound (second_h, whole_b)).
  { apply (sound_n 1); try reflexivity. cbn. intros v Hv. repeat (destruct Hv as [<-|Hv]; [reflexivity|]). destruct Hv. }
  split.
  - split; [cbn; intros k Hk; lia|]. cbn. apply perm_swap.
  - constructor; [|constructor; [|constructor]]; exists (one_h, whole_b); (split; [reflexivity|]).
    + split; [exact S0|]. split; [exact S2|]. cbn. repeat split; try reflexivity. intros j [<-|[]]. lia.
    + split; [exact S0|]. split; [exact S1|]. cbn. repeat split; try reflexivity. intros j [<-|[]]. lia.
Qed.
(** A run that ends and in which nothing raises (C114): a focusing field. *)
Example C113_example_run : forall to_main to_sub e_ch m_e eps_0 light argsort skin_depth wave_breaking,
  exists fuel r, simulate to_main to_sub e_ch m_e eps_0 light argsort skin_depth wave_breaking "boris" (fun _ => 1%Q)
    Spec_Tracker.exact fuel
    {| c_tfinal := 2%Q; c_dtb := [Some 1%Q]; c_fields := []; c_ndiags := 2; c_push_before := false |}
    [(one_h, whole_b)]
    [Analytic (mkcomp no_field no_field no_field (fun p _ b => b - 5 * snd (fst p)) (fun p _ b => b + 5 * fst (fst p)) no_field)]
    = Model_Tracker.Done r /\ nothing_raised r.
Proof.
  intros to_main to_sub e_ch m_e eps_0 light argsort skin_depth wave_breaking.
  destruct (C114_analytical_elements to_main to_sub e_ch m_e eps_0 light argsort skin_depth wave_breaking "boris"
    (fun _ => 1%Q) 1%Q
    {| c_tfinal := 2%Q; c_dtb := [Some 1%Q]; c_fields := []; c_ndiags := 2; c_push_before := false |} [(one_h, whole_b)]
    [Analytic (mkcomp no_field no_field no_field (fun p _ b => b - 5 * snd (fst p)) (fun p _ b => b + 5 * fst (fst p)) no_field)])
    as (N & s & H1 & _ & H2).
  - repeat split; cbn; try reflexivity.
    + intros d [E|[]]. injection E as <-. reflexivity.
    + intros d b [].
  - split; [reflexivity|]. intros b. discriminate.
  - cbn. lia.
  - intros f [<-|[]]. eexists. reflexivity.
  - right. reflexivity.
  - intros b [<-|[]]. split; [|left; reflexivity]. apply (sound_n 2); try reflexivity.
    cbn. intros v Hv. repeat (destruct Hv as [<-|Hv]; [reflexivity|]). destruct Hv.
  - exists N, s. split; [apply H2, le_n|exact H1].
Qed.
Example C113_example_order : reordering 3 (fun i => match i with O => 2%nat | 1%nat => 0%nat | _ => 1%nat end).
Proof.
  split; [intros [|[|i]] Hi; lia|]. intros [|[|[|i]]] [|[|[|j]]] Hi Hj E; lia.
Qed.
Print Assumptions C113_order.
Print Assumptions C113_divided.
