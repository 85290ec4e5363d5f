(** Property C102: progress bars. *)
From Coq Require Import QArith String Ascii List Bool Arith ZArith Lia Lqa.
From Verif Require Import Model_Float32 Model_Tracker Spec_Tracker Proofs_Tracker Proofs_Float32
  Proofs_Solo Properties_Tracker Model_Progress Spec_Progress Proofs_Progress.
Import ListNotations.
Open Scope Q_scope.

(** Whether a bar is shown or not, the tracking does the same. *)
Theorem C102_no_effect :
  forall B F evolve update auto_dt copy rnd cl show fuel (c : config) (bs0 : list B) (fs0 : F),
  fst (do_tracking_bar B F evolve update auto_dt copy rnd cl show fuel c bs0 fs0) =
  do_tracking B F evolve update auto_dt copy rnd fuel c bs0 fs0.
Proof.
  intros B F evolve update auto_dt copy rnd cl show fuel c bs0 fs0.
  unfold do_tracking_bar, do_tracking.
  set (b := get_progress_bar (c_tfinal c * cl) (negb show)).
  destruct (c_ndiags c).
  - destruct bs0; [|reflexivity].
    set (s := start B F update auto_dt c [] fs0).
    pose proof (bar_loop_fst B F evolve update auto_dt copy rnd cl c fuel s b) as E. revert E.
    destruct (bar_loop B F evolve update auto_dt copy rnd cl fuel c s b) as [o b'].
    cbn [fst snd]. intros <-. destruct o; reflexivity.
  - set (s := generate_diagnostics B F copy 0 (start B F update auto_dt c bs0 fs0)).
    pose proof (bar_loop_fst B F evolve update auto_dt copy rnd cl c fuel s b) as E. revert E.
    destruct (bar_loop B F evolve update auto_dt copy rnd cl fuel c s b) as [o b'].
    cbn [fst snd]. intros <-. destruct o; reflexivity.
Qed.

(** The bar has the length of the element, is closed at the end, and shows in turn the position
    of every push, update and output. *)
Theorem C102_positions :
  forall B F evolve update auto_dt copy rnd cl fuel (c : config) (bs0 : list B) (fs0 : F) s,
  length bs0 = length (c_dtb c) ->
  do_tracking B F evolve update auto_dt copy rnd fuel c bs0 fs0 = Done s ->
  let b := snd (do_tracking_bar B F evolve update auto_dt copy rnd cl true fuel c bs0 fs0) in
  b_total b = c_tfinal c * cl /\ b_closed b = true /\
  Forall2 (fun x t => x == t * cl) (b_shown b) (turns c (log s)).
Proof.
  intros B F evolve update auto_dt copy rnd cl fuel c bs0 fs0 s Hl H b.
  unfold b, do_tracking_bar. unfold do_tracking in H.
  destruct (c_ndiags c) as [|n] eqn:En.
  - destruct bs0; [destruct (loop _ _ _ _ _ _ _ _ _ _)|]; discriminate.
  - set (s0 := generate_diagnostics B F copy 0 (start B F update auto_dt c bs0 fs0)) in *.
    assert (W : wfs B F c s0).
    { pose proof (initial_wf' B F update auto_dt copy c bs0 fs0 Hl) as W.
      unfold initial in W. rewrite En in W. exact W. }
    assert (L0 : length (log s0) = S (length (c_fields c))).
    { unfold s0. rewrite start_eq. cbn [log generate_diagnostics].
      rewrite app_length, map_length, seq_length. cbn [Datatypes.length]. unfold nf, n_fields. lia. }
    set (b0 := get_progress_bar (c_tfinal c * cl) (negb true)).
    destruct (bar_loop_shown B F evolve update auto_dt copy rnd cl c fuel s0 b0 (log s0) W eq_refl)
      as (R1 & R2 & R3 & R4).
    { exists []. rewrite app_nil_r. split; [reflexivity|constructor]. }
    rewrite (bar_loop_fst B F evolve update auto_dt copy rnd cl c fuel s0 b0) in *.
    rewrite H in *. destruct (R4 s eq_refl) as (l & El & A). cbn [snd bar_close b_total b_closed b_shown].
    split; [exact R1|]. split; [reflexivity|].
    unfold turns. rewrite El, <- L0, skipn_app, skipn_all, Nat.sub_diag. exact A.
Qed.
(** In exact arithmetic it never goes back, stays within the length and ends there. *)
Theorem C102_advances_to_the_end :
  forall B F evolve update auto_dt copy cl m fuel (c : config) (bs0 : list B) (fs0 : F) s,
  good_config c bs0 -> bounded_below auto_dt m -> 0 <= cl ->
  do_tracking B F evolve update auto_dt copy exact fuel c bs0 fs0 = Done s ->
  let b := snd (do_tracking_bar B F evolve update auto_dt copy exact cl true fuel c bs0 fs0) in
  ascending 0 (b_shown b) /\ (forall x, In x (b_shown b) -> x <= b_total b) /\
  last (b_shown b) 0 == b_total b.
Proof.
  intros B F evolve update auto_dt copy cl m fuel c bs0 fs0 s Hg Ha Hcl H b.
  assert (Hl : length bs0 = length (c_dtb c)) by apply Hg.
  destruct (C102_positions B F evolve update auto_dt copy exact cl fuel c bs0 fs0 s Hl H)
    as (Et & _ & A). fold b in Et, A. rewrite Et.
  destruct (C06_events_in_order B F evolve update auto_dt copy c bs0 fs0 m fuel s Hg Ha H)
    as (O1 & O2 & _ & O4 & _).
  destruct (C06_start_of_the_log B F evolve update auto_dt copy c bs0 fs0 fuel s exact H) as [rest El].
  assert (Et' : turns c (log s) = map etime (filter own_event rest)).
  { unfold turns. rewrite El. set (h := map (fun j => EField j 0) (seq 0 (length (c_fields c)))).
    replace (S (length (c_fields c))) with (length (h ++ [EDiag 0 (map copy bs0)])).
    - change (EDiag 0 (map copy bs0) :: rest) with ([EDiag 0 (map copy bs0)] ++ rest).
      rewrite app_assoc, skipn_app, skipn_all, Nat.sub_diag. reflexivity.
    - unfold h. rewrite app_length, map_length, seq_length. cbn. lia. }
  rewrite Et' in A.
  set (pre := (map (fun j => EField j 0) (seq 0 (length (c_fields c))) ++ [EDiag 0 (map copy bs0)])%list).
  assert (El' : log s = (pre ++ rest)%list) by (unfold pre; rewrite <- app_assoc; exact El).
  (* times of the rest *)
  assert (P0 : forall t, In t (map etime (filter own_event rest)) -> 0 <= t <= c_tfinal c).
  { intros t Ht. apply own_in in Ht as (e & He & <- & _). apply O1. rewrite El'. apply in_or_app. right. exact He. }
  assert (P1 : forall l1 t l2 u, map etime (filter own_event rest) = l1 ++ t :: l2 -> In u l2 -> t <= u).
  { intros l1 t l2 u E Hu. apply own_split in E as (m1 & e & m2 & -> & <- & _ & <-).
    apply own_in in Hu as (e' & He' & <- & _).
    apply (O2 (pre ++ m1)%list e m2 e'); [rewrite El', <- app_assoc; reflexivity|exact He']. }
  (* the last event is the last output *)
  assert (P2 : last (map etime (filter own_event rest)) 0 == c_tfinal c).
  { pose proof (C04_output_times B F evolve update auto_dt copy c bs0 fs0 m fuel s Hg Ha H) as [D1 D2].
    assert (Hn : (0 < c_ndiags c)%nat).
    { unfold do_tracking in H. destruct (c_ndiags c); [|lia].
      destruct bs0; [destruct (loop _ _ _ _ _ _ _ _ _ _)|]; discriminate. }
    assert (Hd : exists l1 t sn l2, log s = l1 ++ EDiag t sn :: l2 /\ t == c_tfinal c).
    { destruct (nth_error (diag_times (log s)) (c_ndiags c)) as [t|] eqn:E.
      - pose proof (D2 _ _ E) as Et2. apply nth_error_In in E.
        assert (Q1 : t == c_tfinal c).
        { rewrite Et2. field. change 0 with (inject_Z 0). rewrite inject_Z_injective. lia. }
        clear - E Q1. induction (log s) as [|e l IH]; [destruct E|].
        destruct e as [i a d sy|j a|a sn]; cbn in E.
        + destruct (IH E) as (l1 & t' & sn & l2 & -> & Q). exists (EPush i a d sy :: l1), t', sn, l2. split; [reflexivity|exact Q].
        + destruct (IH E) as (l1 & t' & sn & l2 & -> & Q). exists (EField j a :: l1), t', sn, l2. split; [reflexivity|exact Q].
        + destruct E as [->|E].
          * exists [], t, sn, l. split; [reflexivity|exact Q1].
          * destruct (IH E) as (l1 & t' & sn' & l2 & -> & Q). exists (EDiag a sn :: l1), t', sn', l2. split; [reflexivity|exact Q].
      - apply nth_error_None in E. lia. }
    destruct Hd as (l1 & t & sn & l2 & Es & Et2).
    assert (N2 : l2 = []).
    { destruct l2 as [|e l2]; [reflexivity|]. exfalso.
      pose proof (O4 l1 t sn (e :: l2) e Es (or_introl eq_refl)) as Q1.
      assert (Q2 : 0 <= etime e <= c_tfinal c).
      { apply O1. rewrite Es. apply in_or_app. right. right. left. reflexivity. }
      lra. }
    subst l2. rewrite El' in Es.
    destruct (exists_last (l := rest)) as (r' & e & Er).
    { intros ->. rewrite app_nil_r in Es. unfold pre in Es. apply app_inj_tail in Es as [_ Es].
      injection Es as E0 _. destruct Hg as (HT & _). rewrite <- E0 in Et2. lra. }
    rewrite Er, app_assoc in Es. apply app_inj_tail in Es as [_ ->].
    rewrite Er, filter_app, map_app. cbn [filter own_event map etime]. rewrite last_last. exact Et2. }
  clear - A P0 P1 P2 Hcl. revert A P0 P1 P2. generalize (map (@etime B) (filter own_event rest)).
  generalize (b_shown b). intros xs ts A P0 P1 P2. split; [|split].
  - assert (G : forall a a', a == a' * cl -> (forall t, In t ts -> a' <= t) -> ascending a xs).
    { clear P2 P0. induction A as [|x t xs ts Hx A IH]; intros a a' Ea Ha; cbn; [exact I|].
      assert (Q1 : a' <= t) by (apply Ha; left; reflexivity).
      split; [rewrite Ea, Hx; apply Qmult_le_compat_r; assumption|].
      apply (IH (fun l1 y l2 u E => P1 (t :: l1) y l2 u (f_equal (cons t) E)) x t Hx).
      intros u Hu. exact (P1 [] t ts u eq_refl Hu). }
    apply (G 0 0); [lra|]. intros t Ht. apply P0. exact Ht.
  - clear P1 P2. induction A as [|x t xs ts Hx A IH]; intros y [].
    + subst y. rewrite Hx. apply Qmult_le_compat_r; [apply P0; left; reflexivity|exact Hcl].
    + apply IH; [intros u Hu; apply P0; right; exact Hu|assumption].
  - clear P0 P1. assert (G : last xs 0 == last ts 0 * cl).
    { clear P2. induction A as [|x t xs ts Hx A IH]; [cbn; lra|]. destruct A; [exact Hx|exact IH]. }
    rewrite G, P2. reflexivity.
Qed.
(** A bar that is not shown shows nothing. *)
Theorem C102_hidden :
  forall B F evolve update auto_dt copy rnd cl fuel (c : config) (bs0 : list B) (fs0 : F),
  b_shown (snd (do_tracking_bar B F evolve update auto_dt copy rnd cl false fuel c bs0 fs0)) = [].
Proof.
  intros B F evolve update auto_dt copy rnd cl fuel c bs0 fs0. unfold do_tracking_bar.
  set (b := get_progress_bar (c_tfinal c * cl) (negb false)).
  assert (E : forall s, b_shown (snd (bar_loop B F evolve update auto_dt copy rnd cl fuel c s b)) = []).
  { intros s. rewrite bar_loop_hidden by reflexivity. reflexivity. }
  destruct (c_ndiags c).
  - destruct bs0; [|reflexivity]. specialize (E (start B F update auto_dt c [] fs0)).
    destruct (bar_loop _ _ _ _ _ _ _ _ _ _ _ _) as [o b']. cbn in *. destruct o; exact E.
  - specialize (E (generate_diagnostics B F copy 0 (start B F update auto_dt c bs0 fs0))).
    destruct (bar_loop _ _ _ _ _ _ _ _ _ _ _ _) as [o b']. cbn in *. destruct o; exact E.
Qed.
(** If the initial output raises (no outputs requested), the bar stays open. *)
Theorem C102_left_open :
  forall B F evolve update auto_dt copy rnd cl show fuel (c : config) b0 (bs0 : list B) (fs0 : F),
  c_ndiags c = 0%nat ->
  b_closed (snd (do_tracking_bar B F evolve update auto_dt copy rnd cl show fuel c (b0 :: bs0) fs0)) = false.
Proof.
  intros B F evolve update auto_dt copy rnd cl show fuel c b0 bs0 fs0 En.
  unfold do_tracking_bar. rewrite En. reflexivity.
Qed.

(** The text bar of transfer-map elements: 20 places, dashes in proportion to the steps done,
    more with every step, full in the last one, in which the line is not restarted. *)
Theorem C102_text : forall pre n, (0 < n)%nat ->
  exists d : nat -> nat,
    (forall s, (s <= n)%nat ->
       (d s <= 20)%nat /\
       20 * inject_Z (Z.of_nat s) / inject_Z (Z.of_nat n) - (1 # 2) <= inject_Z (Z.of_nat (d s))
         <= 20 * inject_Z (Z.of_nat s) / inject_Z (Z.of_nat n) + (1 # 2) /\
       print_progress_bar pre s n =
         (pre ++ "[" ++ times (d s) "-" ++ times (20 - d s) " " ++ "] " ++
          (if Nat.eqb s n then "" else String CR ""))%string) /\
    (forall s s', (s <= s' <= n)%nat -> (d s <= d s')%nat) /\ d n = 20%nat.
Proof.
  intros pre n Hn.
  exists (fun s => Z.to_nat (nearest_even (inject_Z (Z.of_nat s) / inject_Z (Z.of_nat n) * 20))).
  assert (P : 0 < inject_Z (Z.of_nat n)).
  { change 0 with (inject_Z 0). rewrite <- Zlt_Qlt. lia. }
  split; [|split].
  - intros s Hs. pose proof (dashes_bounds s n Hn Hs) as [X1 X2].
    set (x := inject_Z (Z.of_nat s) / inject_Z (Z.of_nat n) * 20) in *.
    pose proof (nearest_nonneg x X1) as N0. pose proof (nearest_mono x 20 X2) as N1.
    change 20 with (inject_Z 20) in N1. rewrite nearest_Z in N1.
    split; [lia|]. split.
    + rewrite Z2Nat.id by exact N0. pose proof (nearest_bounds x) as [B1 B2].
      assert (E : 20 * inject_Z (Z.of_nat s) / inject_Z (Z.of_nat n) == x) by (unfold x; field; lra).
      rewrite E. split; lra.
    + unfold print_progress_bar. fold x.
      assert (A : forall a b c : string, ((a ++ b) ++ c)%string = (a ++ (b ++ c))%string).
      { intros a; induction a as [|ch a IH]; intros b c; cbn; [reflexivity|rewrite IH; reflexivity]. }
      assert (A0 : forall a : string, (a ++ "")%string = a).
      { intros a; induction a as [|ch a IH]; cbn; [reflexivity|rewrite IH; reflexivity]. }
      destruct (Nat.ltb_spec s n); destruct (Nat.eqb_spec s n); try lia.
      * rewrite !A. reflexivity.
      * rewrite ?A0. reflexivity.
  - intros s s' Hs. apply Z2Nat.inj_le.
    + apply nearest_nonneg. apply (dashes_bounds s n Hn). lia.
    + apply nearest_nonneg. apply (dashes_bounds s' n Hn). lia.
    + apply nearest_mono. apply Qmult_le_compat_r; [|discriminate].
      unfold Qdiv. apply Qmult_le_compat_r; [rewrite <- Zle_Qle; lia|].
      apply Qinv_le_0_compat. lra.
  - rewrite (nearest_mono_eq n Hn). reflexivity.
Qed.

(** ** Non-vacuity *)
Definition ex_c : config :=
  {| c_tfinal := 1; c_dtb := [Some (2 # 5)]; c_fields := [(1 # 2, true)]; c_ndiags := 1; c_push_before := true |}.
Definition ex_run (show : bool) :=
  do_tracking_bar Q unit (fun _ b t d => b + d) (fun _ f _ => f) (fun _ => 1) (fun b => b) exact 3 show 20 ex_c [0] tt.
Example C102_example : good_config ex_c [0] /\
  (exists s, fst (ex_run true) = Done s) /\
  Forall2 Qeq (b_shown (snd (ex_run true))) [6 # 5; 3 # 2; 12 # 5; 3; 3; 3] /\ b_shown (snd (ex_run false)) = [] /\
  print_progress_bar "a" 1 3 = ("a[-------             ] " ++ String CR "")%string /\
  print_progress_bar "a" 3 3 = "a[--------------------] "%string.
Proof.
  split; [|split; [|split; [|split; [|split]]]].
  - repeat split; cbn; try lia; try discriminate.
    + intros d [E|[]]. injection E as <-. reflexivity.
    + intros d b [E|[]]. injection E as <- <-. reflexivity.
  - eexists. vm_compute. reflexivity.
  - vm_compute. repeat constructor.
  - vm_compute. reflexivity.
  - vm_compute. reflexivity.
  - vm_compute. reflexivity.
Qed.

Print Assumptions C102_no_effect.
Print Assumptions C102_positions.
Print Assumptions C102_advances_to_the_end.
Print Assumptions C102_hidden.
Print Assumptions C102_left_open.
Print Assumptions C102_text.
