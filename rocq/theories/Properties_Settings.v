(** Property C104: settings of the CSR calculation. *)
From Coq Require Import QArith Qreals Reals List Arith Lia.
From Verif Require Import Model_CSR Spec_CSR Model_Settings Spec_Settings Proofs_CSR3.
Import ListNotations.
Open Scope Q_scope.

Lemma perform_settings rnd c k :
  (c_step (perform rnd c k), c_traj_step (perform rnd c k), c_bins (perform rnd c k)) =
  match k with
  | SetSettings a b n => (match a with Some x => x | None => 1 # 10 end,
      match b with Some x => x | None => 5 # 10000 end, match n with Some x => x | None => 2000%nat end)
  | _ => (c_step c, c_traj_step c, c_bins c)
  end.
Proof.
  destruct k as [a b n| |e]; try reflexivity. cbn [perform]. unfold enter_element.
  destruct (e_csr_on e); reflexivity.
Qed.
(** The settings in force are those of the latest call of [set_csr_settings], where an omitted
    argument means its default (0.1 m, 0.5 mm, 2000 bins), not the value of an earlier call; before
    the first call the defaults.  Tracking and resetting do not change them. *)
Theorem C104_latest_settings : forall rnd l, let c := program rnd l in
  (c_step c, c_traj_step c, c_bins c) = in_force (filled_in None None None) l.
Proof.
  intros rnd l. cbv zeta. unfold program.
  assert (G : forall l c, (c_step (fold_left (perform rnd) l c), c_traj_step (fold_left (perform rnd) l c),
                   c_bins (fold_left (perform rnd) l c)) = in_force (c_step c, c_traj_step c, c_bins c) l).
  { clear l. induction l as [|k l IH]; intros c; [reflexivity|].
    cbn [fold_left]. rewrite IH, perform_settings. destruct k; reflexivity. }
  apply G.
Qed.

Lemma perform_keeps rnd c k e : empties k = false -> (forall f, k = Track f -> e_id f <> e_id e) ->
  In e (c_elems c) -> (length (c_elems c) <= length (c_traj_steps c))%nat ->
  steps_of (perform rnd c k) e = steps_of c e /\ In e (c_elems (perform rnd c k)) /\
  (length (c_elems (perform rnd c k)) <= length (c_traj_steps (perform rnd c k)))%nat.
Proof.
  intros Hk Hid Hin Hl. destruct k as [a b n| |f]; cbn in Hk; [|discriminate|].
  - repeat split; assumption.
  - assert (E : e_csr_on f = true) by (destruct (e_csr_on f); [reflexivity|discriminate]).
    cbn [perform]. unfold enter_element. rewrite E.
    unfold add_lattice_element, steps_of. cbv zeta. cbn [c_elems c_traj_steps].
    assert (I1 : (index (c_elems c) e < length (c_elems c))%nat).
    { clear - Hin. induction (c_elems c) as [|x r IH]; [destruct Hin|]. cbn.
      destruct (Nat.eqb_spec (e_id x) (e_id e)); [lia|].
      destruct Hin as [->|Hin]; [congruence|]. specialize (IH Hin). lia. }
    assert (I2 : index (c_elems c ++ [f]) e = index (c_elems c) e).
    { clear - Hin. induction (c_elems c) as [|x r IH]; [destruct Hin|]. cbn.
      destruct (Nat.eqb_spec (e_id x) (e_id e)); [reflexivity|].
      destruct Hin as [->|Hin]; [congruence|]. rewrite (IH Hin). reflexivity. }
    rewrite I2. split; [apply app_nth1; lia|].
    split; [apply in_or_app; left; exact Hin|]. rewrite !app_length. cbn. lia.
Qed.
Lemma elems_program rnd l : forall c, (forall k, In k l -> empties k = false) ->
  length (c_traj_steps c) = length (c_elems c) ->
  let c' := fold_left (perform rnd) l c in
  c_elems c' = (c_elems c ++ entered l)%list /\ length (c_traj_steps c') = length (c_elems c').
Proof.
  induction l as [|k l IH]; intros c Hk Hl; [cbn; rewrite app_nil_r; auto|].
  cbn [fold_left]. cbv zeta.
  assert (E0 : empties k = false) by (apply Hk; left; reflexivity).
  assert (E1 : c_elems (perform rnd c k) = (c_elems c ++ entered [k])%list /\
               length (c_traj_steps (perform rnd c k)) = length (c_elems (perform rnd c k))).
  { destruct k as [a b n| |f]; cbn in E0; [|discriminate|].
    - cbn. rewrite app_nil_r. split; [reflexivity|exact Hl].
    - cbn [perform entered]. unfold enter_element. destruct (e_csr_on f); [|discriminate].
      unfold add_lattice_element. cbv zeta. cbn [c_elems c_traj_steps]. split; [reflexivity|].
      rewrite !app_length. cbn. lia. }
  destruct E1 as [E1 E2]. destruct (IH (perform rnd c k) (fun q Hq => Hk q (or_intror Hq)) E2) as [A1 A2].
  split; [|exact A2]. rewrite A1, E1. rewrite <- app_assoc. f_equal. destruct k; reflexivity.
Qed.
(** The step sizes of an element are fixed when the bunch enters it: they follow from the settings
    in force at that time, and later settings and elements do not change them (as long as the
    calculator is not emptied). *)
Theorem C104_fixed_on_entry : forall rnd l1 e l2,
  (forall k, In k (l1 ++ Track e :: l2) -> empties k = false) ->
  (forall f, In f (entered l1 ++ entered l2) -> e_id f <> e_id e) ->
  let '(step, traj_step, _) := in_force (filled_in None None None) l1 in
  steps_of (program rnd (l1 ++ Track e :: l2)) e =
  element_steps rnd step traj_step (e_length e) (e_n_out e).
Proof.
  intros rnd l1 e l2 Hk Hid. rewrite <- (C104_latest_settings rnd l1). cbv zeta beta iota.
  assert (K1 : forall k, In k l1 -> empties k = false) by (intros k H; apply Hk, in_or_app; left; exact H).
  destruct (elems_program rnd l1 csr0 K1 eq_refl) as [A1 A2]. cbn [csr0 c_elems app] in A1.
  assert (He : e_csr_on e = true).
  { assert (H := Hk (Track e) ltac:(apply in_or_app; right; left; reflexivity)). cbn in H.
    destruct (e_csr_on e); [reflexivity|discriminate]. }
  unfold program. rewrite fold_left_app. cbn [fold_left]. fold (program rnd l1).
  assert (O : own (program rnd l1) e).
  { split; [first [exact A2|exact (eq_sym A2)]|]. unfold program. rewrite A1. intros a Ha. apply Hid, in_or_app. left. exact Ha. }
  set (c1 := perform rnd (program rnd l1) (Track e)).
  assert (S1 : steps_of c1 e = element_steps rnd (c_step (program rnd l1)) (c_traj_step (program rnd l1))
                 (e_length e) (e_n_out e)).
  { unfold c1. cbn [perform]. unfold enter_element. rewrite He. apply own_steps. exact O. }
  rewrite <- S1.
  assert (I1 : In e (c_elems c1) /\ (length (c_elems c1) <= length (c_traj_steps c1))%nat).
  { unfold c1. cbn [perform]. unfold enter_element. rewrite He. unfold add_lattice_element. cbv zeta.
    cbn [c_elems c_traj_steps]. split; [apply in_or_app; right; left; reflexivity|].
    rewrite !app_length. unfold program. rewrite A2. cbn. lia. }
  assert (K2 : forall k, In k l2 -> empties k = false).
  { intros k H; apply Hk, in_or_app; right; right; exact H. }
  assert (K3 : forall f, In f (entered l2) -> e_id f <> e_id e).
  { intros f H. apply Hid, in_or_app. right. exact H. }
  destruct I1 as [I1 I2]. clear - I1 I2 K2 K3. revert I1 I2. generalize c1. clear c1.
  induction l2 as [|k l2 IH]; intros c I1 I2; [reflexivity|]. cbn [fold_left].
  destruct (perform_keeps rnd c k e (K2 k (or_introl eq_refl))) as (P1 & P2 & P3); try assumption.
  { intros f ->. apply K3. left. reflexivity. }
  rewrite (IH (fun q H => K2 q (or_intror H))).
  - exact P1.
  - intros f H. apply K3. destruct k; try exact H. right. exact H.
  - exact P2.
  - exact P3.
Qed.
(** Resetting, or tracking through an element without CSR, forgets trajectory and elements. *)
Theorem C104_emptied : forall rnd l k, empties k = true ->
  c_elems (program rnd (l ++ [k])) = [] /\ c_traj (program rnd (l ++ [k])) = None.
Proof.
  intros rnd l k Hk. unfold program. rewrite fold_left_app. cbn [fold_left].
  destruct k as [a b n| |e]; cbn in Hk; [discriminate|split; reflexivity|].
  cbn [perform]. unfold enter_element. destruct (e_csr_on e); [discriminate|]. split; reflexivity.
Qed.
(** After that, step sizes are not those of the settings any more: an element of 5 cm gets the step
    of 10 cm of the one tracked before the reset. *)
Theorem C104_after_reset_refuted : exists e1 e2,
  e_csr_on e1 = true /\ e_csr_on e2 = true /\ e_id e1 <> e_id e2 /\ 0 < e_length e1 /\ 0 < e_length e2 /\
  fst (steps_of (program noround [Track e1; Reset; Track e2]) e2) == 1 # 10 /\ e_length e2 == 5 # 100 /\
  fst (element_steps noround (1 # 10) (5 # 10000) (e_length e2) (e_n_out e2)) == 5 # 100.
Proof.
  exists (mkel 1 1 0 0 0 None true None 2), (mkel 2 (5 # 100) 0 0 0 None true None 2).
  repeat split; try discriminate; vm_compute; reflexivity.
Qed.

(** ** Non-vacuity *)
Definition ex_e (i : nat) (L : Q) : elem := mkel i L 0%R 0%R 0%R None true None 2.
Definition ex_l1 : list call := [SetSettings (Some (3 # 10)) (Some (1 # 100)) None; Track (ex_e 1 1); SetSettings None None (Some 50%nat)].
Definition ex_l2 : list call := [SetSettings (Some (1 # 50)) None None; Track (ex_e 3 2)].
Example C104_example :
  (forall k, In k (ex_l1 ++ Track (ex_e 2 (1 # 2)) :: ex_l2) -> empties k = false) /\
  (forall f, In f (entered ex_l1 ++ entered ex_l2) -> e_id f <> e_id (ex_e 2 (1 # 2))) /\
  (let c := program noround (ex_l1 ++ Track (ex_e 2 (1 # 2)) :: ex_l2) in
   c_step c == 1 # 50 /\ fst (steps_of c (ex_e 1 1)) == 1 # 4 /\ fst (steps_of c (ex_e 2 (1 # 2))) == 1 # 10) /\
  empties Reset = true.
Proof.
  split; [|split; [|split; [|reflexivity]]].
  - intros k H. repeat (destruct H as [<-|H]; [reflexivity|]). destruct H.
  - intros f [<-|[<-|[]]]; discriminate.
  - cbv zeta. split; [|split]; vm_compute; reflexivity.
Qed.

Print Assumptions C104_latest_settings.
Print Assumptions C104_fixed_on_entry.
Print Assumptions C104_emptied.
Print Assumptions C104_after_reset_refuted.
