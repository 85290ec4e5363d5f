(** Proofs about the trajectory and about histories of use. *)
From Coq Require Import QArith Qround Qreals Reals List Arith Lqa Lra Lia ZArith.
From Coquelicot Require Import Coquelicot.
From Verif Require Import Model_Float32 Model_Push Model_Bunch Model_CSR Spec_CSR Proofs_CSR
  Proofs_CSR2 Proofs_CSR3 Proofs_CSR4 Proofs_CSR5 Proofs_CSR6.
Import ListNotations.
Open Scope R_scope.

(** ** Geometry *)
Lemma arc_moves p L th l : L <> 0 -> t_ey p = 0 ->
  is_derive (fun l => t_x (arc_point p L th l)) l (t_ex (arc_point p L th l)) /\
  is_derive (fun l => t_y (arc_point p L th l)) l (t_ey (arc_point p L th l)) /\
  is_derive (fun l => t_z (arc_point p L th l)) l (t_ez (arc_point p L th l)).
Proof.
  intros HL Hy. unfold arc_point. destruct (Req_EM_T th 0) as [E|E]; cbn [t_x t_y t_z t_ex t_ey t_ez].
  - split; [|split]; auto_derive; trivial; ring.
  - set (rho := L / th). assert (Hr : rho <> 0).
    { unfold rho. apply Rmult_integral_contrapositive_currified; [exact HL|apply Rinv_neq_0_compat; exact E]. }
    clearbody rho.
    assert (S2 : sin (l * / rho) = 2 * sin (l * / (2 * rho)) * cos (l * / (2 * rho))).
    { rewrite <- sin_2a. f_equal. field. exact Hr. }
    rewrite Hy. split; [|split]; auto_derive; trivial; unfold Rdiv; rewrite ?S2; field; exact Hr.
Qed.
Lemma arc_turns p L th l phi : L <> 0 -> t_ex p = sin phi -> t_ez p = cos phi ->
  t_ex (arc_point p L th l) = sin (phi + th * l / L) /\
  t_ez (arc_point p L th l) = cos (phi + th * l / L).
Proof.
  intros HL Hx Hz. unfold arc_point. destruct (Req_EM_T th 0) as [E|E]; cbn [t_ex t_ez].
  - rewrite E. replace (phi + 0 * l / L) with phi by (field; exact HL). split; assumption.
  - replace (l / (L / th)) with (th * l / L) by (field; split; assumption).
    rewrite Hx, Hz, sin_plus, cos_plus. split; ring.
Qed.
(** Points added for an element. *)
Lemma add_points rnd l e : (forall x, (0 < x)%Q -> (0 < rnd x)%Q) -> List.Forall ok_op l -> ok_op (Add e) ->
  let old := match c_traj (run rnd l) with None => [origin] | Some t => t end in
  exists n, (0 < n)%nat /\ c_traj (run rnd (l ++ [Add e])) =
    Some (old ++ map (fun k => arc_point (last old origin) (Q2R (e_length e)) (e_theta e)
                                 (INR (S k) * (Q2R (e_length e) / INR n))) (seq 0 n)).
Proof.
  intros Hr Hl [HL Hn] old. pose proof (wf_run rnd Hr l csr0 wf0 Hl) as W. fold (run rnd l) in W.
  rewrite run_snoc. cbn [apply_op]. unfold add_lattice_element. cbv zeta. cbn [c_traj].
  set (c := run rnd l) in *. set (c1 := mkcsr _ _ _ _ _ _ _).
  exists (traj_points rnd (e_length e) (snd (steps_of c1 e))). split.
  - destruct W as (H1 & H2 & H3 & H4 & _). destruct (steps_pos rnd Hr _ _ _ _ H1 H2 HL Hn) as [S1 S2].
    unfold traj_points. assert (0 < snd (steps_of c1 e))%Q.
    { unfold steps_of, c1. cbn [c_elems c_traj_steps].
      set (st := element_steps rnd _ _ _ _) in *.
      assert (F : List.Forall (fun p => 0 < fst p /\ 0 < snd p)%Q (c_traj_steps c ++ [st])).
      { apply Forall_app. split; [exact H3|]. constructor; [split; assumption|constructor]. }
      assert (I : (index (c_elems c ++ [e]) e < length (c_traj_steps c ++ [st]))%nat).
      { pose proof (index_in (c_elems c) e). rewrite app_length. cbn. lia. }
      apply (proj1 (Forall_forall _ _) F). apply nth_In. exact I. }
    pose proof (ceil_pos _ (Hr _ (div_pos _ _ HL H))). lia.
  - f_equal. unfold old. f_equal. apply map_ext_in. intros k Hk. apply in_seq in Hk.
    rewrite l_traj_eq by lia. reflexivity.
Qed.

(** ** Without clearing, every element has its own step sizes *)
Lemma own_run rnd l : ~ In Clear l -> length (c_traj_steps (run rnd l)) = length (c_elems (run rnd l)).
Proof.
  induction l as [|o l IH] using rev_ind; intros H; [reflexivity|].
  rewrite run_snoc. assert (H' : ~ In Clear l) by (intros F; apply H, in_or_app; left; exact F).
  specialize (IH H'). destruct o as [e| |a b n]; cbn [apply_op].
  - unfold add_lattice_element. cbv zeta. cbn [c_traj_steps c_elems]. rewrite !app_length, IH. reflexivity.
  - exfalso. apply H, in_or_app. right. left. reflexivity.
  - exact IH.
Qed.
Lemma ranges_run l e : List.Forall ok_op l -> ~ In Clear l ->
  (forall a, In a (lattice l) -> e_id a <> e_id e) -> ok_op (Add e) ->
  let c := run noround (l ++ [Add e]) in
  let old := match c_traj (run noround l) with None => [origin] | Some t => t end in
  exists k m t, (0 < k)%nat /\ (0 < m)%nat /\
    (e_length e == qn k * get_csr_step c e)%Q /\ c_traj c = Some t /\
    length t = (length old + k * m)%nat /\
    forall i, (i < k)%nat -> it_range c e (INR (i + 1) * Q2R (get_csr_step c e)) =
      seq (length old + i * m) m.
Proof.
  intros Hl Hc Hid [HL Hn] c old.
  assert (W : wf (run noround l)) by (apply wf_run; [intros x Hx; exact Hx|exact wf0|exact Hl]).
  assert (O : own (run noround l) e).
  { split; [apply own_run; exact Hc|]. rewrite elems_run. exact Hid. }
  destruct (ranges (run noround l) e W O HL Hn) as (k & m & K1 & K2 & K3 & (t & T1 & T2) & K4).
  unfold c. rewrite run_snoc. exists k, m, t. repeat split; assumption.
Qed.
Lemma own_step l e : ~ In Clear l -> (forall a, In a (lattice l) -> e_id a <> e_id e) ->
  steps_of (run noround (l ++ [Add e])) e =
  element_steps noround (c_step (run noround l)) (c_traj_step (run noround l)) (e_length e) (e_n_out e).
Proof.
  intros Hc Hid. rewrite run_snoc. apply own_steps. split; [apply own_run; exact Hc|].
  rewrite elems_run. exact Hid.
Qed.
Lemma kick_some c e po gamma z q : it_range c e po <> [] ->
  exists dp, csr_kick c e po gamma z q = Some dp.
Proof. intros H. unfold csr_kick. destruct (it_range c e po); [congruence|]. eauto. Qed.
Lemma apply_some l e gamma q cols i : List.Forall ok_op l -> ~ In Clear l ->
  (forall a, In a (lattice l) -> e_id a <> e_id e) -> ok_op (Add e) ->
  let c := run noround (l ++ [Add e]) in
  (qn (i + 1) * get_csr_step c e <= e_length e)%Q ->
  exists cols', apply_csr c e (INR (i + 1) * Q2R (get_csr_step c e)) gamma q cols = Some cols'.
Proof.
  intros H1 H2 H3 H4 c Hi. destruct (ranges_run l e H1 H2 H3 H4) as (k & m & t & K1 & K2 & K3 & _ & _ & K4).
  fold c in K3, K4.
  assert (I : (i < k)%nat).
  { rewrite K3 in Hi. assert (0 < get_csr_step c e)%Q.
    { destruct H4 as [HL _]. rewrite K3 in HL. pose proof (qn_pos k K1). 
      apply (Qmult_lt_l 0 _ (qn k)); [exact H|]. Lqa.lra. }
    apply Qmult_le_r in Hi; [|exact H]. unfold qn in Hi. rewrite <- Zle_Qle in Hi. lia. }
  unfold apply_csr.
  destruct (kick_some c e (INR (i + 1) * Q2R (get_csr_step c e)) gamma (map (fun v => - nth 4 v 0) cols) q) as [dp ->].
  - rewrite (K4 i I). destruct m; [lia|discriminate].
  - eauto.
Qed.

Lemma list_max_in l : l <> [] -> In (list_max l) l.
Proof.
  destruct l as [|a l]; [congruence|]. intros _. cbn [list_max]. revert a.
  induction l as [|b l IH]; intros a; [left; reflexivity|]. cbn [fold_left].
  destruct (IH (Rmax a b)) as [E|I]; [|right; right; exact I].
  rewrite <- E. unfold Rmax. destruct (Rle_dec a b); [right; left|left]; reflexivity.
Qed.
