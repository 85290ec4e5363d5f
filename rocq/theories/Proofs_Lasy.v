(** Lemmas about laser pulses read from files. *)
From Coq Require Import Reals List Lra Lia.
From Coquelicot Require Import Complex.
From Verif Require Import Model_Push Model_CSR Model_Laser Model_Lasy Spec_Lasy Proofs_CSR5 Proofs_CSR10.
Import ListNotations.
Open Scope R_scope.

Lemma in_entries rows cols a x : In x (entries rows cols a) <->
  exists i j, (i < rows)%nat /\ (j < cols)%nat /\ a i j = x.
Proof.
  unfold entries. rewrite in_concat. split.
  - intros (l & Hl & Hx). apply in_map_iff in Hl as (i & <- & Hi). apply in_map_iff in Hx as (j & <- & Hj).
    apply in_seq in Hi, Hj. exists i, j. repeat split; lia.
  - intros (i & j & Hi & Hj & <-). exists (map (a i) (seq 0 cols)). split.
    + apply in_map_iff. exists i. split; [reflexivity|apply in_seq; lia].
    + apply in_map. apply in_seq. lia.
Qed.
Lemma entries_min rows cols a i j : (i < rows)%nat -> (j < cols)%nat ->
  (forall i' j', (i' < rows)%nat -> (j' < cols)%nat -> a i j <= a i' j') ->
  list_min (entries rows cols a) = a i j.
Proof.
  intros Hi Hj H. apply Rle_antisym.
  - apply list_min_le. apply in_entries. exists i, j. auto.
  - assert (N : entries rows cols a <> []).
    { intros E. assert (In (a i j) []) by (rewrite <- E; apply in_entries; exists i, j; auto). contradiction. }
    apply list_min_in in N. apply in_entries in N as (i' & j' & Hi' & Hj' & <-). auto.
Qed.
Lemma entries_max rows cols a i j : (i < rows)%nat -> (j < cols)%nat ->
  (forall i' j', (i' < rows)%nat -> (j' < cols)%nat -> a i' j' <= a i j) ->
  list_max (entries rows cols a) = a i j.
Proof.
  intros Hi Hj H. apply Rle_antisym.
  - assert (N : entries rows cols a <> []).
    { intros E. assert (In (a i j) []) by (rewrite <- E; apply in_entries; exists i, j; auto). contradiction. }
    apply list_max_in in N. apply in_entries in N as (i' & j' & Hi' & Hj' & <-). auto.
  - apply list_max_ge. apply in_entries. exists i, j. auto.
Qed.

Lemma c_SI_pos' : 0 < c_SI.
Proof. unfold c_SI. lra. Qed.

Section Grid.
  Variable sp : sparams.
  Hypothesis V : valid_grid sp.
  Let nz := sp_nz sp.
  Let nr := sp_nr sp.
  Lemma nz1 : 0 < INR nz - 1.
  Proof. destruct V as (_ & _ & H & _). apply le_INR in H. unfold nz. cbn in H. lra. Qed.
  Lemma nr1 : 0 < INR nr - 1.
  Proof. destruct V as (_ & _ & _ & H). apply le_INR in H. unfold nr. cbn in H. lra. Qed.
  Lemma dz_pos : 0 < (sp_zmax sp - sp_zmin sp) / (INR nz - 1).
  Proof. pose proof nz1. destruct V as (Hz & _). apply Rdiv_lt_0_compat; lra. Qed.
  Lemma dr_pos : 0 < sp_rmax sp / INR nr.
  Proof. pose proof nr1. destruct V as (_ & Hr & _). apply Rdiv_lt_0_compat; lra. Qed.
  Lemma node_xi_at i : node_xi sp i = xi_at sp i.
  Proof. reflexivity. Qed.
  Lemma node_rad_at k : node_rad sp k = r_at sp k.
  Proof.
    unfold node_rad, r_at. pose proof nr1. fold nr. field. unfold nr in *. lra.
  Qed.
  Lemma xi_le i i' : (i <= i')%nat -> xi_at sp i <= xi_at sp i'.
  Proof.
    intros H. apply le_INR in H. unfold xi_at. fold nz. pose proof dz_pos.
    apply Rplus_le_compat_l, Rmult_le_compat_r; lra.
  Qed.
  Lemma r_le i i' : (i <= i')%nat -> r_at sp i <= r_at sp i'.
  Proof.
    intros H. apply le_INR in H. unfold r_at. fold nr. pose proof dr_pos.
    apply Rmult_le_compat_r; lra.
  Qed.
  Lemma xi_last : xi_at sp (nz - 1) = sp_zmax sp.
  Proof.
    unfold xi_at. fold nz. pose proof nz1. assert ((2 <= nz)%nat) by apply V.
    rewrite minus_INR by lia. cbn [INR]. field. lra.
  Qed.
  Lemma xi_first : xi_at sp 0 = sp_zmin sp.
  Proof. unfold xi_at. cbn [INR]. ring. Qed.

  Lemma t_le i i' : (i <= i')%nat -> - node_xi sp i' / c_SI <= - node_xi sp i / c_SI.
  Proof.
    intros H. pose proof (xi_le i i' H) as Hx. change (- xi_at sp i' / c_SI <= - xi_at sp i / c_SI).
    apply Rmult_le_compat_r; [left; apply Rinv_0_lt_compat, c_SI_pos'|]. lra.
  Qed.
  Lemma t_min_eq : list_min (entries nz nr (fun i _ => - node_xi sp i / c_SI)) = - sp_zmax sp / c_SI.
  Proof.
    assert ((2 <= nz)%nat) by apply V. assert ((2 <= nr)%nat) by apply V.
    rewrite (entries_min nz nr (fun i _ => - node_xi sp i / c_SI) (nz - 1) 0); [|lia|lia|].
    - rewrite node_xi_at, xi_last. reflexivity.
    - intros i' j' Hi' _. apply t_le. lia.
  Qed.
  Lemma t_max_eq : list_max (entries nz nr (fun i _ => - node_xi sp i / c_SI)) = - sp_zmin sp / c_SI.
  Proof.
    assert ((2 <= nz)%nat) by apply V. assert ((2 <= nr)%nat) by apply V.
    rewrite (entries_max nz nr (fun i _ => - node_xi sp i / c_SI) 0 0); [|lia|lia|].
    - rewrite node_xi_at, xi_first. reflexivity.
    - intros i' j' Hi' _. apply t_le. lia.
  Qed.
  Lemma r_min_eq : list_min (entries nz nr (fun _ k => node_rad sp k)) = r_at sp 0.
  Proof.
    assert ((2 <= nz)%nat) by apply V. assert ((2 <= nr)%nat) by apply V.
    rewrite (entries_min nz nr (fun _ k => node_rad sp k) 0 0); [|lia|lia|].
    - apply node_rad_at.
    - intros i' j' _ Hj'. rewrite !node_rad_at. apply r_le. lia.
  Qed.
  Lemma r_max_eq : list_max (entries nz nr (fun _ k => node_rad sp k)) = r_at sp (nr - 1).
  Proof.
    assert ((2 <= nz)%nat) by apply V. assert ((2 <= nr)%nat) by apply V.
    rewrite (entries_max nz nr (fun _ k => node_rad sp k) 0 (nr - 1)); [|lia|lia|].
    - apply node_rad_at.
    - intros i' j' _ Hj'. rewrite !node_rad_at. apply r_le. lia.
  Qed.
End Grid.

Section File.
  Variable prof : Type.
  Variable r_axis_max : prof -> R.
  Variable vp : prof -> R * R -> R * R -> nat * nat -> nat -> nat -> nat -> C.
  Variable gf : R * R -> nat * nat -> carr2 -> carr2.

  (** What lasy is asked for. *)
  Definition sampled (p : prof) (sp : sparams) : carr2 := fun i k =>
    vp p (r_at sp 0, 0) (r_at sp (sp_nr sp - 1), (sp_zmax sp - sp_zmin sp) / c_SI)
      (sp_nr sp, sp_nz sp) 0%nat k (sp_nz sp - 1 - i)%nat.
  Lemma file_eq o p sp : valid_grid sp ->
    initial_from_file prof r_axis_max vp gf o p sp =
    let a := if o_filter o then gf (o_sigma o) (sp_nz sp, sp_nr sp) (sampled p sp) else sampled p sp in
    if o_smooth o then
      fun i k => Cmult (a i k) (RtoC (exp (- 2 * (node_rad sp k / (Rmin (r_axis_max p) (r_at sp (sp_nr sp - 1)) * 0.85)) ^ 8)))
    else a.
  Proof.
    intros V. unfold initial_from_file, file_envelope.
    rewrite (t_min_eq sp V), (t_max_eq sp V), (r_min_eq sp V), (r_max_eq sp V).
    replace (- sp_zmin sp / c_SI - - sp_zmax sp / c_SI) with ((sp_zmax sp - sp_zmin sp) / c_SI)
      by (field; pose proof c_SI_pos'; lra).
    reflexivity.
  Qed.
  Lemma sampled_value a p sp i k : on_grid vp a -> valid_grid sp ->
    (i < sp_nz sp)%nat -> (k < sp_nr sp)%nat ->
    sampled p sp i k = a p (r_at sp k) ((sp_zmax sp - xi_at sp i) / c_SI).
  Proof.
    intros Ha V Hi Hk. pose proof (nz1 sp V) as Z1. pose proof (nr1 sp V) as R1.
    assert ((2 <= sp_nz sp)%nat) by apply V. assert ((2 <= sp_nr sp)%nat) by apply V.
    unfold sampled. rewrite Ha by lia. f_equal.
    - unfold r_at. rewrite minus_INR by lia. cbn [INR]. field. lra.
    - unfold xi_at. rewrite !minus_INR by lia. cbn [INR]. pose proof c_SI_pos'. field. lra.
  Qed.
End File.
