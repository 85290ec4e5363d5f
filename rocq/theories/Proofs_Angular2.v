(** Proofs for C120: a step of the Runge-Kutta pusher at the end of a plasma. *)
From Coq Require Import Reals List Lra.
From Verif Require Import Model_Push Spec_Push Proofs_Push Spec_Angular.
Import ListNotations.
Open Scope R_scope.

(** A plasma that ends at z = 0. *)
Definition ends : R -> R := fun z => if Rle_dec z 0 then 1 else 0.
Definition pull : pos -> R -> em := fun p t =>
  let k := c_SI * (1 / (2 * 1 * c_SI) * sqrt (ends (t * c_SI + snd p) * 1 ^ 2 / (1 * 1)) ^ 2) in
  mke (k * fst (fst p)) (k * snd (fst p)) 0 0 0 0.
Lemma pull_gathers : gathers [focusing_blowout 1 1 1 ends] pull.
Proof. exact (gathers_analytical _). Qed.
Lemma inside p t : t * c_SI + snd p <= 0 -> pull p t = mke (1 / 2 * fst (fst p)) (1 / 2 * snd (fst p)) 0 0 0 0.
Proof.
  intros H. unfold pull, ends. cbv zeta. destruct (Rle_dec _ _) as [_|N]; [|contradiction].
  replace (1 * 1 ^ 2 / (1 * 1)) with 1 by field. rewrite sqrt_1.
  replace (c_SI * (1 / (2 * 1 * c_SI) * 1 ^ 2)) with (1 / 2) by (unfold c_SI; field). reflexivity.
Qed.
Lemma outside p t : 0 < t * c_SI + snd p -> pull p t = em0.
Proof.
  intros H. unfold pull, ends. cbv zeta. destruct (Rle_dec _ _) as [N|_]; [lra|].
  replace (0 * 1 ^ 2 / (1 * 1)) with 0 by field. rewrite sqrt_0.
  replace (c_SI * (1 / (2 * 1 * c_SI) * 0 ^ 2)) with 0 by (unfold c_SI; field). unfold em0. apply em_eq; cbn; ring.
Qed.
Lemma free t p : 0 < t * c_SI + xi p -> lorentz c_SI 1 pull t p =
  mkp (c_SI / gamma p * px p) (c_SI / gamma p * py p) (c_SI / gamma p * pz p - c_SI) 0 0 0.
Proof.
  intros H. unfold lorentz. rewrite outside by exact H. unfold velocity, momentum, e_field, b_field, em0.
  cbn [scal vadd3 cross ex ey ez bx by_ bz]. apply part_eq; cbn [x y xi px py pz]; ring.
Qed.
Definition w0 : R := c_SI / sqrt 3.
Definition w2 : R := c_SI / sqrt (49 / 16).
Lemma c_pos : 0 < c_SI. Proof. unfold c_SI. lra. Qed.
Lemma w0_pos : 0 < w0.
Proof. apply Rdiv_lt_0_compat; [exact c_pos|apply sqrt_lt_R0; lra]. Qed.
Lemma w_less : w2 < w0.
Proof.
  unfold w0, w2, Rdiv. apply Rmult_lt_compat_l; [exact c_pos|]. apply Rinv_lt_contravar.
  - apply Rmult_lt_0_compat; apply sqrt_lt_R0; lra.
  - apply sqrt_lt_1; lra.
Qed.
Definition leaving : part := mkp 1 0 0 0 1 1.
Lemma rk4_leaving : classical_rk4 (lorentz c_SI 1 pull) 0 1 leaving =
  mkp (1 + w2 / 12) ((4 * w0 + 2 * w2) / 6) ((4 * w0 + 2 * w2) / 6 - c_SI) (1 / 12) 1 1.
Proof.
  unfold classical_rk4. cbv zeta. pose proof w0_pos as W.
  assert (K1 : lorentz c_SI 1 pull 0 leaving = mkp 0 w0 (w0 - c_SI) (1 / 2) 0 0).
  { unfold lorentz. rewrite inside by (unfold leaving, pos_of; cbn; lra).
    unfold velocity, momentum, e_field, b_field, gamma, leaving, pos_of. cbn [scal vadd3 cross ex ey ez bx by_ bz x y xi px py pz fst snd].
    replace (1 + (0 * 0 + 1 * 1 + 1 * 1)) with 3 by ring. fold w0.
    assert (Q : c_SI / (1 * c_SI) = 1) by (unfold c_SI; field). rewrite Q. apply part_eq; cbn [x y xi px py pz]; try ring; field. }
  rewrite K1.
  assert (K2 : lorentz c_SI 1 pull (0 + 1 / 2) (padd leaving (pscal (1 / 2) (mkp 0 w0 (w0 - c_SI) (1 / 2) 0 0))) =
               mkp (w2 / 4) w2 (w2 - c_SI) 0 0 0).
  { rewrite free by (unfold leaving; cbn; lra). unfold gamma, leaving, padd, pscal. cbn [x y xi px py pz].
    replace (1 + ((0 + 1 / 2 * (1 / 2)) * (0 + 1 / 2 * (1 / 2)) + (1 + 1 / 2 * 0) * (1 + 1 / 2 * 0) + (1 + 1 / 2 * 0) * (1 + 1 / 2 * 0)))
      with (49 / 16) by field. fold w2. apply part_eq; cbn [x y xi px py pz]; try ring; field. }
  rewrite K2.
  assert (P2 : 0 < w2) by (apply Rdiv_lt_0_compat; [exact c_pos|apply sqrt_lt_R0; lra]).
  assert (K3 : lorentz c_SI 1 pull (0 + 1 / 2) (padd leaving (pscal (1 / 2) (mkp (w2 / 4) w2 (w2 - c_SI) 0 0 0))) = mkp 0 w0 (w0 - c_SI) 0 0 0).
  { rewrite free by (unfold leaving; cbn; lra). unfold gamma, leaving, padd, pscal. cbn [x y xi px py pz].
    replace (1 + ((0 + 1 / 2 * 0) * (0 + 1 / 2 * 0) + (1 + 1 / 2 * 0) * (1 + 1 / 2 * 0) + (1 + 1 / 2 * 0) * (1 + 1 / 2 * 0))) with 3 by field.
    fold w0. apply part_eq; cbn [x y xi px py pz]; ring. }
  rewrite K3.
  assert (K4 : lorentz c_SI 1 pull (0 + 1) (padd leaving (pscal 1 (mkp 0 w0 (w0 - c_SI) 0 0 0))) = mkp 0 w0 (w0 - c_SI) 0 0 0).
  { rewrite free by (unfold leaving; cbn; lra). unfold gamma, leaving, padd, pscal. cbn [x y xi px py pz].
    replace (1 + ((0 + 1 * 0) * (0 + 1 * 0) + (1 + 1 * 0) * (1 + 1 * 0) + (1 + 1 * 0) * (1 + 1 * 0))) with 3 by field.
    fold w0. apply part_eq; cbn [x y xi px py pz]; ring. }
  rewrite K4. unfold leaving, padd, pscal. cbn [x y xi px py pz]. apply part_eq; cbn [x y xi px py pz]; field.
Qed.
