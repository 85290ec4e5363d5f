(** Lemmas: sequences of pushes, uniqueness of the derivatives, and a step of Runge-Kutta in a uniform field. *)
From Coq Require Import Reals List Lra.
From Coquelicot Require Import Coquelicot.
From Verif Require Import Model_Push Spec_Push Proofs_Push Spec_Conv Proofs_Conv Spec_Volume Proofs_Volume Proofs_Volume2 Proofs_Volume3.
Import ListNotations.
Open Scope R_scope.

Lemma volume_pushes q m steps :
  List.Forall (fun s => exists G, gathers (p_fields s) G /\ differentiable G (p_time s + p_dt s / 2)) steps ->
  forall F, volume_preserving F ->
  exists F', volume_preserving F' /\ forall l b, length l = length b -> fst (push_all q m steps (map F l, b)) = map F' l.
Proof.
  induction 1 as [|[fields t dt] steps (G & Hg & HG) _ IH]; intros F HF; cbn [push_all p_fields p_time p_dt] in *.
  - exists F. split; [exact HF|]. reflexivity.
  - destruct (IH (fun p => boris1 (q / (m * c_SI)) G t dt (F p))) as (F' & HF' & E); [apply volume_push; [exact HG|exact HF]|].
    exists F'. split; [exact HF'|]. intros l b Hl. cbn [fst snd].
    destruct (boris_map q m fields G t dt (map F l) b Hg ltac:(rewrite map_length; exact Hl)) as [E1 E2].
    rewrite <- (E l (snd (apply_boris_pusher q m fields t dt (map F l) b))) by (rewrite E2, map_length; reflexivity).
    f_equal. f_equal. rewrite (surjective_pairing (apply_boris_pusher _ _ _ _ _ _ _)) at 1. f_equal. rewrite E1, map_map. reflexivity.
Qed.

(** ** Uniqueness *)
Lemma close_zero a : (forall eps, 0 < eps -> Rabs a <= eps) -> a = 0.
Proof.
  intros H. destruct (Req_dec a 0) as [|N]; [assumption|]. exfalso. pose proof (Rabs_pos_lt a N). specialize (H (Rabs a / 2) ltac:(lra)). lra.
Qed.
Lemma gradient_along phi p j j' (e : part) k : gradient phi p j -> gradient phi p j' ->
  (forall h, 0 < h -> pdist (p <+> h <*> e) p = h) ->
  (forall h i, scalar i p (p <+> h <*> e) = h * k i) -> k j = k j'.
Proof.
  intros H H' Hd Hs. apply Rminus_diag_uniq, close_zero. intros eps He.
  destruct (H (eps / 2) ltac:(lra)) as (d & d0 & A). destruct (H' (eps / 2) ltac:(lra)) as (d' & d0' & A').
  set (h := Rmin d d'). assert (h0 : 0 < h) by (apply Rmin_pos; assumption).
  assert (h1 : h <= d) by apply Rmin_l. assert (h2 : h <= d') by apply Rmin_r.
  specialize (A (p <+> h <*> e)). specialize (A' (p <+> h <*> e)). rewrite (Hd h h0), (Hs h) in A, A'. specialize (A h1). specialize (A' h2).
  apply Rmult_le_reg_l with h; [exact h0|]. rewrite <- (Rabs_pos_eq h) at 1 by lra. rewrite <- Rabs_mult.
  set (v := phi (p <+> h <*> e) - phi p) in *.
  replace (h * (k j - k j')) with ((v - h * k j') - (v - h * k j)) by ring.
  eapply Rle_trans; [apply Rabs_triang|]. rewrite Rabs_Ropp. lra.
Qed.
Lemma gradient_unique phi p j j' : gradient phi p j -> gradient phi p j' -> j = j'.
Proof.
  intros H H'.
  apply part_ext; [apply (gradient_along phi p j j' (mkp 1 0 0 0 0 0) x H H')|apply (gradient_along phi p j j' (mkp 0 1 0 0 0 0) y H H')
    |apply (gradient_along phi p j j' (mkp 0 0 1 0 0 0) xi H H')|apply (gradient_along phi p j j' (mkp 0 0 0 1 0 0) px H H')
    |apply (gradient_along phi p j j' (mkp 0 0 0 0 1 0) py H H')|apply (gradient_along phi p j j' (mkp 0 0 0 0 0 1) pz H H')];
  (intros h Hh; unfold pdist; comps; cbn [x y xi px py pz]; rewrite ?Rmult_0_r, ?Rmult_1_r, ?Rplus_0_r, ?Rminus_eq_0, ?Rabs_R0;
    match goal with |- context [Rabs (?a + h - ?a)] => replace (a + h - a) with h by ring end; rewrite (Rabs_pos_eq h) by lra; ring) ||
  (intros h i; unfold scalar; comps; cbn [x y xi px py pz]; ring).
Qed.
Lemma jacobian_unique F p J J' : jacobian F p J -> jacobian F p J' -> J = J'.
Proof.
  unfold jacobian. intros H. revert J'. induction H; intros J' H'; inversion H'; subst; [reflexivity|].
  f_equal; [eapply gradient_unique; eassumption|]. apply IHForall2. assumption.
Qed.

(** ** Runge-Kutta in a uniform magnetic field along z *)
Definition along_z : pos -> R -> em := fun _ _ => mke 0 0 0 0 0 1.
Lemma along_z_differentiable s : differentiable along_z s.
Proof.
  intros r e He. exists (0, 0, 0). intros eps Heps. exists 1. split; [lra|]. intros r' _. unfold inner, along_z. cbn [fst snd].
  match goal with |- Rabs ?a <= _ => replace a with 0 by ring end. rewrite Rabs_R0.
  apply Rmult_le_pos; [lra|]. unfold rdist. repeat apply Rplus_le_le_0_compat; apply Rabs_pos.
Qed.

Section Jac.
  Variable p : part.
  Lemma jac_make F a b c d e f : gradient (fun p' => x (F p')) p a -> gradient (fun p' => y (F p')) p b -> gradient (fun p' => xi (F p')) p c ->
    gradient (fun p' => px (F p')) p d -> gradient (fun p' => py (F p')) p e -> gradient (fun p' => pz (F p')) p f -> jacobian F p [a; b; c; d; e; f].
  Proof. intros. unfold jacobian. repeat (apply Forall2_cons; [assumption|]). constructor. Qed.
  Lemma gr_eq phi j j' : gradient phi p j -> j = j' -> gradient phi p j'.
  Proof. intros H <-. exact H. Qed.
  Lemma gr_lin phi psi k j j' : gradient phi p j -> gradient psi p j' -> gradient (fun p' => phi p' + k * psi p') p (j <+> k <*> j').
  Proof.
    intros H H'. eapply gr_eq; [apply gr_plus; [exact H|apply (gr_mult p (fun _ => k)); [apply gr_const|exact H']]|].
    apply part_ext; comps; ring.
  Qed.
  Lemma jac_lin A B k a b c d e f a' b' c' d' e' f' : jacobian A p [a; b; c; d; e; f] -> jacobian B p [a'; b'; c'; d'; e'; f'] ->
    jacobian (fun p' => padd (A p') (pscal k (B p'))) p
      [a <+> k <*> a'; b <+> k <*> b'; c <+> k <*> c'; d <+> k <*> d'; e <+> k <*> e'; f <+> k <*> f'].
  Proof.
    intros HA HB. apply rows in HA. apply rows in HB. destruct HA as (? & ? & ? & ? & ? & ?), HB as (? & ? & ? & ? & ? & ?).
    apply jac_make; cbn [padd pscal x y xi px py pz]; apply gr_lin; assumption.
  Qed.
  Lemma jac_turn t Y a b c d e f : jacobian Y p [a; b; c; d; e; f] -> momentum (Y p) = (0, 0, 0) ->
    jacobian (fun p' => lorentz 1 1 along_z t (Y p')) p [c_SI <*> d; c_SI <*> e; c_SI <*> f; e; -1 <*> d; Z] /\
    momentum (lorentz 1 1 along_z t (Y p)) = (0, 0, 0).
  Proof.
    intros HJ H0. apply rows in HJ. destruct HJ as (_ & _ & _ & R4 & R5 & R6). unfold momentum in H0.
    assert (E4 : px (Y p) = 0) by congruence. assert (E5 : py (Y p) = 0) by congruence. assert (E6 : pz (Y p) = 0) by congruence. clear H0.
    assert (c0 : c_SI <> 0) by (unfold c_SI; lra).
    set (g := fun p' => c_SI / gamma (Y p')).
    assert (Gp : g p = c_SI) by (unfold g, gamma; rewrite E4, E5, E6; replace (1 + (0 * 0 + 0 * 0 + 0 * 0)) with 1 by ring; rewrite sqrt_1; field).
    assert (Gg : exists j, gradient g p j).
    { eexists. unfold g, gamma.
      eapply (gr_comp p (fun z => c_SI / sqrt z) _ (fun p' => 1 + (px (Y p') * px (Y p') + py (Y p') * py (Y p') + pz (Y p') * pz (Y p')))).
      - apply inv_root_derive. rewrite E4, E5, E6. lra.
      - apply (gr_plus p (fun _ => 1)); [apply gr_const|]. apply gr_plus; [apply gr_plus|]; apply gr_mult; eassumption. }
    destruct Gg as (j & Gg).
    assert (V : forall u r, gradient (fun p' => u (Y p')) p r -> u (Y p) = 0 -> gradient (fun p' => g p' * u (Y p')) p (c_SI <*> r)).
    { intros u r Hr Hu. eapply gr_eq; [apply (gr_mult p g); [exact Gg|exact Hr]|]. rewrite Gp, Hu. apply part_ext; comps; ring. }
    assert (V4 := V px d R4 E4). assert (V5 := V py e R5 E5). assert (V6 := V pz f R6 E6). clear V.
    assert (Sc : forall k phi r, gradient phi p r -> gradient (fun p' => k * phi p') p (k <*> r)).
    { intros k phi r Hr. eapply gr_eq; [apply (gr_mult p (fun _ => k)); [apply gr_const|exact Hr]|]. apply part_ext; comps; ring. }
    split.
    - apply jac_make; unfold lorentz, velocity, along_z, momentum, scal, vadd3, cross, e_field, b_field; cbn [x y xi px py pz ex ey ez bx by_ bz].
      + exact V4.
      + exact V5.
      + eapply gr_eq; [apply (gr_plus p (fun p' => g p' * pz (Y p')) (fun _ => - c_SI)); [exact V6|apply gr_const]|]. apply part_ext; comps; ring.
      + eapply gr_eq; [eapply gr_ext; [|apply (Sc (1 / c_SI)); exact V5]; intros p'; change (c_SI / gamma (Y p')) with (g p'); cbv beta; field; exact c0|].
        apply part_ext; comps; field; exact c0.
      + eapply gr_eq; [eapply gr_ext; [|apply (Sc (- 1 / c_SI)); exact V4]; intros p'; change (c_SI / gamma (Y p')) with (g p'); cbv beta; field; exact c0|].
        apply part_ext; comps; field; exact c0.
      + eapply gr_ext; [|apply (gr_const p 0)]. intros p'. change (c_SI / gamma (Y p')) with (g p'). cbv beta. field. exact c0.
    - unfold lorentz, velocity, along_z, momentum, scal, vadd3, cross, e_field, b_field. cbn [px py pz ex ey ez bx by_ bz].
      rewrite E4, E5, E6. change (c_SI / gamma (Y p)) with (g p). f_equal; [f_equal|]; field; exact c0.
  Qed.
End Jac.

Definition turned (p : part) : part := classical_rk4 (lorentz 1 1 along_z) 0 1 p.
Lemma turned_volume : exists J, jacobian turned Z J /\ det J = 569 / 576.
Proof.
  set (c := c_SI).
  assert (I0 : jacobian (fun p => p) Z [mkp 1 0 0 0 0 0; mkp 0 1 0 0 0 0; mkp 0 0 1 0 0 0; mkp 0 0 0 1 0 0; mkp 0 0 0 0 1 0; mkp 0 0 0 0 0 1]).
  { apply jac_make; intros eps He; (exists 1; split; [lra|]; intros p' _); unfold scalar; cbn [x y xi px py pz];
      (match goal with |- Rabs ?z <= _ => replace z with 0 by ring end; rewrite Rabs_R0; apply Rmult_le_pos; [lra|apply pdist_pos]). }
  assert (Mo : forall k a b, momentum a = (0, 0, 0) -> momentum b = (0, 0, 0) -> momentum (padd a (pscal k b)) = (0, 0, 0)).
  { intros k a b Ha Hb. unfold momentum in *. cbn [padd pscal px py pz].
    assert (px a = 0 /\ py a = 0 /\ pz a = 0 /\ px b = 0 /\ py b = 0 /\ pz b = 0) as (-> & -> & -> & -> & -> & ->) by (repeat split; congruence).
    f_equal; [f_equal|]; ring. }
  assert (M0 : momentum Z = (0, 0, 0)) by reflexivity.
  destruct (jac_turn Z 0 _ _ _ _ _ _ _ I0 M0) as (J1 & M1).
  pose proof (jac_lin Z _ _ (1 / 2) _ _ _ _ _ _ _ _ _ _ _ _ I0 J1) as L1. pose proof (Mo (1 / 2) _ _ M0 M1) as N1.
  destruct (jac_turn Z (0 + 1 / 2) (fun p' => padd p' (pscal (1 / 2) (lorentz 1 1 along_z 0 p'))) _ _ _ _ _ _ L1 N1) as (J2 & M2).
  pose proof (jac_lin Z _ _ (1 / 2) _ _ _ _ _ _ _ _ _ _ _ _ I0 J2) as L2. pose proof (Mo (1 / 2) _ _ M0 M2) as N2.
  destruct (jac_turn Z (0 + 1 / 2) _ _ _ _ _ _ _ L2 N2) as (J3 & M3).
  pose proof (jac_lin Z _ _ 1 _ _ _ _ _ _ _ _ _ _ _ _ I0 J3) as L3. pose proof (Mo 1 _ _ M0 M3) as N3.
  destruct (jac_turn Z (0 + 1) _ _ _ _ _ _ _ L3 N3) as (J4 & M4).
  pose proof (jac_lin Z _ _ (1 / 6) _ _ _ _ _ _ _ _ _ _ _ _ I0 J1) as S1.
  pose proof (jac_lin Z _ _ (2 / 6) _ _ _ _ _ _ _ _ _ _ _ _ S1 J2) as S2.
  pose proof (jac_lin Z _ _ (2 / 6) _ _ _ _ _ _ _ _ _ _ _ _ S2 J3) as S3.
  pose proof (jac_lin Z _ _ (1 / 6) _ _ _ _ _ _ _ _ _ _ _ _ S3 J4) as S4.
  clear J1 M1 L1 N1 J2 M2 L2 N2 J3 M3 L3 N3 J4 M4 S1 S2 S3 I0 M0 Mo.
  exists [mkp 1 0 0 (5 / 6 * c) (11 / 24 * c) 0; mkp 0 1 0 (- 11 / 24 * c) (5 / 6 * c) 0; mkp 0 0 1 0 0 c;
          mkp 0 0 0 (13 / 24) (5 / 6) 0; mkp 0 0 0 (- 5 / 6) (13 / 24) 0; mkp 0 0 0 0 0 1]. split.
  - eapply jacobian_ext; [|match type of S4 with jacobian ?F Z ?J => replace J with [mkp 1 0 0 (5 / 6 * c) (11 / 24 * c) 0; mkp 0 1 0 (- 11 / 24 * c) (5 / 6 * c) 0; mkp 0 0 1 0 0 c;
          mkp 0 0 0 (13 / 24) (5 / 6) 0; mkp 0 0 0 (- 5 / 6) (13 / 24) 0; mkp 0 0 0 0 0 1] in S4; [exact S4|] end].
    + intros p'. cbv beta. unfold turned, classical_rk4. cbv zeta.
      generalize (lorentz 1 1 along_z 0 p'). intros k1. generalize (lorentz 1 1 along_z (0 + 1 / 2) (padd p' (pscal (1 / 2) k1))). intros k2.
      generalize (lorentz 1 1 along_z (0 + 1 / 2) (padd p' (pscal (1 / 2) k2))). intros k3.
      generalize (lorentz 1 1 along_z (0 + 1) (padd p' (pscal 1 k3))). intros k4.
      apply part_ext; comps; field.
    + fold c. repeat apply f_equal2; try reflexivity; apply part_ext; comps; cbn [x y xi px py pz]; field.
  - unfold det. cbn [map row determinant expand without x y xi px py pz]. field.
Qed.
