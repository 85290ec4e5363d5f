(** Proofs about transfer maps. *)
From Coq Require Import Reals List Arith Lra Lia Psatz.
From Coquelicot Require Import Coquelicot.
From Verif Require Import Model_Push Model_Bunch Model_Optics Spec_Optics.
Import ListNotations.
Open Scope R_scope.

(** ** Generalised cosine and sine *)
Definition CX (k z : R) : R := cos_real (csqrt k) z.
Definition SX (k z : R) : R := sinc_real (csqrt k) z.

Lemma cosh0 : cosh 0 = 1. Proof. unfold cosh. rewrite Ropp_0, exp_0. lra. Qed.
Lemma sinh0 : sinh 0 = 0. Proof. unfold sinh. rewrite Ropp_0, exp_0. lra. Qed.

Lemma cnonzero_sqrt k : cnonzero (csqrt k) = rnonzero k.
Proof.
  unfold cnonzero, csqrt, rnonzero. destruct (Rle_dec 0 k) as [H|H]; cbn.
  - destruct (Req_EM_T k 0) as [E|E].
    + rewrite E, sqrt_0. destruct (Req_EM_T 0 0); [reflexivity|lra].
    + assert (0 < sqrt k) by (apply sqrt_lt_R0; lra).
      destruct (Req_EM_T (sqrt k) 0); [lra|reflexivity].
  - assert (0 < sqrt (- k)) by (apply sqrt_lt_R0; lra).
    destruct (Req_EM_T 0 0); [|lra]. destruct (Req_EM_T (sqrt (- k)) 0); [lra|].
    destruct (Req_EM_T k 0); [lra|reflexivity].
Qed.
Lemma rnz_true k : k <> 0 -> rnonzero k = true.
Proof. unfold rnonzero. destruct (Req_EM_T k 0); congruence. Qed.
Lemma rnz_false : rnonzero 0 = false.
Proof. unfold rnonzero. destruct (Req_EM_T 0 0); congruence. Qed.

Lemma CX_pos k z : 0 < k -> CX k z = cos (z * sqrt k).
Proof.
  intros H. unfold CX, cos_real, csqrt. destruct (Rle_dec 0 k); [|lra].
  unfold ccos, Cmult, RtoC. cbn. replace (z * sqrt k - 0 * 0) with (z * sqrt k) by ring.
  replace (z * 0 + 0 * sqrt k) with 0 by ring. rewrite cosh0. ring.
Qed.
Lemma CX_neg k z : k < 0 -> CX k z = cosh (z * sqrt (- k)).
Proof.
  intros H. unfold CX, cos_real, csqrt. destruct (Rle_dec 0 k); [lra|].
  unfold ccos, Cmult, RtoC. cbn. replace (z * 0 - 0 * sqrt (- k)) with 0 by ring.
  replace (z * sqrt (- k) + 0 * 0) with (z * sqrt (- k)) by ring. rewrite cos_0. ring.
Qed.
Lemma CX_0 z : CX 0 z = 1.
Proof.
  unfold CX, cos_real, csqrt. destruct (Rle_dec 0 0); [|lra]. rewrite sqrt_0.
  unfold ccos, Cmult, RtoC. cbn. replace (z * 0 - 0 * 0) with 0 by ring.
  replace (z * 0 + 0 * 0) with 0 by ring. rewrite cos_0, cosh0. ring.
Qed.
Lemma SX_pos k z : 0 < k -> SX k z = sin (z * sqrt k) / sqrt k.
Proof.
  intros H. unfold SX, sinc_real. rewrite cnonzero_sqrt, rnz_true by lra.
  assert (P : 0 < sqrt k) by (apply sqrt_lt_R0; lra).
  unfold csqrt. destruct (Rle_dec 0 k); [|lra].
  unfold csin, Cdiv, Cmult, Cinv, RtoC. cbn -[sqrt].
  replace (sqrt k * z - 0 * 0) with (z * sqrt k) by ring.
  replace (sqrt k * 0 + 0 * z) with 0 by ring. rewrite cosh0, sinh0. field. lra.
Qed.
Lemma SX_neg k z : k < 0 -> SX k z = sinh (z * sqrt (- k)) / sqrt (- k).
Proof.
  intros H. unfold SX, sinc_real. rewrite cnonzero_sqrt, rnz_true by lra.
  assert (P : 0 < sqrt (- k)) by (apply sqrt_lt_R0; lra).
  unfold csqrt. destruct (Rle_dec 0 k); [lra|].
  unfold csin, Cdiv, Cmult, Cinv, RtoC. cbn -[sqrt].
  replace (0 * z - sqrt (- k) * 0) with 0 by ring.
  replace (0 * 0 + sqrt (- k) * z) with (z * sqrt (- k)) by ring. rewrite cos_0, sin_0.
  field. lra.
Qed.
Lemma SX_0 z : SX 0 z = z.
Proof. unfold SX, sinc_real. rewrite cnonzero_sqrt, rnz_false. reflexivity. Qed.

Lemma is_derive_cosh x : is_derive cosh x (sinh x).
Proof.
  apply is_derive_Reals. replace (sinh x) with (derive_pt cosh x (derivable_pt_cosh x)).
  apply derive_pt_eq_1 with (derivable_pt_cosh x). reflexivity. apply derive_pt_cosh.
Qed.
Lemma is_derive_sinh x : is_derive sinh x (cosh x).
Proof.
  apply is_derive_Reals. replace (cosh x) with (derive_pt sinh x (derivable_pt_sinh x)).
  apply derive_pt_eq_1 with (derivable_pt_sinh x). reflexivity. apply derive_pt_sinh.
Qed.

Lemma CX_z0 k : CX k 0 = 1.
Proof.
  destruct (Rtotal_order k 0) as [H|[H|H]].
  - rewrite CX_neg, Rmult_0_l by lra. apply cosh0.
  - rewrite H. apply CX_0.
  - rewrite CX_pos, Rmult_0_l by lra. apply cos_0.
Qed.
Lemma SX_z0 k : SX k 0 = 0.
Proof.
  destruct (Rtotal_order k 0) as [H|[H|H]].
  - rewrite SX_neg, Rmult_0_l, sinh0 by lra. unfold Rdiv; ring.
  - rewrite H. apply SX_0.
  - rewrite SX_pos, Rmult_0_l, sin_0 by lra. unfold Rdiv; ring.
Qed.

Lemma is_derive_CX k z : is_derive (CX k) z (- k * SX k z).
Proof.
  destruct (Rtotal_order k 0) as [H|[H|H]].
  - apply is_derive_ext with (fun z => cosh (z * sqrt (- k))).
    { intros t; symmetry; apply CX_neg; lra. }
    rewrite SX_neg by lra.
    assert (P : 0 < sqrt (- k)) by (apply sqrt_lt_R0; lra).
    replace (- k * (sinh (z * sqrt (- k)) / sqrt (- k)))
      with (sqrt (- k) * sinh (z * sqrt (- k)))
      by (rewrite <- (sqrt_sqrt (- k)) at 3 by lra; field; lra).
    apply (is_derive_comp cosh (fun z => z * sqrt (- k)) z (sinh (z * sqrt (- k))) (sqrt (- k))).
    apply is_derive_cosh. auto_derive; [exact I|ring].
  - subst. apply is_derive_ext with (fun _ => 1).
    { intros t; symmetry; apply CX_0. }
    replace (-0 * SX 0 z) with 0 by ring. apply @is_derive_const.
  - apply is_derive_ext with (fun z => cos (z * sqrt k)).
    { intros t; symmetry; apply CX_pos; lra. }
    rewrite SX_pos by lra.
    assert (P : 0 < sqrt k) by (apply sqrt_lt_R0; lra).
    auto_derive; [exact I|]. rewrite <- (sqrt_sqrt k) at 3 by lra. field. lra.
Qed.
Lemma is_derive_SX k z : is_derive (SX k) z (CX k z).
Proof.
  destruct (Rtotal_order k 0) as [H|[H|H]].
  - apply is_derive_ext with (fun z => sinh (z * sqrt (- k)) / sqrt (- k)).
    { intros t; symmetry; apply SX_neg; lra. }
    rewrite CX_neg by lra.
    assert (P : 0 < sqrt (- k)) by (apply sqrt_lt_R0; lra).
    replace (cosh (z * sqrt (- k))) with (/ sqrt (- k) * (sqrt (- k) * cosh (z * sqrt (- k))))
      by (field; lra).
    apply is_derive_ext with (fun z => / sqrt (- k) * sinh (z * sqrt (- k))).
    { intros t. apply Rmult_comm. }
    apply @is_derive_scal.
    apply (is_derive_comp sinh (fun z => z * sqrt (- k)) z (cosh (z * sqrt (- k))) (sqrt (- k))).
    apply is_derive_sinh. auto_derive; [exact I|ring].
  - subst. rewrite CX_0. apply is_derive_ext with (fun t => t).
    { intros t; symmetry; apply SX_0. }
    apply @is_derive_id.
  - apply is_derive_ext with (fun z => sin (z * sqrt k) / sqrt k).
    { intros t; symmetry; apply SX_pos; lra. }
    rewrite CX_pos by lra.
    assert (P : 0 < sqrt k) by (apply sqrt_lt_R0; lra).
    auto_derive; [exact I|]. field. lra.
Qed.

(** A function with zero derivative is constant. *)
Lemma const_of_derive (f : R -> R) : (forall z, is_derive f z 0) -> forall z, f z = f 0.
Proof.
  intros H z.
  destruct (MVT_gen f 0 z (fun _ => 0)) as [c [_ E]].
  - intros; apply H.
  - intros x _. apply continuity_pt_filterlim. apply (ex_derive_continuous f x).
    exists 0. apply H.
  - lra.
Qed.

Ltac der :=
  repeat match goal with
  | H : is_derive ?f ?t ?l |- context [Derive (fun x => ?f x) ?t] =>
      replace (Derive (fun x => f x) t) with l by (symmetry; exact (is_derive_unique f t l H))
  end.

Lemma CX_SX k z : CX k z ^ 2 + k * SX k z ^ 2 = 1.
Proof.
  assert (D : forall t, is_derive (fun z => CX k z ^ 2 + k * SX k z ^ 2) t 0).
  { intros t. pose proof (is_derive_CX k t) as A. pose proof (is_derive_SX k t) as B.
    auto_derive.
    - repeat split; eexists; eassumption.
    - der. ring. }
  rewrite (const_of_derive _ D). rewrite CX_z0, SX_z0. ring.
Qed.

Lemma CX_SX_add k a z :
  CX k (a + z) = CX k a * CX k z - k * SX k a * SX k z /\
  SX k (a + z) = SX k a * CX k z + CX k a * SX k z.
Proof.
  (* E = R(-z) (R(a+z) - R(z) R(a)) has derivative zero *)
  set (u := fun z => CX k (a + z) - (CX k a * CX k z - k * SX k a * SX k z)).
  set (v := fun z => SX k (a + z) - (SX k a * CX k z + CX k a * SX k z)).
  assert (Du : forall t, is_derive u t (- k * v t)).
  { intros t. unfold u, v. pose proof (is_derive_CX k (a + t)) as A.
    pose proof (is_derive_CX k t) as B. pose proof (is_derive_SX k t) as Cc.
    auto_derive.
    - repeat split; eexists; eassumption.
    - der. ring. }
  assert (Dv : forall t, is_derive v t (u t)).
  { intros t. unfold u, v. pose proof (is_derive_SX k (a + t)) as A.
    pose proof (is_derive_CX k t) as B. pose proof (is_derive_SX k t) as Cc.
    auto_derive.
    - repeat split; eexists; eassumption.
    - der. ring. }
  assert (E1 : forall t, CX k t * u t + k * SX k t * v t = 0).
  { intros t. assert (D : forall t, is_derive (fun t => CX k t * u t + k * SX k t * v t) t 0).
    { intros s. pose proof (is_derive_CX k s) as A. pose proof (is_derive_SX k s) as B.
      pose proof (Du s) as P. pose proof (Dv s) as Q.
      auto_derive. repeat split; eexists; eassumption.
      der. ring. }
    rewrite (const_of_derive _ D). unfold u, v. rewrite Rplus_0_r, CX_z0, SX_z0. ring. }
  assert (E2 : forall t, CX k t * v t - SX k t * u t = 0).
  { intros t. assert (D : forall t, is_derive (fun t => CX k t * v t - SX k t * u t) t 0).
    { intros s. pose proof (is_derive_CX k s) as A. pose proof (is_derive_SX k s) as B.
      pose proof (Du s) as P. pose proof (Dv s) as Q.
      auto_derive. repeat split; eexists; eassumption.
      der. ring. }
    rewrite (const_of_derive _ D). unfold u, v. rewrite Rplus_0_r, CX_z0, SX_z0. ring. }
  specialize (E1 z). specialize (E2 z). pose proof (CX_SX k z) as S.
  assert (U : u z = 0).
  { replace (u z) with (u z * (CX k z ^ 2 + k * SX k z ^ 2)) by (rewrite S; ring).
    replace (u z * (CX k z ^ 2 + k * SX k z ^ 2)) with
      (CX k z * (CX k z * u z + k * SX k z * v z)
       - k * SX k z * (CX k z * v z - SX k z * u z)) by ring.
    rewrite E1, E2. ring. }
  assert (V : v z = 0).
  { replace (v z) with (v z * (CX k z ^ 2 + k * SX k z ^ 2)) by (rewrite S; ring).
    replace (v z * (CX k z ^ 2 + k * SX k z ^ 2)) with
      (SX k z * (CX k z * u z + k * SX k z * v z)
       + CX k z * (CX k z * v z - SX k z * u z)) by ring.
    rewrite E1, E2. ring. }
  unfold u, v in *. split; lra.
Qed.

(** ** Integrals of the sine-like function *)
Definition DX (k z : R) : R := if rnonzero k then (1 - CX k z) / k else z * z / 2.
Definition J1 (k z : R) : R := if rnonzero k then (z - SX k z) / k else z * z * z / 6.
Definition J2 (k z : R) : R :=
  if rnonzero k then (3 * z - 4 * SX k z + SX k z * CX k z) / (2 * (k * k)) else z ^ 5 / 20.

Lemma rnz k : {k <> 0 /\ rnonzero k = true} + {k = 0 /\ rnonzero k = false}.
Proof.
  unfold rnonzero. destruct (Req_EM_T k 0); [right|left]; split; auto.
Qed.

Ltac cases k := destruct (rnz k) as [[?N ->]|[?N ->]].

Lemma CX_DX k z : CX k z = 1 - k * DX k z.
Proof.
  unfold DX. cases k. field; assumption. subst k. rewrite CX_0. ring.
Qed.
Lemma z_J1 k z : z = SX k z + k * J1 k z.
Proof.
  unfold J1. cases k. field; assumption. subst k. rewrite SX_0. ring.
Qed.
Lemma SX2 k z : SX k z * SX k z = 2 * DX k z - k * (DX k z * DX k z).
Proof.
  pose proof (CX_SX k z) as H. unfold DX. cases k.
  - apply Rmult_eq_reg_l with k; [|assumption].
    replace (k * (2 * ((1 - CX k z) / k) - k * ((1 - CX k z) / k * ((1 - CX k z) / k))))
      with (1 - CX k z ^ 2) by (field; assumption). rewrite <- H. ring.
  - subst k. rewrite SX_0. field.
Qed.
Lemma J2_rel k z : 3 * J1 k z = 2 * k * J2 k z + SX k z * DX k z.
Proof.
  unfold J1, J2, DX. cases k. field; assumption. subst k. rewrite SX_0. field.
Qed.
Lemma DX_0 k : DX k 0 = 0.
Proof. unfold DX. cases k. rewrite CX_z0. field; assumption. field. Qed.
Lemma J1_0 k : J1 k 0 = 0.
Proof. unfold J1. cases k. rewrite SX_z0. field; assumption. field. Qed.
Lemma J2_0 k : J2 k 0 = 0.
Proof. unfold J2. cases k. rewrite SX_z0. field; assumption. field. Qed.

Ltac exd := repeat split; first [exact I | eexists; eassumption].

Lemma is_derive_DX k z : is_derive (DX k) z (SX k z).
Proof.
  pose proof (is_derive_CX k z) as A. unfold DX. cases k.
  - auto_derive; [exd|]. der. field; assumption.
  - subst k. rewrite SX_0. auto_derive; [exd|]. field.
Qed.
Lemma is_derive_J1 k z : is_derive (J1 k) z (DX k z).
Proof.
  pose proof (is_derive_SX k z) as A. unfold J1, DX. cases k.
  - auto_derive; [exd|]. der. field; assumption.
  - auto_derive; [exd|]. field.
Qed.
Lemma is_derive_J2 k z : is_derive (J2 k) z (DX k z * DX k z).
Proof.
  pose proof (is_derive_SX k z) as A. pose proof (is_derive_CX k z) as B.
  unfold J2. cases k.
  - auto_derive; [exd|]. der. pose proof (CX_DX k z) as E. pose proof (SX2 k z) as F.
    set (s := SX k z) in *. set (d := DX k z) in *. set (c := CX k z) in *.
    replace (1 * c * c + s * (1 * (- k * s))) with (c * c - k * (s * s)) by ring.
    rewrite F, E. field. assumption.
  - auto_derive; [exd|]. subst. unfold DX. rewrite rnz_false. field.
Qed.

(** ** First order *)
Lemma first_nf z L th k1 g :
  let h := th / L in let k := k1 + h * h in
  let b := beta_of g in
  first_order_matrix z L th k1 g =
  [[CX k z; SX k z; 0; 0; 0; h * DX k z / b];
   [- k * SX k z; CX k z; 0; 0; 0; SX k z * h / b];
   [0; 0; CX (- k1) z; SX (- k1) z; 0; 0];
   [0; 0; - - k1 * SX (- k1) z; CX (- k1) z; 0; 0];
   [h * SX k z / b; h * DX k z / b; 0; 0; 1;
    h * h * J1 k z / b ^ 2 - z / (b * b) * inv_gamma2 g];
   [0; 0; 0; 0; 0; 1]].
Proof.
  intros h k b. unfold first_order_matrix. fold h. fold k. fold b.
  rewrite cnonzero_sqrt. fold (CX k z) (SX k z) (CX (- k1) z) (SX (- k1) z).
  assert (E : (if rnonzero k then h / k * (1 - CX k z) else z * z * h / 2) = h * DX k z).
  { unfold DX. cases k. field; assumption. field. }
  assert (F : (if rnonzero k then h * h * (z - SX k z) / k / b ^ 2
    else h * h * z ^ 3 / 6 / b ^ 2) = h * h * J1 k z / b ^ 2).
  { unfold J1, Rdiv. cases k; ring. }
  rewrite E, F. reflexivity.
Qed.

Lemma col6 v : is_col v -> exists a b c d e f, v = [a; b; c; d; e; f].
Proof.
  unfold is_col. intros H.
  destruct v as [|a [|b [|c [|d [|e [|f [|]]]]]]]; try discriminate. repeat eexists.
Qed.

Ltac leq := repeat match goal with
  | |- _ :: _ = _ :: _ => apply f_equal2
  | |- [] = [] => reflexivity
  end.

Lemma nth_S_cons {A} (x : A) l i d : nth (S i) (x :: l) d = nth i l d.
Proof. reflexivity. Qed.

Lemma first_identity L th k1 g :
  first_order_matrix 0 L th k1 g = identity6.
Proof.
  rewrite first_nf. rewrite !CX_z0, !SX_z0, DX_0, J1_0. unfold identity6, Rdiv.
  repeat f_equal; ring.
Qed.

Lemma first_ode L th k1 g z v i :
  beta_of g <> 0 -> (i < 6)%nat ->
  is_derive (fun z => nth i (mat_vec (first_order_matrix z L th k1 g) v) 0) z
    (nth i (lin (th / L) k1 (beta_of g) (inv_gamma2 g)
       (mat_vec (first_order_matrix z L th k1 g) v)) 0).
Proof.
  intros Hb Hi. set (h := th / L).
  eapply is_derive_ext; [intros t; rewrite first_nf; reflexivity|].
  rewrite first_nf. fold h. set (k := k1 + h * h). set (b := beta_of g) in *.
  set (ig := inv_gamma2 g).
  pose proof (is_derive_CX k z) as A1. pose proof (is_derive_SX k z) as A2.
  pose proof (is_derive_DX k z) as A3. pose proof (is_derive_J1 k z) as A4.
  pose proof (is_derive_CX (- k1) z) as A5. pose proof (is_derive_SX (- k1) z) as A6.
  pose proof (CX_DX k z) as E.
  assert (Hk : k1 + h ^ 2 = k) by (unfold k; ring).
  unfold lin, mat_vec, sum6. cbn [map nth]. rewrite Hk. clearbody k b ig.
  destruct i as [|[|[|[|[|[|i]]]]]]; [| | | | | |lia]; cbn [nth];
    (auto_derive; [exd|]); der; rewrite ?E; field; assumption.
Qed.

Lemma first_compose L th k1 g z1 z2 v :
  beta_of g <> 0 -> is_col v ->
  mat_vec (first_order_matrix (z1 + z2) L th k1 g) v =
  mat_vec (first_order_matrix z2 L th k1 g) (mat_vec (first_order_matrix z1 L th k1 g) v).
Proof.
  intros Hb Hv. apply col6 in Hv as (x & px & y & py & ta & d & ->).
  rewrite !first_nf. set (h := th / L). set (k := k1 + h * h). set (b := beta_of g) in *.
  destruct (CX_SX_add k z1 z2) as [C1 S1]. destruct (CX_SX_add (- k1) z1 z2) as [C2 S2].
  assert (D : DX k (z1 + z2) = DX k z1 + SX k z1 * SX k z2 + CX k z1 * DX k z2).
  { pose proof (CX_DX k (z1 + z2)) as P. pose proof (CX_DX k z1) as Q.
    pose proof (CX_DX k z2) as T.
    unfold DX. cases k.
    - rewrite C1. field. assumption.
    - rewrite N, !SX_0, CX_0. field. }
  assert (J : J1 k (z1 + z2) = J1 k z1 + J1 k z2 + SX k z1 * DX k z2 + DX k z1 * SX k z2).
  { unfold J1, DX. cases k.
    - rewrite S1. field. assumption.
    - rewrite N, !SX_0. field. }
  unfold mat_vec, sum6. cbn [map nth]. rewrite C1, S1, C2, S2, D, J.
  pose proof (CX_DX k z1) as Q1. pose proof (CX_DX k z2) as Q2.
  clearbody k b. leq; rewrite ?Q1, ?Q2; field; assumption.
Qed.

Lemma first_det L th k1 g z :
  let m := first_order_matrix z L th k1 g in
  entry m 0 0 * entry m 1 1 - entry m 0 1 * entry m 1 0 = 1 /\
  entry m 2 2 * entry m 3 3 - entry m 2 3 * entry m 3 2 = 1.
Proof.
  cbv zeta. rewrite first_nf. unfold entry. cbn [nth].
  pose proof (CX_SX (k1 + th / L * (th / L)) z) as A. pose proof (CX_SX (- k1) z) as B.
  split; [rewrite <- A|rewrite <- B]; ring.
Qed.

Lemma first_symplectic L th k1 g z u v :
  beta_of g <> 0 -> is_col u -> is_col v ->
  omega (mat_vec (first_order_matrix z L th k1 g) u)
        (mat_vec (first_order_matrix z L th k1 g) v) = omega u v.
Proof.
  intros Hb Hu Hv. apply col6 in Hu as (x & px & y & py & ta & d & ->).
  apply col6 in Hv as (x' & px' & y' & py' & ta' & d' & ->).
  rewrite !first_nf. set (h := th / L). set (k := k1 + h * h). set (b := beta_of g) in *.
  pose proof (CX_DX k z) as A. pose proof (SX2 k z) as B. pose proof (CX_SX (- k1) z) as Cc.
  unfold omega, mat_vec, sum6. cbn [map nth]. rewrite A.
  set (s := SX k z) in *. set (D := DX k z) in *. set (sy := SX (- k1) z) in *.
  set (cy := CX (- k1) z) in *. clearbody s D sy cy k b.
  assert (B' : s ^ 2 = 2 * D - k * D ^ 2) by (rewrite <- Rsqr_pow2; unfold Rsqr; lra).
  assert (Cc' : cy ^ 2 = 1 + k1 * sy ^ 2) by lra.
  field [B' Cc']. assumption.
Qed.
