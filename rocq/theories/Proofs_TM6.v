(** Counterexamples. *)
From Coq Require Import QArith Qround Qreals Reals String List Arith Lqa Lra Lia.
From Verif Require Import Model_Push Model_Bunch Spec_Bunch Proofs_Bunch Model_Optics Spec_Optics
  Proofs_Optics Proofs_Optics3 Model_CSR Spec_CSR Proofs_CSR Model_TM Spec_TM Proofs_TM Proofs_TM2
  Proofs_TM3 Proofs_TM4 Proofs_TM5.
Import ListNotations.
Open Scope R_scope.

Lemma drift_piece id L go csr n g l x px y py t d : 1 < g ->
  piece (drift id L go csr n 1) g l [x; px; y; py; t; d] =
  [x + l * px; px; y + l * py; py; t - l / (rel_beta g ^ 2 * g ^ 2) * d; d].
Proof.
  intros Hg. unfold piece, track_col, drift, tm_element. cbn [e_length e_theta e_k1 e_k2 e_order Nat.eqb].
  rewrite first_nf. replace (- 0 / Q2R L) with 0 by (unfold Rdiv; ring).
  replace (0 + 0 * 0) with 0 by ring. rewrite Ropp_0, CX_0, SX_0. rewrite beta_of_eq, inv_gamma2_eq by exact Hg.
  assert (B : 0 < rel_beta g) by (apply b_ref_pos; exact Hg).
  unfold mat_vec, sum6. cbn [map nth].
  f_equal; [field; lra|]. f_equal; [field; lra|]. f_equal; [ring|]. f_equal; [ring|]. f_equal; [field; lra|].
  f_equal. ring.
Qed.

Definition one_bunch (k : nat) : bunch :=
  mkb k (k + 1)%nat (k + 2)%nat (k + 3)%nat (k + 4)%nat (k + 5)%nat (k + 6)%nat None 0 0 None 0 0 ""%string 1 1 None None.
Definition arrays (p : part) (w : R) : list (list R) := [[x p]; [y p]; [xi p]; [px p]; [py p]; [pz p]; [w]].

Lemma one_valid h1 p w h2 : valid (h1 ++ arrays p w ++ h2) (one_bunch (length h1)).
Proof.
  set (k := length h1). split; [|split].
  - unfold footprint, one_bunch. cbn. repeat constructor; cbn; intuition lia.
  - intros a Ha. unfold footprint, one_bunch in Ha. rewrite !app_length. fold k. cbn in *. intuition lia.
  - intros a Ha. unfold footprint, one_bunch in *. cbn [b_x b_y b_xi b_px b_py b_pz b_w In] in *.
    assert (X : forall i, (i < 7)%nat -> length (rd (h1 ++ arrays p w ++ h2) (k + i)%nat) = 1%nat).
    { intros i Hi. unfold k. rewrite rd_app_new. rewrite app_nth1 by (cbn; lia).
      do 7 (destruct i as [|i]; [reflexivity|]). lia. }
    replace (rd (h1 ++ arrays p w ++ h2) k) with (rd (h1 ++ arrays p w ++ h2) (k + 0)%nat) by (f_equal; lia).
    rewrite (X 0%nat) by lia.
    destruct Ha as [<-|[<-|[<-|[<-|[<-|[<-|[<-|[]]]]]]]]; try (apply X; lia).
    replace k with (k + 0)%nat at 1 by lia. apply X. lia.
Qed.
Lemma one_particles h1 p w h2 :
  particles (h1 ++ arrays p w ++ h2) (one_bunch (length h1)) = [p] /\
  rd (h1 ++ arrays p w ++ h2) (b_w (one_bunch (length h1))) = [w].
Proof.
  assert (X : forall i, (i < 7)%nat -> rd (h1 ++ arrays p w ++ h2) (length h1 + i)%nat = nth i (arrays p w) []).
  { intros i Hi. rewrite rd_app_new. rewrite app_nth1 by (cbn; lia). reflexivity. }
  split; [|apply (X 6%nat); lia].
  apply particles_arrays; cbn [b_x b_y b_xi b_px b_py b_pz one_bunch];
    try (apply X; lia).
  pose proof (X 0%nat ltac:(lia)) as X0. rewrite Nat.add_0_r in X0. exact X0.
Qed.

Definition slow : part := mkp 0 0 0 0 0 (sqrt 3).
Definition fast : part := mkp 0 0 0 0 0 (sqrt 15).
Lemma energies :
  sqrt (1 + px slow ^ 2 + py slow ^ 2 + pz slow ^ 2) = 2 /\
  sqrt (1 + px fast ^ 2 + py fast ^ 2 + pz fast ^ 2) = 4.
Proof.
  cbn [px py pz slow fast]. split.
  - rewrite pow2_sqrt by lra. replace (1 + 0 ^ 2 + 0 ^ 2 + 3) with (2 ^ 2) by ring. apply sqrt_pow2. lra.
  - rewrite pow2_sqrt by lra. replace (1 + 0 ^ 2 + 0 ^ 2 + 15) with (4 ^ 2) by ring. apply sqrt_pow2. lra.
Qed.

Lemma reuse_refuted : exists h b1 b2 e tr1 tr2 tr3,
  valid h b1 /\ valid h b2 /\ (forall a, In a (footprint b1) -> ~ In a (footprint b2)) /\
  e_csr_on e = false /\
  track noround h 0 csr0 e b1 false false = Some tr1 /\
  track noround (tr_heap tr1) 0 (tr_csr tr1) e b2 false false = Some tr2 /\
  track noround (tr_heap tr1) 0 (tr_csr tr1) (tr_elem tr1) b2 false false = Some tr3 /\
  map xi (particles (tr_heap tr2) (tr_bunch tr2)) <> map xi (particles (tr_heap tr3) (tr_bunch tr3)).
Proof.
  set (h := arrays slow 1 ++ arrays fast 1).
  set (b1 := one_bunch 0). set (b2 := one_bunch 7). set (e := drift 0 1 None false None 1).
  pose proof (one_valid [] slow 1 (arrays fast 1)) as V1. cbn [app length] in V1. fold h b1 in V1.
  pose proof (one_particles [] slow 1 (arrays fast 1)) as [P1 W1]. cbn [app length] in P1, W1. fold h b1 in P1, W1.
  pose proof (one_valid (arrays slow 1) fast 1 []) as V2. rewrite app_nil_r in V2. fold h in V2.
  change (one_bunch (length (arrays slow 1))) with b2 in V2.
  pose proof (one_particles (arrays slow 1) fast 1 []) as [P2 W2]. rewrite app_nil_r in P2, W2. fold h in P2, W2.
  change (one_bunch (length (arrays slow 1))) with b2 in P2, W2.
  assert (A : forall hh bb, rd hh (b_w bb) = [1] -> ~ (e_length e == 0)%Q /\ e_n_out e <> Some 0%nat /\
    (e_gamma_ref e = None -> sum (rd hh (b_w bb)) <> 0)).
  { intros hh bb Hw. split; [discriminate|]. split; [discriminate|]. intros _. rewrite Hw. cbn. lra. }
  destruct (proj2 (track_off noround h 0 csr0 e b1 false false eq_refl) (A h b1 W1)) as [tr1 T1].
  assert (HL : (0 < e_length e)%Q) by reflexivity.
  destruct energies as [G1 G2].
  destruct (track_spec noround h 0 csr0 e b1 false false tr1 V1 T1) as
    (ls & nt & outs & st & ini & ks & _ & _ & _ & EE & _ & _ & _ & _ & _ & _ & _ & _ & G & _).
  set (h' := tr_heap tr1) in *.
  assert (RD : forall a, In a (footprint b2) -> rd h a = rd h' a).
  { intros a Ha. symmetry. apply grows_rd; [exact G|]. destruct V2 as (_ & V2 & _). apply V2, Ha. }
  assert (V2' : valid h' b2).
  { destruct V2 as (Va & Vb & Vc). split; [exact Va|]. split.
    - intros a Ha. pose proof (grows_length _ _ G). apply Vb in Ha. lia.
    - intros a Ha. rewrite <- !RD; [apply Vc, Ha|left; reflexivity|exact Ha]. }
  assert (P2' : particles h' b2 = [fast]) by (rewrite <- P2; symmetry; apply particles_ext, RD).
  assert (W2' : rd h' (b_w b2) = [1]) by (rewrite <- W2; symmetry; apply RD; unfold footprint; cbn; auto 10).
  assert (R1 : reference_energy h b1 e = 2).
  { unfold reference_energy, e, drift, tm_element. cbn [e_gamma_ref]. rewrite P1, W1. cbn [map map2 sum fold_right].
    rewrite G1. field. }
  assert (R2 : reference_energy h' b2 e = 4).
  { unfold reference_energy, e, drift, tm_element. cbn [e_gamma_ref]. rewrite P2', W2'. cbn [map map2 sum fold_right].
    rewrite G2. field. }
  rewrite R1 in EE.
  destruct (proj2 (track_off noround h' 0 (tr_csr tr1) e b2 false false eq_refl) (A h' b2 W2')) as [tr2 T2].
  assert (A3 : ~ (e_length (tr_elem tr1) == 0)%Q /\ e_n_out (tr_elem tr1) <> Some 0%nat /\
    (e_gamma_ref (tr_elem tr1) = None -> sum (rd h' (b_w b2)) <> 0)).
  { rewrite EE. split; [discriminate|]. split; discriminate. }
  assert (C3 : e_csr_on (tr_elem tr1) = false) by (rewrite EE; reflexivity).
  destruct (proj2 (track_off noround h' 0 (tr_csr tr1) (tr_elem tr1) b2 false false C3) A3) as [tr3 T3].
  exists h, b1, b2, e, tr1, tr2, tr3. split; [exact V1|]. split; [exact V2|]. split.
  { intros a Ha Hb. unfold footprint, b1, b2, one_bunch in *. cbn in *. intuition lia. }
  split; [reflexivity|]. split; [exact T1|]. split; [exact T2|]. split; [exact T3|].
  assert (L1 : Q2R (e_length e) = 1) by (unfold Q2R; cbn; field).
  destruct (none_spec noround h' 0 (tr_csr tr1) e b2 false tr2 V2' HL eq_refl T2) as (_ & _ & m2 & _ & (Q2 & _) & M2).
  rewrite (M2 eq_refl), P2', R2, L1 in Q2. rewrite Q2.
  assert (HL3 : (0 < e_length (tr_elem tr1))%Q) by (rewrite EE; reflexivity).
  assert (N3 : e_n_out (tr_elem tr1) = None) by (rewrite EE; reflexivity).
  destruct (none_spec noround h' 0 (tr_csr tr1) (tr_elem tr1) b2 false tr3 V2' HL3 N3 T3) as (_ & _ & m3 & _ & (Q3 & _) & M3).
  rewrite (M3 C3), P2' in Q3. rewrite EE in Q3. rewrite Q3.
  unfold reference_energy. cbn [e_gamma_ref set_gamma map].
  assert (EN : forall g, enter (x_ref b2) (theta_ref b2) g fast = [0; 0; 0; 0; 0; (4 - g) / (g * rel_beta g)]).
  { intros g. unfold enter. rewrite G2. cbn [x_ref theta_ref b2 one_bunch fast x y xi px py pz].
    rewrite cos_0, sin_0. f_equal; [ring|]. f_equal; [unfold Rdiv; ring|]. f_equal. f_equal; [unfold Rdiv; ring|].
    f_equal. ring. }
  rewrite !EN. fold (drift 0 1 None false None 1) in *. unfold e.
  change (set_gamma (drift 0 1 None false None 1) 2) with (drift 0 1 (Some 2) false None 1).
  rewrite !drift_piece by lra. unfold leave. cbn [xi nth e_theta drift tm_element].
  replace (Q2R (e_length (drift 0 1 (Some 2) false None 1))) with 1 by (unfold Q2R; cbn; field).
  intros F. injection F as F. revert F. unfold ref_theta. cbn [theta_ref b2 one_bunch].
  replace (0 + 0 * 1 / 1) with 0 by field. rewrite cos_0, sin_0.
  assert (B2 : 0 < rel_beta 2) by (apply b_ref_pos; lra). assert (B4 : 0 < rel_beta 4) by (apply b_ref_pos; lra).
  replace (4 - 4) with 0 by ring. replace (4 - 2) with 2 by ring. intros F.
  assert (P : 0 < 1 / (rel_beta 2 ^ 2 * 2 ^ 2) * (2 / (2 * rel_beta 2))).
  { apply Rmult_lt_0_compat; apply Rdiv_lt_0_compat; try lra; nra. }
  assert (Z : 1 * - (0 - 1 / (rel_beta 4 ^ 2 * 4 ^ 2) * (0 / (4 * rel_beta 4))) = 0) by (unfold Rdiv; ring).
  cbn [pow] in P, Z. lra.
Qed.

Definition slanted : part := mkp 0 0 0 1 0 (sqrt 2).
Lemma back_refuted : exists h b e tr1 tr2, valid h b /\ e_csr_on e = false /\
  track noround h 0 csr0 e b false false = Some tr1 /\
  track noround (tr_heap tr1) 0 csr0 e (tr_bunch tr1) true false = Some tr2 /\
  prop_distance (tr_bunch tr2) = prop_distance b /\
  map x (particles (tr_heap tr2) (tr_bunch tr2)) <> map x (particles h b).
Proof.
  set (h := arrays slanted 1). set (b := one_bunch 0). set (e := drift 0 1 (Some 2) false (Some 1%nat) 1).
  pose proof (one_valid [] slanted 1 []) as V. cbn [app length] in V. rewrite app_nil_r in V. fold h b in V.
  pose proof (one_particles [] slanted 1 []) as [P W]. cbn [app length] in P, W. rewrite app_nil_r in P, W. fold h b in P, W.
  assert (A : forall hh bb, ~ (e_length e == 0)%Q /\ e_n_out e <> Some 0%nat /\
    (e_gamma_ref e = None -> sum (rd hh (b_w bb)) <> 0)).
  { intros hh bb. split; [discriminate|]. split; discriminate. }
  destruct (proj2 (track_off noround h 0 csr0 e b false false eq_refl) (A h b)) as [tr1 T1].
  destruct (proj2 (track_off noround (tr_heap tr1) 0 csr0 e (tr_bunch tr1) true false eq_refl) (A _ _)) as [tr2 T2].
  exists h, b, e, tr1, tr2. split; [exact V|]. split; [reflexivity|]. split; [exact T1|]. split; [exact T2|].
  assert (HL : (0 < e_length e)%Q) by reflexivity.
  assert (L1 : Q2R (e_length e) = 1) by (unfold Q2R; cbn; field).
  assert (R1 : forall hh bb, reference_energy hh bb e = 2) by reflexivity.
  assert (H2 : 1 < reference_energy h b e) by (rewrite R1; lra).
  pose proof (end_spec h 0 csr0 e b false tr1 V HL eq_refl ltac:(discriminate) H2 (or_intror eq_refl) T1) as (C1 & C2 & C3 & C4 & _).
  rewrite R1, L1, P in C1. rewrite L1 in C2, C3, C4.
  destruct (track_spec noround h 0 csr0 e b false false tr1 V T1) as
    (ls & nt & outs & st & ini & ks & _ & _ & _ & _ & _ & _ & _ & _ & _ & _ & _ & _ & _ & _ & _ & _ & VA).
  assert (V1 : valid (tr_heap tr1) (tr_bunch tr1)) by (apply VA; apply in_or_app; right; left; reflexivity).
  clear ls nt outs st ini ks VA.
  destruct (back_spec (tr_heap tr1) 0 csr0 e (tr_bunch tr1) false tr2 1 V1 HL eq_refl eq_refl T2 0%nat ltac:(lia))
    as (xr & _ & X2 & (B1 & B2 & _)). cbv zeta in X2, B1, B2. rewrite R1 in B1.
  replace (INR (0 + 1) * (Q2R (e_length e) / INR 1)) with 1 in X2, B1, B2 by (rewrite L1; cbn [Nat.add INR]; field).
  destruct (track_spec noround (tr_heap tr1) 0 csr0 e (tr_bunch tr1) true false tr2 V1 T2) as
    (ls & nt & outs & st & ini & ks & D & _ & _ & _ & _ & _ & O & I & F & _ & _ & M & _).
  assert (LO : length (tr_out tr2) = 1%nat).
  { cbn in D. injection D as <- <- <-. rewrite O, I. cbn [app]. 
    destruct (F2_nth _ _ _ 0%nat b F) as [FL _]. rewrite <- FL. reflexivity. }
  destruct (tr_out tr2) as [|o1 [|o2 os]] eqn:EO; try discriminate. cbn [last] in M. cbv zeta in M.
  cbn [Nat.add nth] in B1, B2. destruct M as (M1 & M2 & _). split.
  { rewrite M2, B2, C2. ring. }
  rewrite M1, B1, C1, P, C3, C4. 
  specialize (X2 eq_refl). rewrite C3, C4 in X2.
  assert (ZT : ref_theta (theta_ref b) (e_theta e) 1 1 = 0) by (unfold ref_theta, b, e; cbn; field).
  assert (ZX : ref_x (x_ref b) (theta_ref b) (e_theta e) 1 1 = 0).
  { unfold ref_x. destruct (Req_EM_T (e_theta e) 0) as [_|N]; [|exfalso; apply N; reflexivity].
    cbn [x_ref theta_ref b one_bunch]. rewrite sin_0. ring. }
  rewrite ZX, ZT, L1 in X2. rewrite L1. rewrite ZX, ZT. 
  assert (ZT2 : ref_theta 0 (e_theta e) 1 (- (1)) = 0) by (unfold ref_theta, e; cbn; field).
  assert (ZX2 : xr = 0).
  { rewrite X2. unfold ref_x. destruct (Req_EM_T (e_theta e) 0) as [_|N]; [|exfalso; apply N; reflexivity].
    rewrite sin_0. ring. }
  rewrite ZX2, ZT2. cbn [map x slanted]. clear - h.
  set (v := piece e 2 1 (enter (x_ref b) (theta_ref b) 2 slanted)).
  assert (S3 : 0 < sqrt (2 ^ 2 - 1)) by (apply sqrt_lt_R0; lra).
  assert (EV : enter (x_ref b) (theta_ref b) 2 slanted = [0; / sqrt (2 ^ 2 - 1); 0; 0; 0; 0]).
  { unfold enter. cbn [x_ref theta_ref b one_bunch slanted x y xi px py pz]. rewrite cos_0, sin_0.
    rewrite pow2_sqrt by lra. replace (1 + 1 ^ 2 + 0 ^ 2 + 2) with (2 ^ 2) by ring. rewrite (sqrt_pow2 2) by lra.
    f_equal; [ring|]. f_equal; [field; lra|]. f_equal. f_equal; [unfold Rdiv; ring|]. f_equal; [ring|].
    f_equal. unfold Rdiv. ring. }
  assert (Ev : v = [/ sqrt (2 ^ 2 - 1); / sqrt (2 ^ 2 - 1); 0; 0; 0; 0]).
  { unfold v. rewrite EV. unfold e. rewrite drift_piece by lra.
    f_equal; [ring|]. f_equal. f_equal; [ring|]. f_equal. f_equal. ring. }
  rewrite enter_leave; [|lra|rewrite Ev; reflexivity|rewrite Ev; cbn [nth]; lra|].
  - rewrite Ev. replace (1 / INR 1) with 1 by (cbn [INR]; field). cbn [iter]. unfold e. rewrite drift_piece by lra.
    unfold leave. cbn [x nth]. rewrite cos_0, sin_0. intros F. apply (f_equal (hd 0)) in F. cbn [hd map] in F.
    assert (0 < / sqrt (2 ^ 2 - 1)) by (apply Rinv_0_lt_compat; exact S3). lra.
  - rewrite Ev. cbn [nth]. replace (/ sqrt (2 ^ 2 - 1) * sqrt (2 ^ 2 - 1)) with 1 by (field; lra). lra.
Qed.

(** ** Two elements in a row *)
Lemma end_gen h n0 c e b tr : valid h b -> (0 < e_length e)%Q -> e_csr_on e = false ->
  e_order e <> 2%nat -> 1 < reference_energy h b e ->
  track noround h n0 c e b false false = Some tr ->
  valid (tr_heap tr) (tr_bunch tr).
Proof.
  intros V _ _ _ _ T.
  destruct (track_spec noround h n0 c e b false false tr V T) as
    (ls & nt & outs & st & ini & ks & _ & _ & _ & _ & _ & _ & _ & _ & _ & _ & _ & _ & _ & _ & _ & _ & VA).
  apply VA. apply in_or_app. right. left. reflexivity.
Qed.

Lemma split_spec h n0 n1 n2 c c1 c2 e1 e2 e b g tr1 tr2 tr :
  valid h b -> (0 < e_length e1)%Q -> (0 < e_length e2)%Q ->
  (e_length e == e_length e1 + e_length e2)%Q ->
  e_csr_on e1 = false -> e_csr_on e2 = false -> e_csr_on e = false ->
  e_order e1 = e_order e -> e_order e2 = e_order e -> e_order e <> 2%nat ->
  e_k1 e1 = e_k1 e -> e_k1 e2 = e_k1 e ->
  e_theta e1 / Q2R (e_length e1) = e_theta e / Q2R (e_length e) ->
  e_theta e2 / Q2R (e_length e2) = e_theta e / Q2R (e_length e) ->
  1 < g -> e_gamma_ref e1 = Some g -> e_gamma_ref e2 = Some g -> e_gamma_ref e = Some g ->
  track noround h n0 c e1 b false false = Some tr1 ->
  track noround (tr_heap tr1) n1 c1 e2 (tr_bunch tr1) false false = Some tr2 ->
  track noround h n2 c2 e b false false = Some tr ->
  (forall p, In p (particles h b) ->
     physical g (piece e1 g (Q2R (e_length e1)) (enter (x_ref b) (theta_ref b) g p))) ->
  particles (tr_heap tr2) (tr_bunch tr2) = particles (tr_heap tr) (tr_bunch tr) /\
  prop_distance (tr_bunch tr2) = prop_distance (tr_bunch tr) /\
  x_ref (tr_bunch tr2) = x_ref (tr_bunch tr) /\ theta_ref (tr_bunch tr2) = theta_ref (tr_bunch tr).
Proof.
  intros V H1 H2 HL C1 C2 C O1 O2 O K1 K2 T1 T2 Hg G1 G2 G R1 R2 R0 PH.
  assert (P0 : (0 < e_length e)%Q) by (rewrite HL; Lqa.lra).
  assert (RE : forall hh bb ee, e_gamma_ref ee = Some g -> reference_energy hh bb ee = g).
  { intros hh bb ee E. unfold reference_energy. rewrite E. reflexivity. }
  pose proof (RE h b e1 G1) as E1. pose proof (RE (tr_heap tr1) (tr_bunch tr1) e2 G2) as E2. pose proof (RE h b e G) as E0.
  assert (N1 : e_order e1 <> 2%nat) by congruence. assert (N2 : e_order e2 <> 2%nat) by congruence.
  pose proof (end_gen h n0 c e1 b tr1 V H1 C1 N1 ltac:(rewrite E1; exact Hg) R1) as V1.
  pose proof (end_spec h n0 c e1 b false tr1 V H1 C1 N1 ltac:(rewrite E1; exact Hg) (or_intror eq_refl) R1) as A1.
  pose proof (end_spec _ n1 c1 e2 _ false tr2 V1 H2 C2 N2 ltac:(rewrite E2; exact Hg) (or_intror eq_refl) R2) as A2.
  pose proof (end_spec h n2 c2 e b false tr V P0 C O ltac:(rewrite E0; exact Hg) (or_intror eq_refl) R0) as A0.
  cbv zeta in A1, A2, A0. rewrite E1 in A1. rewrite E2 in A2. rewrite E0 in A0.
  set (L1 := Q2R (e_length e1)) in *. set (L2 := Q2R (e_length e2)) in *. set (L := Q2R (e_length e)) in *.
  assert (P1 : 0 < L1) by (apply Q2R_pos; exact H1). assert (P2 : 0 < L2) by (apply Q2R_pos; exact H2).
  assert (EL : L = L1 + L2) by (unfold L, L1, L2; rewrite <- Q2R_plus; apply Qeq_eqR; exact HL).
  destruct A1 as (Q1 & D1 & X1 & Th1 & _). destruct A2 as (Q2 & D2 & X2 & Th2 & _). destruct A0 as (Q0 & D0 & X0 & Th0 & _).
  assert (NL : L <> 0) by lra. assert (NL1 : L1 <> 0) by lra. assert (NL2 : L2 <> 0) by lra.
  destruct (ref_scale (x_ref b) (theta_ref b) (e_theta e) L (e_theta e1) L1 L1 NL NL1 T1) as [S1 S2].
  rewrite S1 in Th1. rewrite S2 in X1. rewrite S1, S2 in Q1. 
  destruct (ref_scale (x_ref (tr_bunch tr1)) (theta_ref (tr_bunch tr1)) (e_theta e) L (e_theta e2) L2 L2 NL NL2 T2) as [S3 S4].
  rewrite S3 in Th2. rewrite S4 in X2. rewrite S3, S4 in Q2.
  rewrite X1, Th1 in X2, Q2. rewrite Th1 in Th2.
  destruct (ref_add (x_ref b) (theta_ref b) (e_theta e) L L1 L2 NL) as [S5 S6].
  rewrite S5 in Th2, Q2. rewrite S6 in X2, Q2. rewrite <- EL in Th2, X2, Q2.
  split; [|split; [rewrite D2, D1, D0, EL; ring|split; congruence]].
  rewrite Q2, Q0, Q1, !map_map. apply map_ext_in. intros p Hp. f_equal.
  specialize (PH p Hp). set (v := enter (x_ref b) (theta_ref b) g p) in *.
  assert (Hv : is_col v) by reflexivity.
  rewrite (enter_leave _ _ g (piece e1 g L1 v) Hg); [|apply piece_col; exact Hv|exact (proj1 PH)|exact (proj2 PH)].
  assert (T1' : - e_theta e1 / L1 = - e_theta e / L)
    by (unfold Rdiv in *; rewrite !Ropp_mult_distr_l_reverse, T1; reflexivity).
  assert (T2' : - e_theta e2 / L2 = - e_theta e / L)
    by (unfold Rdiv in *; rewrite !Ropp_mult_distr_l_reverse, T2; reflexivity).
  rewrite (piece_same e1 e g L1 v O1 N1 K1 T1'), (piece_same e2 e g L2 _ O2 N2 K2 T2').
  rewrite EL. apply piece_add; assumption.
Qed.
