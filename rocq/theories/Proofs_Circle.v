(** Proofs for C119. *)
From Coq Require Import Reals QArith Qreals String List Bool Arith ZArith Lia Lqa Lra.
From Verif Require Proofs_Run.
From Verif Require Import Model_Push Spec_Push Proofs_Push Model_Bunch Spec_Bunch Proofs_Bunch
  Model_Tracker Spec_Tracker Proofs_Tracker Properties_Tracker Model_Run Spec_Run Proofs_Run Spec_Split Proofs_Split Proofs_Split2
  Proofs_Conv5 Spec_Circle.
Import ListNotations.
Open Scope R_scope.

(** ** One push of one particle *)
Definition place (p : part) : vec := (x p, y p, xi p).
(** The linear function of the coordinates that a push in uniform fields advances at a constant rate. *)
Definition inv (k : R) (B : vec) (p : part) : vec := vsub (momentum p) (scal k (cross (place p) B)).
Definition rate (k : R) (E B : vec) : vec := scal k (vadd3 E (cross (0, 0, c_SI) B)).

Lemma vec_ext (a b : vec) : fst (fst a) = fst (fst b) -> snd (fst a) = snd (fst b) -> snd a = snd b -> a = b.
Proof. destruct a as [[a1 a2] a3], b as [[b1 b2] b3]. cbn. intros; subst; reflexivity. Qed.
Lemma inv_padd k B p q : inv k B (padd p q) = vadd3 (inv k B p) (inv k B q).
Proof. destruct B as [[b1 b2] b3]. apply vec_ext; cbn; ring. Qed.
Lemma inv_pscal k B h p : inv k B (pscal h p) = scal h (inv k B p).
Proof. destruct B as [[b1 b2] b3]. apply vec_ext; cbn; ring. Qed.
Lemma inv_lorentz q m G E B t p : uniform G E B -> inv (q / (m * c_SI)) B (lorentz q m G t p) = rate (q / (m * c_SI)) E B.
Proof.
  intros H. unfold lorentz. destruct (H (pos_of p) t) as [-> ->]. destruct (velocity p) as [[v1 v2] v3], E as [[e1 e2] e3], B as [[b1 b2] b3].
  apply vec_ext; cbn; ring.
Qed.
Lemma rk4_uniform q m G E B t h p : uniform G E B ->
  inv (q / (m * c_SI)) B (classical_rk4 (lorentz q m G) t h p) = vadd3 (inv (q / (m * c_SI)) B p) (scal h (rate (q / (m * c_SI)) E B)).
Proof.
  intros H. unfold classical_rk4. cbv zeta. rewrite !inv_padd, !inv_pscal, !inv_padd, !inv_pscal, !(inv_lorentz q m G E B _ _ H).
  destruct (inv _ B p) as [[u1 u2] u3], (rate _ E B) as [[w1 w2] w3]. apply vec_ext; cbn; field.
Qed.

Lemma boris_uniform qm G B t h p : uniform G (0, 0, 0) B ->
  inv qm B (boris1 qm G t h p) = vadd3 (inv qm B p) (scal h (rate qm (0, 0, 0) B)).
Proof.
  intros H.
  assert (E0 : forall r s, e_field (G r s) = (0, 0, 0)) by (intros r s; apply (H r s)).
  assert (P : place (boris1 qm G t h p) = vadd3 (place p) (scal (h / 2) (vadd3 (vadd3 (velocity p) (velocity (boris1 qm G t h p))) (0, 0, - 2 * c_SI)))).
  { unfold boris1. rewrite push_momentum1_vec. destruct (boris_p _ _ _ _) as [[a c] d]. set (p2 := mkp _ _ _ a c d).
    unfold place. rewrite drift_pos, drift_velocity.
    assert (Ep : (x p2, y p2, xi p2) = (x (drift (h / 2) p), y (drift (h / 2) p), xi (drift (h / 2) p))) by reflexivity.
    rewrite Ep, drift_pos. clear. destruct (velocity p2) as [[w1 w2] w3], (velocity p) as [[v1 v2] v3]. unfold vadd3, scal. apply vec_eq; field. }
  pose proof (boris1_modulus qm G t h p E0) as Mo.
  assert (Hg : gamma (boris1 qm G t h p) = gamma p).
  { assert (Q : forall p, gamma p = sqrt (1 + pmod p * pmod p)).
    { intros p0. unfold gamma, pmod. f_equal. rewrite sqrt_sqrt; [ring|].
      pose proof (Rle_0_sqr (px p0)). pose proof (Rle_0_sqr (py p0)). pose proof (Rle_0_sqr (pz p0)). unfold Rsqr in *. lra. }
    rewrite !Q, Mo. reflexivity. }
  pose proof (boris1_pos_field qm G t h p) as M. cbv zeta in M.
  destruct (H (pos_of (drift (h / 2) p)) (t + h / 2)) as [F1 F2]. rewrite F1, F2 in M.
  pose proof (boris_p_implicit (qm * h / 2) (0, 0, 0) B (momentum p)) as I. cbv zeta in I. rewrite <- M in I.
  replace (vadd3 (momentum p) (scal (qm * h / 2) (0, 0, 0))) with (momentum p) in I
    by (unfold momentum; cbn; apply vec_eq; ring).
  change (sqrt (1 + dot (momentum p) (momentum p))) with (gamma p) in I.
  unfold velocity in P. rewrite Hg in P. unfold inv. rewrite P.
  set (g := c_SI / gamma p) in *. set (p' := boris1 qm G t h p) in *. clearbody g p'. clear - I.
  destruct p as [x1 y1 z1 p1 p2 p3], p' as [x1' y1' z1' p1' p2' p3'], B as [[b1 b2] b3].
  unfold momentum, vsub, vadd3, scal, cross, rate, place in *. cbn [x y xi px py pz] in *. injection I as I1 I2 I3.
  apply vec_eq.
  - assert (X : p1' = p1 + 2 * (qm * h / 2) * (0 + (g * (/ 2 * (p2 + p2')) * b3 - g * (/ 2 * (p3 + p3')) * b2))) by lra.
    rewrite X at 1. field.
  - assert (X : p2' = p2 + 2 * (qm * h / 2) * (0 + (g * (/ 2 * (p3 + p3')) * b1 - g * (/ 2 * (p1 + p1')) * b3))) by lra.
    rewrite X at 1. field.
  - assert (X : p3' = p3 + 2 * (qm * h / 2) * (0 + (g * (/ 2 * (p1 + p1')) * b2 - g * (/ 2 * (p2 + p2')) * b1))) by lra.
    rewrite X at 1. field.
Qed.

Lemma push_uniform pusher q m G E B t h p : known pusher -> pusher = "rk4"%string \/ E = (0, 0, 0) -> uniform G E B ->
  inv (q / (m * c_SI)) B (push1 pusher q m G t h p) = vadd3 (inv (q / (m * c_SI)) B p) (scal h (rate (q / (m * c_SI)) E B)).
Proof.
  intros [-> | ->] D H; unfold push1; cbn [String.eqb Ascii.eqb Bool.eqb].
  - apply rk4_uniform, H.
  - destruct D as [D|D]; [discriminate|]. subst E. apply boris_uniform, H.
Qed.

(** ** A bunch along a run *)
Definition on_way (pusher : string) (k : R) (E B : vec) (hb0 : tracked) (t : Q) (hb : tracked) : Prop :=
  ready hb /\ z_injection (snd hb) = None /\ q_species (snd hb) / (m_species (snd hb) * c_SI) = k /\
  prop_distance (snd hb) = prop_distance (snd hb0) + c_SI * Q2R t /\
  Forall2 (fun p p' => inv k B p' = vadd3 (inv k B p) (scal (Q2R t) (rate k E B)) /\ (pusher = "boris"%string -> pmod p' = pmod p))
    (particles (fst hb0) (snd hb0)) (particles (fst hb) (snd hb)).
Lemma on_way_ext pusher k E B hb0 t t' hb : (t == t')%Q -> on_way pusher k E B hb0 t hb -> on_way pusher k E B hb0 t' hb.
Proof. intros Et H. unfold on_way in *. rewrite <- (Qeq_eqR _ _ Et). exact H. Qed.
Lemma on_way_step pusher fields G k E B hb0 t t' d hb : known pusher -> gathers fields G -> pusher = "rk4"%string \/ E = (0, 0, 0) -> uniform G E B ->
  (t' == t)%Q -> on_way pusher k E B hb0 t hb -> on_way pusher k E B hb0 (t + d) (evolve_tracked pusher fields hb t' d).
Proof.
  intros K HG D HU _ (Hr & Hz & Hk & Hd & HF).
  destruct (evolve_view pusher fields G hb t' d K HG Hr) as (fs & G' & A & _ & _ & Rr & V).
  unfold acting in A. rewrite Hz in A. injection A as <-.
  cbv zeta in Rr, V. set (r := evolve_tracked pusher fields hb t' d) in *.
  rewrite (fresh_push1 pusher _ _ fields G _ _ _ K HG) in V.
  unfold view, seen, contents in V. injection V as V1 V2 V3 V4 V5 V6.
  split; [exact Rr|]. split; [congruence|]. split; [rewrite V4, V5; exact Hk|].
  split; [rewrite V3, Hd, Q2R_plus; ring|]. rewrite V1.
  set (q := q_species (snd hb)) in *. set (m := m_species (snd hb)) in *.
  clear - HF Hk K D HU. induction HF as [|p p' l l' [H1 H2] HF IH]; cbn [map]; [constructor|]. constructor; [|exact IH]. split.
  - rewrite <- Hk at 1. rewrite (push_uniform pusher q m G E B _ _ p' K D HU), Hk, H1, Q2R_plus.
    destruct (inv k B p) as [[u1 u2] u3], (rate k E B) as [[w1 w2] w3]. apply vec_ext; cbn; ring.
  - intros ->. rewrite <- (H2 eq_refl). destruct D as [D|D]; [discriminate|]. unfold push1. cbn [String.eqb Ascii.eqb Bool.eqb].
    apply boris1_modulus. intros r0 s. rewrite <- D. apply HU.
Qed.
Lemma on_way_start pusher E B hb : ready hb -> z_injection (snd hb) = None ->
  on_way pusher (q_species (snd hb) / (m_species (snd hb) * c_SI)) E B hb 0 hb.
Proof.
  intros Hr Hz. assert (E0 : Q2R 0 = 0) by (unfold Q2R; cbn; lra).
  split; [exact Hr|]. split; [exact Hz|]. split; [reflexivity|]. rewrite E0. split; [ring|].
  induction (particles (fst hb) (snd hb)) as [|p l IH]; constructor; [|exact IH]. split; [|reflexivity].
  destruct (inv _ B p) as [[u1 u2] u3], (rate _ E B) as [[w1 w2] w3]. apply vec_ext; cbn; ring.
Qed.

(** What this says about positions in the laboratory. *)
Lemma inv_lab k E B hb0 hb t p p' : prop_distance (snd hb) = prop_distance (snd hb0) + c_SI * t ->
  inv k B p' = vadd3 (inv k B p) (scal t (rate k E B)) ->
  vsub (momentum p') (momentum p) = scal k (vadd3 (scal t E) (cross (vsub (lab hb p') (lab hb0 p)) B)).
Proof.
  intros Hd H. unfold lab. rewrite Hd. destruct E as [[e1 e2] e3], B as [[b1 b2] b3].
  unfold inv, vsub, momentum, place, rate, cross, vadd3, scal in *. injection H as H1 H2 H3. apply vec_eq.
  - replace (px p') with (px p' + -1 * (k * (y p' * b3 - xi p' * b2)) + k * (y p' * b3 - xi p' * b2)) by ring. rewrite H1. ring.
  - replace (py p') with (py p' + -1 * (k * (xi p' * b1 - x p' * b3)) + k * (xi p' * b1 - x p' * b3)) by ring. rewrite H2. ring.
  - replace (pz p') with (pz p' + -1 * (k * (x p' * b2 - y p' * b1)) + k * (x p' * b2 - y p' * b1)) by ring. rewrite H3. ring.
Qed.

(** ** Circles *)
Definition middle (k : R) (B : vec) (r p : vec) : vec := vsub r (scal (/ (k * sq B)) (cross B p)).
Lemma sq_pos B : B <> (0, 0, 0) -> 0 < sq B.
Proof.
  destruct B as [[b1 b2] b3]. intros H. unfold sq. pose proof (Rle_0_sqr b1). pose proof (Rle_0_sqr b2). pose proof (Rle_0_sqr b3). unfold Rsqr in *.
  assert (~ b1 * b1 + b2 * b2 + b3 * b3 = 0); [|lra]. intros Z. apply H.
  assert (Z1 : b1 * b1 = 0) by lra. assert (Z2 : b2 * b2 = 0) by lra. assert (Z3 : b3 * b3 = 0) by lra.
  apply Rmult_integral in Z1, Z2, Z3. destruct Z1, Z2, Z3; subst; reflexivity.
Qed.
Lemma along_same k B r r' p p' : vsub p' p = scal k (cross (vsub r' r) B) -> along p' B = along p B.
Proof.
  destruct B as [[b1 b2] b3], r as [[r1 r2] r3], r' as [[s1 s2] s3], p as [[p1 p2] p3], p' as [[q1 q2] q3].
  unfold vsub, vadd3, scal, cross, along. intros H. injection H as H1 H2 H3.
  replace q1 with (q1 + -1 * p1 + p1) by ring. replace q2 with (q2 + -1 * p2 + p2) by ring. replace q3 with (q3 + -1 * p3 + p3) by ring.
  rewrite H1, H2, H3. ring.
Qed.
Lemma circle_vec k B r r' p p' : k <> 0 -> 0 < sq B -> vsub p' p = scal k (cross (vsub r' r) B) ->
  scal k (cross (vsub r' (middle k B r p)) B) = vsub p' (scal (along p B / sq B) B).
Proof.
  destruct B as [[b1 b2] b3], r as [[r1 r2] r3], r' as [[s1 s2] s3], p as [[p1 p2] p3], p' as [[q1 q2] q3].
  unfold middle. set (S := sq (b1, b2, b3)). intros Hk HS H. unfold vsub, vadd3, scal, cross, along in *. injection H as H1 H2 H3.
  assert (ES : b1 * b1 + b2 * b2 + b3 * b3 = S) by reflexivity. clearbody S.
  apply vec_eq.
  - replace q1 with (q1 + -1 * p1 + p1) by ring. rewrite H1. apply Rminus_diag_uniq.
    transitivity (p1 * (b1 * b1 + b2 * b2 + b3 * b3 - S) / S); [field; split; lra || exact Hk|rewrite ES; field; lra].
  - replace q2 with (q2 + -1 * p2 + p2) by ring. rewrite H2. apply Rminus_diag_uniq.
    transitivity (p2 * (b1 * b1 + b2 * b2 + b3 * b3 - S) / S); [field; split; lra || exact Hk|rewrite ES; field; lra].
  - replace q3 with (q3 + -1 * p3 + p3) by ring. rewrite H3. apply Rminus_diag_uniq.
    transitivity (p3 * (b1 * b1 + b2 * b2 + b3 * b3 - S) / S); [field; split; lra || exact Hk|rewrite ES; field; lra].
Qed.
Lemma sq_scal k a : sq (scal k a) = k * k * sq a.
Proof. destruct a as [[a1 a2] a3]. cbn. ring. Qed.
Lemma sq_across (p' B : vec) c : 0 < sq B -> along p' B = c -> sq (vsub p' (scal (c / sq B) B)) = sq (cross p' B) / sq B.
Proof.
  destruct p' as [[q1 q2] q3], B as [[b1 b2] b3]. set (S := sq (b1, b2, b3)). intros HS <-. unfold sq, along, vsub, vadd3, scal, cross.
  assert (ES : b1 * b1 + b2 * b2 + b3 * b3 = S) by reflexivity. clearbody S.
  transitivity ((q1 * q1 + q2 * q2 + q3 * q3) - 2 * (q1 * b1 + q2 * b2 + q3 * b3) * (q1 * b1 + q2 * b2 + q3 * b3) / S
    + (q1 * b1 + q2 * b2 + q3 * b3) * (q1 * b1 + q2 * b2 + q3 * b3) / (S * S) * (b1 * b1 + b2 * b2 + b3 * b3)); [field; lra|].
  rewrite ES. replace (q1 * q1 + q2 * q2 + q3 * q3) with ((q1 * q1 + q2 * q2 + q3 * q3) * (b1 * b1 + b2 * b2 + b3 * b3) / S) by (rewrite ES; field; lra).
  field. lra.
Qed.
Lemma sq_cross_same p p' B : sq p' = sq p -> along p' B = along p B -> sq (cross p' B) = sq (cross p B).
Proof.
  destruct p as [[p1 p2] p3], p' as [[q1 q2] q3], B as [[b1 b2] b3]. unfold sq, along, cross. intros H1 H2.
  transitivity ((q1 * q1 + q2 * q2 + q3 * q3) * (b1 * b1 + b2 * b2 + b3 * b3) - (q1 * b1 + q2 * b2 + q3 * b3) * (q1 * b1 + q2 * b2 + q3 * b3)); [ring|].
  rewrite H1, H2. ring.
Qed.
(** The distance from the axis through the centre, in the direction of B. *)
Lemma circle k B r r' p p' : k <> 0 -> B <> (0, 0, 0) -> vsub p' p = scal k (cross (vsub r' r) B) ->
  perpendicular (vsub r' (middle k B r p)) B = perpendicular p' B / (Rabs k * norm B).
Proof.
  intros Hk HB H. pose proof (sq_pos B HB) as HS. pose proof (circle_vec k B r r' p p' Hk HS H) as V. pose proof (along_same k B r r' p p' H) as A.
  assert (Q : k * k * sq (cross (vsub r' (middle k B r p)) B) = sq (cross p' B) / sq B).
  { rewrite <- sq_scal, V. apply sq_across; [exact HS|exact A]. }
  set (a := sq (cross (vsub r' (middle k B r p)) B)) in *. set (b := sq (cross p' B)) in *. unfold perpendicular, norm. fold a b.
  assert (Sp : forall v, 0 <= sq v).
  { intros [[v1 v2] v3]. unfold sq. pose proof (Rle_0_sqr v1). pose proof (Rle_0_sqr v2). pose proof (Rle_0_sqr v3). unfold Rsqr in *. lra. }
  assert (a0 : 0 <= a) by apply Sp. assert (b0 : 0 <= b) by apply Sp.
  assert (Ab : 0 < Rabs k) by (apply Rabs_pos_lt; exact Hk).
  assert (SB : 0 < sqrt (sq B)) by (apply sqrt_lt_R0; exact HS).
  assert (Eb : sqrt b = Rabs k * sqrt a * sqrt (sq B)).
  { assert (Eb : b = (k * k) * a * sq B) by (rewrite Q; field; lra).
    assert (k0 : 0 <= k * k) by apply Rle_0_sqr.
    rewrite Eb, (sqrt_mult (k * k * a)), (sqrt_mult (k * k)); try assumption; [|apply Rmult_le_pos; assumption|lra].
    change (k * k) with (Rsqr k). rewrite sqrt_Rsqr_abs. reflexivity. }
  rewrite Eb. field. split; lra.
Qed.
Lemma pmod_sq p p' : pmod p' = pmod p -> sq (momentum p') = sq (momentum p).
Proof.
  intros H. assert (Q : forall p, sq (momentum p) = pmod p * pmod p); [|rewrite !Q, H; reflexivity].
  intros p0. unfold pmod, sq, momentum. rewrite sqrt_sqrt; [reflexivity|].
  pose proof (Rle_0_sqr (px p0)). pose proof (Rle_0_sqr (py p0)). pose proof (Rle_0_sqr (pz p0)). unfold Rsqr in *. lra.
Qed.
