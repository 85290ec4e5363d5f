(** Proofs for C119: the phase of the gyration. *)
From Coq Require Import Reals QArith Qreals String List Bool Arith ZArith Lia Lqa Lra.
From Coquelicot Require Import Coquelicot.
From Verif Require Proofs_Run.
From Verif Require Import Model_Push Spec_Push Proofs_Push Model_Bunch Spec_Bunch Proofs_Bunch
  Model_Tracker Spec_Tracker Proofs_Tracker Properties_Tracker Model_Run Spec_Run Proofs_Run Spec_Split Proofs_Split Proofs_Split2
  Spec_Conv Proofs_Conv5 Spec_Circle Proofs_Circle.
Import ListNotations.
Open Scope R_scope.

(** ** The arc tangent *)
Lemma atan_between x : 0 <= x -> x - x ^ 3 / 3 <= atan x <= x.
Proof.
  intros Hx. split.
  - destruct (MVT_gen (fun u => atan u - (u - u ^ 3 / 3)) 0 x (fun u => / (1 + u ^ 2) - (1 - u ^ 2))) as (c & Hc & E).
    + intros u _. auto_derive; [exact I|]. field. nra.
    + intros u _. apply derivable_continuous_pt. exists (/ (1 + u ^ 2) - (1 - u ^ 2)). apply is_derive_Reals. auto_derive; [exact I|]. field. nra.
    + rewrite atan_0 in E. assert (P : 0 <= / (1 + c ^ 2) - (1 - c ^ 2)).
      { replace (/ (1 + c ^ 2) - (1 - c ^ 2)) with (c ^ 2 * c ^ 2 / (1 + c ^ 2)) by (field; nra).
        pose proof (pow2_ge_0 c). apply Rmult_le_pos; [nra|]. left. apply Rinv_0_lt_compat. lra. }
      assert (0 <= (/ (1 + c ^ 2) - (1 - c ^ 2)) * (x - 0)) by (apply Rmult_le_pos; lra). lra.
  - destruct (MVT_gen (fun u => u - atan u) 0 x (fun u => 1 - / (1 + u ^ 2))) as (c & Hc & E).
    + intros u _. auto_derive; [exact I|]. field. nra.
    + intros u _. apply derivable_continuous_pt. exists (1 - / (1 + u ^ 2)). apply is_derive_Reals. auto_derive; [exact I|]. field. nra.
    + rewrite atan_0 in E. assert (P : 0 <= 1 - / (1 + c ^ 2)).
      { replace (1 - / (1 + c ^ 2)) with (c ^ 2 / (1 + c ^ 2)) by (field; nra).
        pose proof (pow2_ge_0 c). apply Rmult_le_pos; [nra|]. left. apply Rinv_0_lt_compat. lra. }
      assert (0 <= (1 - / (1 + c ^ 2)) * (x - 0)) by (apply Rmult_le_pos; lra). lra.
Qed.
(** The angle of a step of length [h] is that of the exact motion in a time [a] that is somewhat shorter. *)
Lemma angle w h d : 0 <= h <= d -> exists a, w * a = 2 * atan (w * h / 2) /\ h * (1 - (w * d) ^ 2 / 12) <= a <= h.
Proof.
  intros Hh.
  assert (M : h * (1 - (w * d) ^ 2 / 12) <= h * (1 - (w * h) ^ 2 / 12)).
  { apply Rmult_le_compat_l; [lra|]. rewrite !Rpow_mult_distr. pose proof (pow2_ge_0 w). assert (h ^ 2 <= d ^ 2) by nra. nra. }
  assert (P : forall v, 0 < v -> exists a, v * a = 2 * atan (v * h / 2) /\ h * (1 - (v * h) ^ 2 / 12) <= a <= h).
  { intros v Hv. exists (2 * atan (v * h / 2) / v). split; [field; lra|].
    destruct (atan_between (v * h / 2)) as [A1 A2]; [apply Rmult_le_pos; [apply Rmult_le_pos|]; lra|].
    split; apply Rmult_le_reg_r with v; try assumption.
    - replace (2 * atan (v * h / 2) / v * v) with (2 * atan (v * h / 2)) by (field; lra).
      replace (h * (1 - (v * h) ^ 2 / 12) * v) with (2 * (v * h / 2 - (v * h / 2) ^ 3 / 3)) by field. lra.
    - replace (2 * atan (v * h / 2) / v * v) with (2 * atan (v * h / 2)) by (field; lra). lra. }
  destruct (Rtotal_order w 0) as [N|[Z|N]].
  - destruct (P (- w)) as (a & E & B1 & B2); [lra|]. exists a. split.
    + replace (- w * h / 2) with (- (w * h / 2)) in E by field. rewrite atan_opp in E. lra.
    + replace ((- w * h) ^ 2) with ((w * h) ^ 2) in B1 by ring. lra.
  - exists h. subst w. replace (0 * h / 2) with 0 by field. rewrite atan_0. split; [ring|].
    split; [|lra]. replace ((0 * d) ^ 2) with 0 by ring. lra.
  - destruct (P w N) as (a & E & B1 & B2). exists a. split; [exact E|]. lra.
Qed.
Lemma cos_twice x : cos (2 * atan x) = (1 - x * x) / (1 + x * x).
Proof.
  rewrite cos_2a_cos, cos_atan. pose proof (Rle_0_sqr x) as H.
  assert (S : sqrt (1 + x²) * sqrt (1 + x²) = 1 + x²) by (apply sqrt_sqrt; lra).
  assert (N : sqrt (1 + x²) <> 0) by (intros Z; rewrite Z in S; lra).
  replace (2 * (1 / sqrt (1 + x²)) * (1 / sqrt (1 + x²)) - 1) with (2 / (sqrt (1 + x²) * sqrt (1 + x²)) - 1) by (field; exact N).
  rewrite S. unfold Rsqr in *. field. lra.
Qed.
Lemma sin_twice x : sin (2 * atan x) = 2 * x / (1 + x * x).
Proof.
  rewrite sin_2a, cos_atan, sin_atan. pose proof (Rle_0_sqr x) as H.
  assert (S : sqrt (1 + x²) * sqrt (1 + x²) = 1 + x²) by (apply sqrt_sqrt; lra).
  assert (N : sqrt (1 + x²) <> 0) by (intros Z; rewrite Z in S; lra).
  replace (2 * (x / sqrt (1 + x²)) * (1 / sqrt (1 + x²))) with (2 * x / (sqrt (1 + x²) * sqrt (1 + x²))) by (field; exact N).
  rewrite S. unfold Rsqr in *. field. lra.
Qed.

(** ** Rotations *)
Definition unit (n : vec) : Prop := sq n = 1.
Lemma unit_of B : B <> (0, 0, 0) -> unit (scal (/ norm B) B).
Proof.
  intros H. pose proof (sq_pos B H) as P. unfold unit. rewrite sq_scal. unfold norm.
  replace (/ sqrt (sq B) * / sqrt (sq B)) with (/ (sqrt (sq B) * sqrt (sq B))).
  - rewrite sqrt_sqrt by lra. field. lra.
  - field. apply Rgt_not_eq, sqrt_lt_R0. exact P.
Qed.
Definition turn (c s : R) (n p : vec) : vec := vadd3 (scal c p) (vadd3 (scal s (cross p n)) (scal ((1 - c) * along p n) n)).
Lemma cross_turn c s n p : unit n -> cross (turn c s n p) n = vadd3 (scal c (cross p n)) (scal s (vadd3 (scal (along p n) n) (scal (-1) p))).
Proof.
  destruct n as [[n1 n2] n3], p as [[p1 p2] p3]. intros N. unfold unit, sq in N.
  assert (W : forall a, a = a * (n1 * n1 + n2 * n2 + n3 * n3)) by (intros a; rewrite N; ring).
  unfold turn, cross, along, vadd3, scal. apply vec_eq.
  - match goal with |- _ = ?r => replace r with (c * (p2 * n3 - p3 * n2) + s * ((p1 * n1 + p2 * n2 + p3 * n3) * n1 + -1 * (p1 * (n1 * n1 + n2 * n2 + n3 * n3)))) by (rewrite <- (W p1); reflexivity) end. ring.
  - match goal with |- _ = ?r => replace r with (c * (p3 * n1 - p1 * n3) + s * ((p1 * n1 + p2 * n2 + p3 * n3) * n2 + -1 * (p2 * (n1 * n1 + n2 * n2 + n3 * n3)))) by (rewrite <- (W p2); reflexivity) end. ring.
  - match goal with |- _ = ?r => replace r with (c * (p1 * n2 - p2 * n1) + s * ((p1 * n1 + p2 * n2 + p3 * n3) * n3 + -1 * (p3 * (n1 * n1 + n2 * n2 + n3 * n3)))) by (rewrite <- (W p3); reflexivity) end. ring.
Qed.
Lemma along_turn c s n p : unit n -> along (turn c s n p) n = along p n.
Proof.
  destruct n as [[n1 n2] n3], p as [[p1 p2] p3]. intros N. unfold unit, sq in N. unfold turn, cross, along, vadd3, scal.
  transitivity (c * (p1 * n1 + p2 * n2 + p3 * n3) + (1 - c) * (p1 * n1 + p2 * n2 + p3 * n3) * (n1 * n1 + n2 * n2 + n3 * n3)); [ring|]. rewrite N. ring.
Qed.
Lemma turn_turn c s c' s' n p : unit n -> turn c s n (turn c' s' n p) = turn (c * c' - s * s') (s * c' + c * s') n p.
Proof.
  intros N. unfold turn at 1. rewrite cross_turn, along_turn by exact N. unfold turn.
  destruct (cross p n) as [[u1 u2] u3], n as [[n1 n2] n3], p as [[p1 p2] p3]. set (mm := along (p1, p2, p3) (n1, n2, n3)). clearbody mm.
  unfold vadd3, scal. apply vec_eq; ring.
Qed.
Lemma turned_turned a b B p : B <> (0, 0, 0) -> turned a B (turned b B p) = turned (a + b) B p.
Proof.
  intros H. unfold turned. fold (turn (cos b) (sin b) (scal (/ norm B) B) p).
  fold (turn (cos a) (sin a) (scal (/ norm B) B) (turn (cos b) (sin b) (scal (/ norm B) B) p)).
  rewrite turn_turn by (apply unit_of, H). rewrite <- cos_plus, <- sin_plus. reflexivity.
Qed.
Lemma turned_0 B p : turned 0 B p = p.
Proof.
  unfold turned. rewrite cos_0, sin_0. destruct (cross p _) as [[u1 u2] u3], (scal (/ norm B) B) as [[n1 n2] n3], p as [[p1 p2] p3].
  unfold vadd3, scal. apply vec_eq; ring.
Qed.
Lemma rot_turns t n p : unit n -> rot (scal t n) p = turn ((1 - t * t) / (1 + t * t)) (2 * t / (1 + t * t)) n p.
Proof.
  destruct n as [[n1 n2] n3], p as [[p1 p2] p3]. intros N. unfold unit, sq in N.
  pose proof (Rle_0_sqr t) as T. unfold Rsqr in T.
  unfold rot, turn, cross, along, vadd3, scal.
  replace (t * n1 * (t * n1) + t * n2 * (t * n2) + t * n3 * (t * n3)) with (t * t * (n1 * n1 + n2 * n2 + n3 * n3)) by ring.
  rewrite N, Rmult_1_r.
  assert (W : forall a, a = a * (n1 * n1 + n2 * n2 + n3 * n3)) by (intros a; rewrite N; ring).
  assert (V : forall a, (1 - t * t) / (1 + t * t) * a = a + 2 * t * t / (1 + t * t) * (- (a * (n1 * n1 + n2 * n2 + n3 * n3)))).
  { intros a. rewrite <- W. field. lra. }
  apply vec_eq; rewrite V; field; lra.
Qed.
Lemma boris_turns k b v : b <> (0, 0, 0) ->
  boris_p k (0, 0, 0) b v = turned (2 * atan (k * (c_SI / sqrt (1 + dot v v)) * norm b)) b v.
Proof.
  intros H. unfold boris_p.
  replace (vadd3 v (scal k (0, 0, 0))) with v by (destruct v as [[v1 v2] v3]; unfold vadd3, scal; apply vec_eq; ring).
  set (g := k * (c_SI / sqrt (1 + dot v v))).
  assert (Nb : norm b <> 0) by (apply Rgt_not_eq, sqrt_lt_R0, sq_pos, H).
  replace (scal g b) with (scal (g * norm b) (scal (/ norm b) b))
    by (destruct b as [[b1 b2] b3]; unfold scal; apply vec_eq; field; exact Nb).
  rewrite rot_turns by (apply unit_of, H). unfold turned. rewrite cos_twice, sin_twice.
  fold (turn ((1 - g * norm b * (g * norm b)) / (1 + g * norm b * (g * norm b))) (2 * (g * norm b) / (1 + g * norm b * (g * norm b))) (scal (/ norm b) b) v).
  destruct (turn _ _ _ _) as [[u1 u2] u3]. unfold vadd3, scal. apply vec_eq; ring.
Qed.
Lemma push_turns q m G B t h d p : m <> 0 -> B <> (0, 0, 0) -> uniform G (0, 0, 0) B -> 0 <= h <= d ->
  exists a, momentum (boris1 (q / (m * c_SI)) G t h p) = turned (frequency q m B p * a) B (momentum p) /\
    h * (1 - (frequency q m B p * d) ^ 2 / 12) <= a <= h.
Proof.
  intros Hm HB HU Hh. destruct (angle (frequency q m B p) h d Hh) as (a & E & Ha). exists a. split; [|exact Ha].
  rewrite E. rewrite boris1_pos_field. destruct (HU (pos_of (drift (h / 2) p)) (t + h / 2)) as [-> ->].
  rewrite boris_turns by exact HB. f_equal. f_equal. f_equal.
  change (sqrt (1 + dot (momentum p) (momentum p))) with (gamma p). unfold frequency.
  assert (gp : gamma p <> 0).
  { apply Rgt_not_eq, sqrt_lt_R0. pose proof (Rle_0_sqr (px p)). pose proof (Rle_0_sqr (py p)). pose proof (Rle_0_sqr (pz p)). unfold Rsqr in *. lra. }
  unfold c_SI. field. auto.
Qed.
Lemma frequency_same q m B p p' : pmod p' = pmod p -> frequency q m B p' = frequency q m B p.
Proof. intros H. unfold frequency. f_equal. f_equal. unfold gamma. f_equal. f_equal. exact (pmod_sq _ _ H). Qed.

(** ** A bunch along a run *)
Definition gyrates (q m d : R) (B : vec) (hb0 : tracked) (t : Q) (hb : tracked) : Prop :=
  ready hb /\ z_injection (snd hb) = None /\ q_species (snd hb) = q /\ m_species (snd hb) = m /\
  Forall2 (fun p p' => pmod p' = pmod p /\ exists a, Q2R t * (1 - (frequency q m B p * d) ^ 2 / 12) <= a <= Q2R t /\
      momentum p' = turned (frequency q m B p * a) B (momentum p))
    (particles (fst hb0) (snd hb0)) (particles (fst hb) (snd hb)).
Lemma gyrates_ext q m d B hb0 t t' hb : (t == t')%Q -> gyrates q m d B hb0 t hb -> gyrates q m d B hb0 t' hb.
Proof. intros Et H. unfold gyrates in *. rewrite <- (Qeq_eqR _ _ Et). exact H. Qed.
Lemma gyrates_step fields G q m (d : Q) B hb0 t t' h hb : m <> 0 -> B <> (0, 0, 0) -> gathers fields G -> uniform G (0, 0, 0) B ->
  (0 <= h)%Q -> (h <= d)%Q -> gyrates q m (Q2R d) B hb0 t hb -> gyrates q m (Q2R d) B hb0 (t + h) (evolve_tracked "boris" fields hb t' h).
Proof.
  intros Hm HB HG HU H0 Hd (Hr & Hz & Hq & Hmm & HF).
  destruct (evolve_view "boris" fields G hb t' h (or_intror eq_refl) HG Hr) as (fs & G' & A & _ & _ & Rr & V).
  unfold acting in A. rewrite Hz in A. injection A as <-.
  cbv zeta in Rr, V. set (r := evolve_tracked "boris" fields hb t' h) in *.
  rewrite (fresh_push1 "boris" _ _ fields G _ _ _ (or_intror eq_refl) HG), Hq, Hmm in V.
  unfold view, seen, contents in V. injection V as V1 V2 V3 V4 V5 V6.
  split; [exact Rr|]. split; [congruence|]. split; [congruence|]. split; [congruence|]. rewrite V1.
  apply Qle_Rle in H0, Hd. assert (E0 : Q2R 0 = 0) by (unfold Q2R; cbn; lra). rewrite E0 in H0.
  clear - HF HB HU Hm H0 Hd. induction HF as [|p p' l l' (H1 & a & Ha & H2) HF IH]; cbn [map]; [constructor|]. constructor; [|exact IH].
  unfold push1. cbn [String.eqb Ascii.eqb Bool.eqb]. split.
  - rewrite <- H1. apply boris1_modulus. intros r0 s. apply HU.
  - destruct (push_turns q m G B (Q2R t') (Q2R h) (Q2R d) p' Hm HB HU (conj H0 Hd)) as (a' & E' & Ha').
    rewrite (frequency_same q m B p p' H1) in E', Ha'. exists (a' + a). rewrite Q2R_plus. split.
    + split; [|lra]. rewrite Rmult_plus_distr_r. lra.
    + rewrite E', H2, turned_turned by exact HB. f_equal. ring.
Qed.
Lemma gyrates_start d B hb : ready hb -> z_injection (snd hb) = None -> gyrates (q_species (snd hb)) (m_species (snd hb)) d B hb 0 hb.
Proof.
  intros Hr Hz. assert (E0 : Q2R 0 = 0) by (unfold Q2R; cbn; lra).
  split; [exact Hr|]. split; [exact Hz|]. split; [reflexivity|]. split; [reflexivity|]. rewrite E0.
  induction (particles (fst hb) (snd hb)) as [|p l IH]; constructor; [|exact IH]. split; [reflexivity|].
  exists 0. split; [lra|]. rewrite Rmult_0_r. symmetry. apply turned_0.
Qed.
