(** Proofs about the short range formula. *)
From Coq Require Import Reals List Arith Lra Lia.
From Coquelicot Require Import Coquelicot.
From Verif Require Import Model_Float32 Model_Push Model_Bunch Model_CSR Spec_CSR Proofs_CSR2
  Proofs_CSR3 Proofs_CSR4 Proofs_CSR5 Proofs_CSR7.
Import ListNotations.
Open Scope R_scope.

(** The derivative of the terms of the formula, for real numbers. *)
Lemma deriv_logs c1 c2 c3 r0 d0 w0 k a2 b wi s : 0 < r0 -> 0 < d0 -> w0 < 0 ->
  0 < (s - k) ^ 2 + a2 -> 0 < - (s - k) + sqrt ((s - k) ^ 2 + a2) ->
  (s - k) + wi + b * sqrt ((s - k) ^ 2 + a2) < 0 ->
  is_derive (fun s => c1 * ln (r0 / sqrt ((s - k) ^ 2 + a2))
      - c2 * ln ((- (s - k) + sqrt ((s - k) ^ 2 + a2)) / d0)
      + c3 * ln (w0 / ((s - k) + wi + b * sqrt ((s - k) ^ 2 + a2)))) s
    (- c1 * (s - k) / ((s - k) ^ 2 + a2) + c2 / sqrt ((s - k) ^ 2 + a2)
     - c3 * (1 + b * (s - k) / sqrt ((s - k) ^ 2 + a2))
       / ((s - k) + wi + b * sqrt ((s - k) ^ 2 + a2))).
Proof.
  intros H1 H2 H3 H4 H5 H6. set (v := s - k) in *.
  assert (R0 : 0 < sqrt (v ^ 2 + a2)) by (apply sqrt_lt_R0; exact H4).
  assert (RR : sqrt (v ^ 2 + a2) * sqrt (v ^ 2 + a2) = v ^ 2 + a2) by (apply sqrt_sqrt; lra).
  assert (P1 : 0 < r0 / sqrt (v ^ 2 + a2)) by (apply Rdiv_lt_0_compat; lra).
  assert (P2 : 0 < (- v + sqrt (v ^ 2 + a2)) / d0) by (apply Rdiv_lt_0_compat; lra).
  assert (P3 : 0 < w0 / (v + wi + b * sqrt (v ^ 2 + a2))).
  { replace (w0 / (v + wi + b * sqrt (v ^ 2 + a2)))
      with (- w0 / - (v + wi + b * sqrt (v ^ 2 + a2))) by (field; lra).
    apply Rdiv_lt_0_compat; lra. }
  auto_derive.
  - replace (s + - k) with v by (unfold v; ring).
    replace (v * (v * 1)) with (v ^ 2) by ring.
    split; [exact H4|]. split; [lra|]. split; [exact P1|]. split; [exact H4|]. split; [exact P2|].
    split; [exact H4|]. split; [lra|]. split; [exact P3|exact I].
  - replace (s + - k) with v by (unfold v; ring).
    replace (v * (v * 1)) with (v ^ 2) by ring.
    set (r := sqrt (v ^ 2 + a2)) in *. replace (v ^ 2 + a2) with (r * r) by exact RR.
    clearbody r. clear H4 RR P1 P2 P3. clearbody v. field. lra.
Qed.
Lemma deriv_atan c k sa s : 0 < sa ->
  is_derive (fun s => c * atan ((s - k) / sa)) s (c * sa / ((s - k) ^ 2 + sa ^ 2)).
Proof.
  intros H. auto_derive; [exact I|]. replace (s + - k) with (s - k) by ring. set (v := s - k).
  pose proof (pow2_ge_0 v). assert (0 < sa ^ 2) by (apply pow_lt; exact H).
  clearbody v. unfold Rsqr. field. split; [|lra]. nra.
Qed.

Section Short.
Variables (i : nat) (t : list tp) (gamma : R).
Let cur := nth i t origin.
Let first := nth 0 t origin.
Hypothesis (Hg : 1 < gamma) (U0 : unit_tangent first).
Let b := beta_r gamma.

Let rx := t_x cur - t_x first.
Let ry := t_y cur - t_y first.
Let rz := t_z cur - t_z first.
Let m := rx * t_ex first + ry * t_ey first + rz * t_ez first.
Let ax := - rx + m * t_ex first.
Let ay := - ry + m * t_ey first.
Let az := - rz + m * t_ez first.
Let a2 := ax * ax + ay * ay + az * az.
Let winf := t_s first - t_s cur + m.

Lemma b_facts : 0 < b < 1 /\ b * b = 1 - 1 / gamma ^ 2.
Proof.
  destruct (beta_range gamma Hg) as (A & B). split; [exact B|]. apply sqrt_sqrt. lra.
Qed.
Lemma a2_pos : 0 <= a2.
Proof. unfold a2. nra. Qed.
Lemma a_perp : ax * t_ex first + ay * t_ey first + az * t_ez first = 0.
Proof.
  unfold ax, ay, az. unfold unit_tangent in U0.
  replace ((- rx + m * t_ex first) * t_ex first + (- ry + m * t_ey first) * t_ey first +
    (- rz + m * t_ez first) * t_ez first)
    with (m * (t_ex first ^ 2 + t_ey first ^ 2 + t_ez first ^ 2) - m) by (unfold m; ring).
  rewrite U0. ring.
Qed.
(** Position relative to the point of closest approach. *)
Let u (s : R) := s - t_s cur - winf.
Lemma before_x s : t_x cur - t_x (before first s) = - (ax + t_ex first * u s).
Proof. unfold before, u, ax, winf, rx. cbn [t_x]. ring. Qed.
Lemma before_y s : t_y cur - t_y (before first s) = - (ay + t_ey first * u s).
Proof. unfold before, u, ay, winf, ry. cbn [t_y]. ring. Qed.
Lemma before_z s : t_z cur - t_z (before first s) = - (az + t_ez first * u s).
Proof. unfold before, u, az, winf, rz. cbn [t_z]. ring. Qed.
Lemma before_dist s : dist cur (before first s) = sqrt (u s ^ 2 + a2).
Proof.
  unfold dist. rewrite before_x, before_y, before_z. f_equal. pose proof a_perp as P.
  unfold a2. unfold unit_tangent in U0.
  replace (- (ax + t_ex first * u s) * - (ax + t_ex first * u s) +
    - (ay + t_ey first * u s) * - (ay + t_ey first * u s) +
    - (az + t_ez first * u s) * - (az + t_ez first * u s)) with
    (ax * ax + ay * ay + az * az + 2 * u s * (ax * t_ex first + ay * t_ey first + az * t_ez first)
     + u s ^ 2 * (t_ex first ^ 2 + t_ey first ^ 2 + t_ez first ^ 2)) by ring.
  rewrite P, U0. ring.
Qed.
Lemma perp_eq : perp first cur = sqrt a2.
Proof.
  unfold perp, dot, vminus, pos, tan. cbn [fst snd]. f_equal. fold rx ry rz m.
  unfold a2, ax, ay, az. unfold unit_tangent in U0.
  replace ((- rx + m * t_ex first) * (- rx + m * t_ex first) + (- ry + m * t_ey first) * (- ry + m * t_ey first) +
    (- rz + m * t_ez first) * (- rz + m * t_ez first)) with
    (rx * rx + ry * ry + rz * rz - 2 * m * (rx * t_ex first + ry * t_ey first + rz * t_ez first)
     + m ^ 2 * (t_ex first ^ 2 + t_ey first ^ 2 + t_ez first ^ 2)) by ring.
  fold m. rewrite U0. ring.
Qed.

(** The formula for the position belonging to a retarded distance inverts the retarded
    distance. *)
Let sf (w : R) := winf + gamma * (gamma * (w - winf) - b * sqrt (gamma ^ 2 * (w - winf) ^ 2 + a2)).
Lemma inverse s : sf (retard b cur (before first s)) = s - t_s cur.
Proof.
  unfold sf, retard. rewrite before_dist. cbn [before t_s].
  destruct b_facts as [[B1 B2] B3]. pose proof a2_pos as A.
  replace (s - t_s cur + b * sqrt (u s ^ 2 + a2) - winf) with (u s + b * sqrt (u s ^ 2 + a2))
    by (unfold u; ring).
  set (v := u s). set (r := sqrt (v ^ 2 + a2)).
  assert (Hr : r * r = v ^ 2 + a2) by (apply sqrt_sqrt; nra).
  assert (Hr0 : Rabs v <= r).
  { unfold r. rewrite <- sqrt_Rsqr_abs. apply sqrt_le_1_alt. unfold Rsqr. nra. }
  assert (R0 : 0 <= r) by apply sqrt_pos.
  assert (Gi : gamma ^ 2 * (1 - b * b) = 1) by (rewrite B3; field; nra).
  assert (Q : sqrt (gamma ^ 2 * (v + b * r) ^ 2 + a2) = gamma * (r + b * v)).
  { assert (0 <= r + b * v).
    { pose proof (Rabs_def2 v (r + 1)). unfold Rabs in Hr0. destruct (Rcase_abs v); nra. }
    rewrite <- (sqrt_pow2 (gamma * (r + b * v))) by nra. f_equal.
    replace a2 with (r * r - v ^ 2) by lra.
    replace ((gamma * (r + b * v)) ^ 2) with (gamma ^ 2 * (v + b * r) ^ 2
      + (gamma ^ 2 * (1 - b * b)) * (r * r - v ^ 2)) by ring.
    rewrite Gi. ring. }
  rewrite Q.
  replace (gamma * (gamma * (v + b * r) - b * (gamma * (r + b * v))))
    with (gamma ^ 2 * (1 - b * b) * v) by ring.
  rewrite Gi. unfold v, u. ring.
Qed.
Lemma r_eq s : (retard b cur (before first s) - sf (retard b cur (before first s))) / b =
  dist cur (before first s).
Proof.
  rewrite inverse. unfold retard. cbn [before t_s]. destruct b_facts as [[B1 _] _]. field. lra.
Qed.

Let ee := t_ex first * t_ex cur + t_ey first * t_ey cur + t_ez first * t_ez cur.
Let ue := (ax * t_ex cur + ay * t_ey cur + az * t_ez cur) / sqrt a2.
(** The formula at the retarded distance of a point of the straight line. *)
Let ks (s0 s : R) :=
  b * (1 - ee) * ln (dist cur (before first s0) / dist cur (before first s))
  - (b * b * ee - 1) * ln ((- u s + dist cur (before first s)) / (- u s0 + dist cur (before first s0)))
  + (1 - b * b) * ln (retard b cur (before first s0) / retard b cur (before first s)).
Lemma short_at_eq s0 s1 s :
  short_at i t gamma (retard b cur (before first s0)) (retard b cur (before first s1))
    (retard b cur (before first s)) =
  if Rlt_dec (1 / 10 ^ 7) (a2 / dist cur (before first s1) ^ 2)
  then ks s0 s - b * ue * (atan (u s0 / sqrt a2) - atan (u s / sqrt a2))
  else ks s0 s.
Proof.
  unfold short_at, short_range. cbn [map nth].
  fold cur first. fold rx ry rz. fold m. fold ax ay az. fold a2. fold winf.
  fold (beta_r gamma). fold b.
  set (w0 := retard b cur (before first s0)). set (w1 := retard b cur (before first s1)).
  set (w := retard b cur (before first s)).
  fold (sf w0) (sf w1) (sf w). unfold w0, w1, w. rewrite !r_eq, !inverse. fold ee ue.
  destruct b_facts as [_ B3].
  replace (1 - 1 / gamma ^ 2) with (b * b) by exact B3.
  replace (1 / gamma ^ 2) with (1 - b * b) by lra.
  replace (winf - (s - t_s cur)) with (- u s) by (unfold u; ring).
  replace (winf - (s0 - t_s cur)) with (- u s0) by (unfold u; ring).
  replace (s0 - t_s cur - winf) with (u s0) by reflexivity.
  replace (s - t_s cur - winf) with (u s) by reflexivity.
  reflexivity.
Qed.

(** ** The derivative *)
Hypothesis Hcur : forall s, s <= t_s first -> retard b cur (before first s) < 0.
Lemma w_expand s : retard b cur (before first s) = u s + winf + b * sqrt (u s ^ 2 + a2).
Proof. unfold retard. rewrite before_dist. cbn [before t_s]. unfold u. ring. Qed.
Lemma r_pos s : s <= t_s first -> a2 <> 0 \/ u s < 0 -> 0 < u s ^ 2 + a2 /\ 0 < - u s + sqrt (u s ^ 2 + a2).
Proof.
  intros _ H. pose proof a2_pos as A.
  assert (P : 0 < u s ^ 2 + a2) by (destruct H; nra). split; [exact P|].
  destruct H as [H|H].
  - assert (Rabs (u s) < sqrt (u s ^ 2 + a2)).
    { rewrite <- sqrt_Rsqr_abs. apply sqrt_lt_1_alt. unfold Rsqr. split; nra. }
    unfold Rabs in H0. destruct (Rcase_abs (u s)); lra.
  - pose proof (sqrt_pos (u s ^ 2 + a2)). lra.
Qed.
Lemma kern_before s : 0 < u s ^ 2 + a2 -> retard b cur (before first s) < 0 ->
  kern gamma cur (before first s) =
  - (b * (1 - ee)) * u s / (u s ^ 2 + a2)
  + (b * b * ee - 1) / sqrt (u s ^ 2 + a2)
  - (1 - b * b) * (1 + b * u s / sqrt (u s ^ 2 + a2)) / (u s + winf + b * sqrt (u s ^ 2 + a2))
  + b * (ax * t_ex cur + ay * t_ey cur + az * t_ez cur) / (u s ^ 2 + a2).
Proof.
  intros H Hw. unfold kern. cbv zeta. fold (beta_r gamma). fold b.
  rewrite before_x, before_y, before_z, before_dist. rewrite w_expand in *.
  cbn [before t_ex t_ey t_ez]. destruct b_facts as [_ B3].
  replace (1 - 1 / gamma ^ 2) with (b * b) by exact B3.
  replace (1 / gamma ^ 2) with (1 - b * b) by lra.
  assert (RR : sqrt (u s ^ 2 + a2) * sqrt (u s ^ 2 + a2) = u s ^ 2 + a2) by (apply sqrt_sqrt; lra).
  assert (R0 : 0 < sqrt (u s ^ 2 + a2)) by (apply sqrt_lt_R0; exact H).
  set (r := sqrt (u s ^ 2 + a2)) in *. replace (u s ^ 2 + a2) with (r * r) by exact RR. clearbody r.
  pose proof a_perp as P. unfold unit_tangent in U0.
  set (p := ax * t_ex cur + ay * t_ey cur + az * t_ez cur).
  set (v := u s) in *. clearbody v. set (rho := 1 / r).
  assert (X : - (ax + t_ex first * v) * rho * t_ex first + - (ay + t_ey first * v) * rho * t_ey first +
    - (az + t_ez first * v) * rho * t_ez first = - v * rho).
  { replace (- (ax + t_ex first * v) * rho * t_ex first + - (ay + t_ey first * v) * rho * t_ey first +
      - (az + t_ez first * v) * rho * t_ez first) with
      (- rho * ((ax * t_ex first + ay * t_ey first + az * t_ez first)
       + v * (t_ex first ^ 2 + t_ey first ^ 2 + t_ez first ^ 2))) by ring.
    rewrite P, U0. ring. }
  rewrite X.
  replace (- v * rho - - (ax + t_ex first * v) * rho * t_ex cur - - (ay + t_ey first * v) * rho * t_ey cur -
    - (az + t_ez first * v) * rho * t_ez cur) with (rho * (p + v * ee - v)) by (unfold p, ee; ring).
  replace (1 - t_ex first * t_ex cur - t_ey first * t_ey cur - t_ez first * t_ez cur)
    with (1 - ee) by (unfold ee; ring).
  clearbody p ee. unfold rho. clear X. field. lra.
Qed.

(** The formula is the integral of the field along the straight line: its derivative with
    respect to the position of the source is the field. *)
Lemma short_derive s0 s1 s : s0 <= t_s first -> s <= t_s first ->
  (a2 = 0 /\ u s0 < 0 /\ u s < 0) \/ 1 / 10 ^ 7 < a2 / dist cur (before first s1) ^ 2 ->
  is_derive (fun s => short_at i t gamma (retard b cur (before first s0))
      (retard b cur (before first s1)) (retard b cur (before first s))) s
    (kern gamma cur (before first s)) /\
  short_at i t gamma (retard b cur (before first s0))
      (retard b cur (before first s1)) (retard b cur (before first s0)) = 0.
Proof.
  intros Hs0 Hs Hc.
  assert (N : a2 <> 0 \/ (a2 = 0 /\ u s0 < 0 /\ u s < 0)).
  { destruct Hc as [Hc|Hc]; [right; exact Hc|left]. intros E. rewrite E in Hc. unfold Rdiv in Hc.
    rewrite Rmult_0_l in Hc. assert (0 < 1 * / 10 ^ 7) by (apply Rdiv_lt_0_compat; [lra|apply pow_lt; lra]). lra. }
  destruct (r_pos s0 Hs0) as [A1 A2]; [tauto|]. destruct (r_pos s Hs) as [A3 A4]; [tauto|].
  pose proof (Hcur s0 Hs0) as W0. pose proof (Hcur s Hs) as W1.
  assert (K0 : ks s0 s0 = 0).
  { unfold ks. rewrite !before_dist. assert (0 < sqrt (u s0 ^ 2 + a2)) by (apply sqrt_lt_R0; exact A1).
    unfold Rdiv. rewrite !Rinv_r by lra. rewrite ln_1. ring. }
  assert (D : is_derive (fun s => ks s0 s) s (- (b * (1 - ee)) * u s / (u s ^ 2 + a2)
    + (b * b * ee - 1) / sqrt (u s ^ 2 + a2)
    - (1 - b * b) * (1 + b * u s / sqrt (u s ^ 2 + a2)) / (u s + winf + b * sqrt (u s ^ 2 + a2)))).
  { assert (F : forall x, u x = x - (t_s cur + winf)) by (intros x; unfold u; ring).
    rewrite !w_expand in *. rewrite !F in *.
    apply (is_derive_ext (fun s => b * (1 - ee) * ln (dist cur (before first s0) / sqrt ((s - (t_s cur + winf)) ^ 2 + a2))
      - (b * b * ee - 1) * ln ((- (s - (t_s cur + winf)) + sqrt ((s - (t_s cur + winf)) ^ 2 + a2))
          / (- u s0 + dist cur (before first s0)))
      + (1 - b * b) * ln (retard b cur (before first s0) / ((s - (t_s cur + winf)) + winf
          + b * sqrt ((s - (t_s cur + winf)) ^ 2 + a2))))).
    { intros x. unfold ks. rewrite (w_expand x), (before_dist x), !(F x). reflexivity. }
    apply deriv_logs; try assumption.
    - rewrite before_dist, F. apply sqrt_lt_R0. exact A1.
    - rewrite before_dist, !F. exact A2.
    - rewrite w_expand, !F. exact W0. }
  split.
  - rewrite kern_before by assumption. destruct Hc as [(Z & _)|Hc].
    + apply (is_derive_ext (fun s => ks s0 s)).
      { intros x. rewrite short_at_eq. destruct (Rlt_dec _ _) as [Y|Y]; [|reflexivity]. exfalso.
        rewrite Z in Y. unfold Rdiv in Y. rewrite Rmult_0_l in Y.
        assert (0 < 1 * / 10 ^ 7) by (apply Rdiv_lt_0_compat; [lra|apply pow_lt; lra]). lra. }
      assert (AX : ax = 0 /\ ay = 0 /\ az = 0) by (unfold a2 in Z; repeat split; nra).
      destruct AX as (-> & -> & ->).
      replace (b * (0 * t_ex cur + 0 * t_ey cur + 0 * t_ez cur) / (u s ^ 2 + a2)) with 0
        by (unfold Rdiv; ring). rewrite Rplus_0_r. exact D.
    + assert (A0 : a2 <> 0).
      { intros E. rewrite E in Hc. unfold Rdiv in Hc. rewrite Rmult_0_l in Hc.
        assert (0 < 1 * / 10 ^ 7) by (apply Rdiv_lt_0_compat; [lra|apply pow_lt; lra]). lra. }
      pose proof a2_pos as Ap. assert (SA : 0 < sqrt a2) by (apply sqrt_lt_R0; lra).
      apply (is_derive_ext (fun s => plus (ks s0 s) (plus (- (b * ue * atan (u s0 / sqrt a2)))
        (b * ue * atan ((s - (t_s cur + winf)) / sqrt a2))))).
      { intros x. rewrite short_at_eq. destruct (Rlt_dec _ _) as [Y|Y]; [|contradiction].
        unfold plus. cbn. replace (x - (t_s cur + winf)) with (u x) by (unfold u; ring). ring. }
      refine (is_derive_plus (V:=R_NormedModule) (fun s => ks s0 s) _ s _ _ D _).
      replace (b * (ax * t_ex cur + ay * t_ey cur + az * t_ez cur) / (u s ^ 2 + a2))
        with (plus 0 (b * ue * sqrt a2 / ((s - (t_s cur + winf)) ^ 2 + sqrt a2 ^ 2))).
      { refine (is_derive_plus (V:=R_NormedModule) (fun _ => _) _ s _ _ _ _);
          [apply (is_derive_const (V:=R_NormedModule))|]. apply deriv_atan. exact SA. }
      unfold plus. cbn -[pow]. rewrite pow2_sqrt by exact Ap.
      replace (s - (t_s cur + winf)) with (u s) by (unfold u; ring). unfold ue. field. lra.
  - rewrite short_at_eq, K0. destruct (Rlt_dec _ _); ring.
Qed.
End Short.

Lemma before_neg t i gamma s : increasing t -> List.Forall unit_tangent t -> (0 < i < length t)%nat -> 1 < gamma ->
  s <= t_s (nth 0 t origin) ->
  retard (beta_r gamma) (nth i t origin) (before (nth 0 t origin) s) < 0.
Proof.
  intros It Ut Hi Hg Hs. set (f := nth 0 t origin) in *. set (c := nth i t origin).
  pose proof (retard_neg t gamma i 0 It Hg ltac:(lia)) as N. fold f c in N.
  assert (U : unit_tangent f) by (apply (proj1 (Forall_forall _ _) Ut); apply nth_In; lia).
  destruct (beta_range gamma Hg) as (_ & B1 & B2).
  assert (D : dist f (before f s) = t_s f - s).
  { unfold dist, before. cbn [t_x t_y t_z].
    transitivity (sqrt ((t_s f - s) ^ 2 * (t_ex f ^ 2 + t_ey f ^ 2 + t_ez f ^ 2))); [f_equal; ring|].
    unfold unit_tangent in U. rewrite U, Rmult_1_r. apply sqrt_pow2. lra. }
  pose proof (dist_triangle c f (before f s)) as T. rewrite D in T.
  unfold retard in *. cbn [before t_s]. fold (before f s) in *.
  assert (beta_r gamma * dist c (before f s) <= beta_r gamma * (dist c f + (t_s f - s)))
    by (apply Rmult_le_compat_l; lra).
  assert (beta_r gamma * (t_s f - s) <= 1 * (t_s f - s)) by (apply Rmult_le_compat_r; lra).
  change (mktp s (t_x f + t_ex f * (s - t_s f)) (t_y f + t_ey f * (s - t_s f))
    (t_z f + t_ez f * (s - t_s f)) (t_ex f) (t_ey f) (t_ez f)) with (before f s). lra.
Qed.
Lemma short_exact t i gamma s0 s1 s :
  increasing t -> List.Forall unit_tangent t -> (0 < i < length t)%nat -> 1 < gamma ->
  let first := nth 0 t origin in
  let cur := nth i t origin in
  let w s := retard (beta_r gamma) cur (before first s) in
  s0 <= t_s first -> s <= t_s first ->
  (perp first cur = 0 /\ 0 < dot (vminus (pos cur) (pos first)) (tan first)) \/
  1 / 10 ^ 7 < perp first cur ^ 2 / dist cur (before first s1) ^ 2 ->
  is_derive (fun s => short_at i t gamma (w s0) (w s1) (w s)) s
    (field_of gamma cur (before first s)) /\
  short_at i t gamma (w s0) (w s1) (w s0) = 0.
Proof.
  intros It Ut Hi Hg first cur w Hs0 Hs Hc.
  assert (U : unit_tangent first) by (apply (proj1 (Forall_forall _ _) Ut); apply nth_In; lia).
  rewrite <- kern_field by exact Hg.
  apply (short_derive i t gamma Hg U); try assumption.
  - intros x Hx. apply before_neg; assumption.
  - pose proof (perp_eq i t U) as P. fold cur first in P. rewrite P in Hc.
    match type of P with _ = sqrt ?a => assert (A : 0 <= a) by (exact (a2_pos i t)); set (a2 := a) in * end.
    rewrite pow2_sqrt in Hc by exact A. destruct Hc as [[Z M]|Hc]; [left|right; exact Hc].
    assert (Z2 : a2 = 0) by (apply sqrt_eq_0; assumption).
    split; [exact Z2|]. unfold dot, vminus, pos, tan in M. cbn [fst snd] in M.
    fold first cur. split; lra.
Qed.
