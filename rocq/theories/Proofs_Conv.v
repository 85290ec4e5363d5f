(** Lemmas: bounded functions of bounded rate, one-step methods. *)
From Coq Require Import Reals List Lia Lra Psatz.
From Coquelicot Require Import Coquelicot.
From Verif Require Import Model_Push Spec_Push Proofs_Push Spec_Conv.
Open Scope R_scope.

(** What a step depends on: its length, its time and the particle. *)
Record arg := mka { a_h : R; a_t : R; a_p : part }.
Definition dom (z : arg) : Prop := 0 <= a_h z <= 1.
Definition dz (z w : arg) : R := Rabs (a_h z - a_h w) + Rabs (a_t z - a_t w) + pdist (a_p z) (a_p w).

Lemma pdist_pos p q : 0 <= pdist p q.
Proof.
  unfold pdist. pose proof (Rabs_pos (x p - x q)). pose proof (Rabs_pos (y p - y q)). pose proof (Rabs_pos (xi p - xi q)).
  pose proof (Rabs_pos (px p - px q)). pose proof (Rabs_pos (py p - py q)). pose proof (Rabs_pos (pz p - pz q)). lra.
Qed.
Lemma dz_pos z w : 0 <= dz z w.
Proof. unfold dz. pose proof (pdist_pos (a_p z) (a_p w)). pose proof (Rabs_pos (a_h z - a_h w)). pose proof (Rabs_pos (a_t z - a_t w)). lra. Qed.

Definition Lip (F : arg -> R) : Prop :=
  exists L, 0 <= L /\ forall z w, dom z -> dom w -> Rabs (F z - F w) <= L * dz z w.
Definition Bnd (F : arg -> R) : Prop := exists M, 0 <= M /\ forall z, dom z -> Rabs (F z) <= M.
Definition BL (F : arg -> R) : Prop := Bnd F /\ Lip F.

Lemma lip_const k : Lip (fun _ => k).
Proof. exists 0. split; [lra|]. intros z w _ _. replace (k - k) with 0 by ring. rewrite Rabs_R0. lra. Qed.
Lemma bnd_const k : Bnd (fun _ => k).
Proof. exists (Rabs k). split; [apply Rabs_pos|]. intros; lra. Qed.
Ltac proj := exists 1; split; [lra|]; intros z w _ _; unfold dz, pdist;
  pose proof (Rabs_pos (a_h z - a_h w)); pose proof (Rabs_pos (a_t z - a_t w));
  pose proof (Rabs_pos (x (a_p z) - x (a_p w))); pose proof (Rabs_pos (y (a_p z) - y (a_p w)));
  pose proof (Rabs_pos (xi (a_p z) - xi (a_p w))); pose proof (Rabs_pos (px (a_p z) - px (a_p w)));
  pose proof (Rabs_pos (py (a_p z) - py (a_p w))); pose proof (Rabs_pos (pz (a_p z) - pz (a_p w))); lra.
Lemma lip_h : Lip a_h. Proof. proj. Qed.
Lemma bnd_h : Bnd a_h. Proof. exists 1. split; [lra|]. intros z [H1 H2]. rewrite Rabs_right; lra. Qed.
Lemma lip_t : Lip a_t. Proof. proj. Qed.
Lemma lip_x : Lip (fun z => x (a_p z)). Proof. proj. Qed.
Lemma lip_y : Lip (fun z => y (a_p z)). Proof. proj. Qed.
Lemma lip_xi : Lip (fun z => xi (a_p z)). Proof. proj. Qed.
Lemma lip_px : Lip (fun z => px (a_p z)). Proof. proj. Qed.
Lemma lip_py : Lip (fun z => py (a_p z)). Proof. proj. Qed.
Lemma lip_pz : Lip (fun z => pz (a_p z)). Proof. proj. Qed.
Lemma lip_plus F G : Lip F -> Lip G -> Lip (fun z => F z + G z).
Proof.
  intros (L & L0 & HL) (M & M0 & HM). exists (L + M). split; [lra|]. intros z w Dz Dw.
  specialize (HL z w Dz Dw). specialize (HM z w Dz Dw).
  replace (F z + G z - (F w + G w)) with ((F z - F w) + (G z - G w)) by ring.
  eapply Rle_trans; [apply Rabs_triang|]. lra.
Qed.
Lemma bnd_plus F G : Bnd F -> Bnd G -> Bnd (fun z => F z + G z).
Proof.
  intros (L & L0 & HL) (M & M0 & HM). exists (L + M). split; [lra|]. intros z Dz.
  specialize (HL z Dz). specialize (HM z Dz). eapply Rle_trans; [apply Rabs_triang|]. lra.
Qed.
Lemma lip_opp F : Lip F -> Lip (fun z => - F z).
Proof.
  intros (L & L0 & HL). exists L. split; [exact L0|]. intros z w Dz Dw.
  replace (- F z - - F w) with (- (F z - F w)) by ring. rewrite Rabs_Ropp. auto.
Qed.
Lemma bnd_opp F : Bnd F -> Bnd (fun z => - F z).
Proof. intros (L & L0 & HL). exists L. split; [exact L0|]. intros z Dz. rewrite Rabs_Ropp. auto. Qed.
Lemma bnd_mult F G : Bnd F -> Bnd G -> Bnd (fun z => F z * G z).
Proof.
  intros (L & L0 & HL) (M & M0 & HM). exists (L * M). split; [apply Rmult_le_pos; lra|]. intros z Dz.
  rewrite Rabs_mult. apply Rmult_le_compat; auto using Rabs_pos.
Qed.
Lemma lip_mult F G : BL F -> BL G -> Lip (fun z => F z * G z).
Proof.
  intros [(A & A0 & HA) (L & L0 & HL)] [(B & B0 & HB) (M & M0 & HM)]. exists (A * M + B * L).
  split; [apply Rplus_le_le_0_compat; apply Rmult_le_pos; lra|]. intros z w Dz Dw.
  specialize (HL z w Dz Dw). specialize (HM z w Dz Dw). specialize (HA z Dz). specialize (HB w Dw).
  replace (F z * G z - F w * G w) with (F z * (G z - G w) + G w * (F z - F w)) by ring.
  eapply Rle_trans; [apply Rabs_triang|]. rewrite !Rabs_mult.
  replace ((A * M + B * L) * dz z w) with (A * (M * dz z w) + B * (L * dz z w)) by ring.
  apply Rplus_le_compat; apply Rmult_le_compat; auto using Rabs_pos.
Qed.
Lemma lip_scal k F : Lip F -> Lip (fun z => k * F z).
Proof.
  intros (L & L0 & HL). exists (Rabs k * L). split; [apply Rmult_le_pos; auto using Rabs_pos|]. intros z w Dz Dw.
  replace (k * F z - k * F w) with (k * (F z - F w)) by ring. rewrite Rabs_mult, Rmult_assoc.
  apply Rmult_le_compat_l; auto using Rabs_pos.
Qed.
Lemma lip_ext F G : (forall z, dom z -> F z = G z) -> Lip F -> Lip G.
Proof. intros E (L & L0 & HL). exists L. split; [exact L0|]. intros z w Dz Dw. rewrite <- !E by assumption. auto. Qed.
Lemma bnd_ext F G : (forall z, dom z -> F z = G z) -> Bnd F -> Bnd G.
Proof. intros E (L & L0 & HL). exists L. split; [exact L0|]. intros z Dz. rewrite <- !E by assumption. auto. Qed.

Lemma bl_const k : BL (fun _ => k). Proof. split; [apply bnd_const|apply lip_const]. Qed.
Lemma bl_h : BL a_h. Proof. split; [apply bnd_h|apply lip_h]. Qed.
Lemma bl_plus F G : BL F -> BL G -> BL (fun z => F z + G z).
Proof. intros [A B] [C0 D]. split; [apply bnd_plus|apply lip_plus]; assumption. Qed.
Lemma bl_opp F : BL F -> BL (fun z => - F z).
Proof. intros [A B]. split; [apply bnd_opp|apply lip_opp]; assumption. Qed.
Lemma bl_minus F G : BL F -> BL G -> BL (fun z => F z - G z).
Proof. intros A B. apply (bl_plus F (fun z => - G z) A (bl_opp G B)). Qed.
Lemma bl_mult F G : BL F -> BL G -> BL (fun z => F z * G z).
Proof. intros A B. split; [apply bnd_mult; [apply A|apply B]|apply lip_mult; assumption]. Qed.
Lemma bl_lip F : BL F -> Lip F. Proof. intros [_ H]. exact H. Qed.
Lemma bl_ext F G : (forall z, dom z -> F z = G z) -> BL F -> BL G.
Proof. intros E [A B]. split; [eapply bnd_ext|eapply lip_ext]; eassumption. Qed.

(** The Lorentz factor as a function of the momentum. *)
Definition gam (a b c : R) : R := sqrt (1 + (a * a + b * b + c * c)).
Lemma gam_sq a b c : gam a b c * gam a b c = 1 + (a * a + b * b + c * c).
Proof. apply sqrt_sqrt. pose proof (Rle_0_sqr a). pose proof (Rle_0_sqr b). pose proof (Rle_0_sqr c). unfold Rsqr in *. lra. Qed.
Lemma gam_pos a b c : 0 <= gam a b c. Proof. apply sqrt_pos. Qed.
Lemma sq_le u v : 0 <= v -> u * u <= v * v -> u <= v.
Proof. intros Hv H. apply Rnot_lt_le. intros L. assert (v * v < u * u) by (apply Rmult_le_0_lt_compat; lra). lra. Qed.
Lemma gam_ge1 a b c : 1 <= gam a b c.
Proof.
  apply sq_le; [apply gam_pos|]. rewrite gam_sq. pose proof (Rle_0_sqr a). pose proof (Rle_0_sqr b). pose proof (Rle_0_sqr c).
  unfold Rsqr in *. lra.
Qed.
Lemma gam_ge a b c : Rabs a <= gam a b c /\ Rabs b <= gam a b c /\ Rabs c <= gam a b c.
Proof.
  pose proof (Rle_0_sqr a). pose proof (Rle_0_sqr b). pose proof (Rle_0_sqr c). unfold Rsqr in *.
  pose proof (gam_pos a b c).
  repeat split; apply sq_le; try assumption; rewrite gam_sq, <- Rabs_mult, Rabs_right; lra.
Qed.
Lemma gam_up a b c a' b' c' : gam a b c <= gam a' b' c' + (Rabs (a - a') + Rabs (b - b') + Rabs (c - c')).
Proof.
  pose proof (gam_ge a' b' c') as (Ga & Gb & Gc). pose proof (gam_pos a' b' c') as G0. pose proof (gam_sq a' b' c') as Gs.
  pose proof (Rabs_pos (a - a')) as A0. pose proof (Rabs_pos (b - b')) as B0. pose proof (Rabs_pos (c - c')) as C0.
  set (g := gam a' b' c') in *. set (da := Rabs (a - a')) in *. set (db := Rabs (b - b')) in *. set (dc := Rabs (c - c')) in *.
  apply sq_le; [lra|]. rewrite gam_sq.
  assert (Sq : forall u u' d, d = Rabs (u - u') -> Rabs u' <= g -> u * u <= u' * u' + 2 * (g * d) + d * d).
  { intros u u' d E Hu. assert (D0 : 0 <= d) by (rewrite E; apply Rabs_pos).
    assert (H1 : u' * (u - u') <= g * d).
    { eapply Rle_trans; [apply Rle_abs|]. rewrite Rabs_mult, <- E. apply Rmult_le_compat; auto using Rabs_pos, Rle_refl. }
    assert (H2 : (u - u') * (u - u') = d * d).
    { rewrite E, <- Rabs_mult, Rabs_right; [reflexivity|]. apply Rle_ge, (Rle_0_sqr (u - u')). }
    replace (u * u) with (u' * u' + 2 * (u' * (u - u')) + (u - u') * (u - u')) by ring. lra. }
  pose proof (Sq a a' da eq_refl Ga) as Sa. pose proof (Sq b b' db eq_refl Gb) as Sb. pose proof (Sq c c' dc eq_refl Gc) as Sc.
  replace ((g + (da + db + dc)) * (g + (da + db + dc)))
    with (g * g + 2 * (g * da) + 2 * (g * db) + 2 * (g * dc) + da * da + db * db + dc * dc
          + 2 * (da * db) + 2 * (da * dc) + 2 * (db * dc)) by ring.
  pose proof (Rmult_le_pos _ _ A0 B0). pose proof (Rmult_le_pos _ _ A0 C0). pose proof (Rmult_le_pos _ _ B0 C0). lra.
Qed.
Lemma gam_lip a b c a' b' c' : Rabs (gam a b c - gam a' b' c') <= Rabs (a - a') + Rabs (b - b') + Rabs (c - c').
Proof.
  pose proof (gam_up a b c a' b' c'). pose proof (gam_up a' b' c' a b c) as U.
  rewrite (Rabs_minus_sym a' a), (Rabs_minus_sym b' b), (Rabs_minus_sym c' c) in U.
  apply Rabs_le. lra.
Qed.

Section Gamma.
  Variables A B C : arg -> R.
  Hypothesis HA : Lip A.
  Hypothesis HB : Lip B.
  Hypothesis HC : Lip C.
  Lemma lip_gam : Lip (fun z => gam (A z) (B z) (C z)).
  Proof.
    destruct HA as (L1 & P1 & H1), HB as (L2 & P2 & H2), HC as (L3 & P3 & H3). exists (L1 + L2 + L3). split; [lra|].
    intros z w Dz Dw. eapply Rle_trans; [apply gam_lip|]. specialize (H1 z w Dz Dw). specialize (H2 z w Dz Dw).
    specialize (H3 z w Dz Dw). lra.
  Qed.
  Lemma bl_inv_gam : BL (fun z => / gam (A z) (B z) (C z)).
  Proof.
    split.
    - exists 1. split; [lra|]. intros z _. pose proof (gam_ge1 (A z) (B z) (C z)) as H.
      rewrite Rabs_right by (apply Rle_ge, Rlt_le, Rinv_0_lt_compat; lra). rewrite <- Rinv_1. apply Rinv_le_contravar; lra.
    - destruct lip_gam as (L & L0 & HL). exists L. split; [exact L0|]. intros z w Dz Dw. specialize (HL z w Dz Dw).
      pose proof (gam_ge1 (A z) (B z) (C z)) as G1. pose proof (gam_ge1 (A w) (B w) (C w)) as G2.
      set (g := gam (A z) (B z) (C z)) in *. set (k := gam (A w) (B w) (C w)) in *.
      replace (/ g - / k) with ((k - g) * (/ g * / k)) by (field; lra).
      rewrite Rabs_mult, Rabs_minus_sym.
      assert (Q1 : 0 <= / g * / k <= 1).
      { rewrite <- Rinv_mult_distr by lra. assert (1 <= g * k) by (replace 1 with (1 * 1) by ring; apply Rmult_le_compat; lra).
        split; [apply Rlt_le, Rinv_0_lt_compat; lra|]. rewrite <- Rinv_1. apply Rinv_le_contravar; lra. }
      rewrite (Rabs_right (/ g * / k)) by lra.
      eapply Rle_trans; [|exact HL]. rewrite <- (Rmult_1_r (Rabs (g - k))) at 2.
      apply Rmult_le_compat_l; [apply Rabs_pos|lra].
  Qed.
End Gamma.
Lemma over_gam_bl (P A B C : arg -> R) : Lip P -> Lip A -> Lip B -> Lip C ->
  (forall z, Rabs (P z) <= gam (A z) (B z) (C z)) -> BL (fun z => P z * / gam (A z) (B z) (C z)).
Proof.
  intros HP HA HB HC Hle. split.
  - exists 1. split; [lra|]. intros z _. specialize (Hle z). pose proof (gam_ge1 (A z) (B z) (C z)) as G1.
    rewrite Rabs_mult, (Rabs_right (/ _)) by (apply Rle_ge, Rlt_le, Rinv_0_lt_compat; lra).
    apply Rmult_le_reg_r with (gam (A z) (B z) (C z)); [lra|]. rewrite Rmult_assoc, Rinv_l by lra. lra.
  - destruct HP as (K & K0 & HK). destruct (lip_gam A B C HA HB HC) as (L & L0 & HL). exists (K + L). split; [lra|].
    intros z w Dz Dw. specialize (HK z w Dz Dw). specialize (HL z w Dz Dw). pose proof (Hle w) as Lw.
    pose proof (gam_ge1 (A z) (B z) (C z)) as G1. pose proof (gam_ge1 (A w) (B w) (C w)) as G2.
    set (g := gam (A z) (B z) (C z)) in *. set (k := gam (A w) (B w) (C w)) in *.
    replace (P z * / g - P w * / k) with ((P z - P w) * / g + (P w * / k) * ((k - g) * / g)) by (field; lra).
    eapply Rle_trans; [apply Rabs_triang|]. rewrite !Rabs_mult, (Rabs_minus_sym k g).
    assert (I : 0 <= / g <= 1).
    { split; [apply Rlt_le, Rinv_0_lt_compat; lra|]. rewrite <- Rinv_1. apply Rinv_le_contravar; lra. }
    assert (J : Rabs (P w) * Rabs (/ k) <= 1).
    { rewrite (Rabs_right (/ k)) by (apply Rle_ge, Rlt_le, Rinv_0_lt_compat; lra).
      apply Rmult_le_reg_r with k; [lra|]. rewrite Rmult_assoc, Rinv_l by lra. lra. }
    rewrite (Rabs_right (/ g)) by lra.
    pose proof (Rabs_pos (P z - P w)) as X0. pose proof (Rabs_pos (g - k)) as Y0.
    pose proof (Rmult_le_pos _ _ (Rabs_pos (P w)) (Rabs_pos (/ k))) as Z0.
    assert (T1 : Rabs (P z - P w) * / g <= K * dz z w).
    { apply Rle_trans with (Rabs (P z - P w) * 1); [apply Rmult_le_compat_l; lra|lra]. }
    assert (T2 : Rabs (g - k) * / g <= L * dz z w).
    { apply Rle_trans with (Rabs (g - k) * 1); [apply Rmult_le_compat_l; lra|lra]. }
    assert (T3 : Rabs (P w) * Rabs (/ k) * (Rabs (g - k) * / g) <= 1 * (L * dz z w)).
    { apply Rmult_le_compat; try lra. apply Rmult_le_pos; lra. }
    lra.
Qed.
Lemma bl_inv F : BL F -> (forall z, 1 <= F z) -> BL (fun z => / F z).
Proof.
  intros [_ (L & L0 & HL)] H1. split.
  - exists 1. split; [lra|]. intros z _. specialize (H1 z).
    rewrite Rabs_right by (apply Rle_ge, Rlt_le, Rinv_0_lt_compat; lra). rewrite <- Rinv_1. apply Rinv_le_contravar; lra.
  - exists L. split; [exact L0|]. intros z w Dz Dw. specialize (HL z w Dz Dw). pose proof (H1 z) as G1. pose proof (H1 w) as G2.
    set (g := F z) in *. set (k := F w) in *.
    replace (/ g - / k) with ((k - g) * (/ g * / k)) by (field; lra).
    rewrite Rabs_mult, Rabs_minus_sym.
    assert (Q1 : 0 <= / g * / k <= 1).
    { rewrite <- Rinv_mult_distr by lra. assert (1 <= g * k) by (replace 1 with (1 * 1) by ring; apply Rmult_le_compat; lra).
      split; [apply Rlt_le, Rinv_0_lt_compat; lra|]. rewrite <- Rinv_1. apply Rinv_le_contravar; lra. }
    rewrite (Rabs_right (/ g * / k)) by lra.
    eapply Rle_trans; [|exact HL]. rewrite <- (Rmult_1_r (Rabs (g - k))) at 2.
    apply Rmult_le_compat_l; [apply Rabs_pos|lra].
Qed.
