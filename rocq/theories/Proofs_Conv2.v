(** Lemmas: one-step methods with increments of bounded rate converge. *)
From Coq Require Import Reals List Lia Lra Psatz.
From Coquelicot Require Import Coquelicot.
From Verif Require Import Model_Push Spec_Push Proofs_Push Spec_Conv Proofs_Conv.
Import ListNotations.
Open Scope R_scope.

Definition coords : list (part -> R) := [x; y; xi; px; py; pz].
Ltac each H := destruct H as [<-|[<-|[<-|[<-|[<-|[<-|[]]]]]]].
Lemma pdist_le p q a b e : (forall u, In u coords -> Rabs (u a - u b) <= Rabs (u p - u q) + e) ->
  pdist a b <= pdist p q + 6 * e.
Proof.
  intros H. unfold pdist. pose proof (H x). pose proof (H y). pose proof (H xi). pose proof (H px). pose proof (H py).
  pose proof (H pz). unfold coords in *. cbn [In] in *. intuition lra.
Qed.
Lemma pdist_small a b e : (forall u, In u coords -> Rabs (u a - u b) <= e) -> pdist a b <= 6 * e.
Proof.
  intros H. unfold pdist. pose proof (H x). pose proof (H y). pose proof (H xi). pose proof (H px). pose proof (H py).
  pose proof (H pz). unfold coords in *. cbn [In] in *. intuition lra.
Qed.
Lemma coord_le u p q : In u coords -> Rabs (u p - u q) <= pdist p q.
Proof.
  intros H. unfold pdist. pose proof (Rabs_pos (x p - x q)). pose proof (Rabs_pos (y p - y q)). pose proof (Rabs_pos (xi p - xi q)).
  pose proof (Rabs_pos (px p - px q)). pose proof (Rabs_pos (py p - py q)). pose proof (Rabs_pos (pz p - pz q)).
  each H; lra.
Qed.
Lemma pdist_refl p : pdist p p = 0.
Proof. unfold pdist. rewrite !Rminus_eq_0, Rabs_R0. ring. Qed.
Lemma pdist_tri p q r : pdist p r <= pdist p q + pdist q r.
Proof.
  unfold pdist.
  assert (T : forall a b c, Rabs (a - c) <= Rabs (a - b) + Rabs (b - c)).
  { intros a b c. replace (a - c) with ((a - b) + (b - c)) by ring. apply Rabs_triang. }
  pose proof (T (x p) (x q) (x r)). pose proof (T (y p) (y q) (y r)). pose proof (T (xi p) (xi q) (xi r)).
  pose proof (T (px p) (px q) (px r)). pose proof (T (py p) (py q) (py r)). pose proof (T (pz p) (pz q) (pz r)). lra.
Qed.
Lemma coord_step u p h w : In u coords -> u (padd p (pscal h w)) = u p + h * u w.
Proof. intros H. each H; reflexivity. Qed.

(** All six components of an increment. *)
Definition BLs (Phi : arg -> part) : Prop := forall u, In u coords -> BL (fun z => u (Phi z)).
Lemma bls_uniform Phi : BLs Phi -> exists M, 0 <= M /\ forall u, In u coords -> forall z w, dom z -> dom w ->
  Rabs (u (Phi z)) <= M /\ Rabs (u (Phi z) - u (Phi w)) <= M * dz z w.
Proof.
  intros H.
  assert (E : forall l, (forall u, In u l -> In u coords) -> exists M, 0 <= M /\ forall u, In u l -> forall z w, dom z -> dom w ->
            Rabs (u (Phi z)) <= M /\ Rabs (u (Phi z) - u (Phi w)) <= M * dz z w).
  { induction l as [|v l IH]; intros Hl.
    - exists 0. split; [lra|]. intros u [].
    - destruct IH as (M & M0 & HM); [intros u Hu; apply Hl; right; exact Hu|].
      destruct (H v (Hl v (or_introl eq_refl))) as [(A & A0 & HA) (L & L0 & HL)].
      exists (M + A + L). split; [lra|]. intros u [<-|Hu] z w Dz Dw.
      + specialize (HA z Dz). specialize (HL z w Dz Dw). pose proof (dz_pos z w). split; [lra|].
        assert (0 <= (M + A) * dz z w) by (apply Rmult_le_pos; lra). lra.
      + destruct (HM u Hu z w Dz Dw) as [H1 H2]. pose proof (dz_pos z w). split; [lra|].
        assert (0 <= (A + L) * dz z w) by (apply Rmult_le_pos; lra). lra. }
  apply (E coords). auto.
Qed.

Section Method.
  Variable f : R -> part -> part.
  Variable Phi : arg -> part.
  Hypothesis HPhi : BLs Phi.
  Hypothesis Hf : forall t p, Phi (mka 0 t p) = f t p.
  Variable T : R.
  Variable Y : R -> part.
  Hypothesis HY : forall t, 0 <= t <= T -> forall u, In u coords -> is_derive (fun s => u (Y s)) t (u (f t (Y t))).
  Definition one_step (h t : R) (p : part) : part := padd p (pscal h (Phi (mka h t p))).

  Lemma mean_value u t s : In u coords -> 0 <= t -> t <= s -> s <= T ->
    exists c, t <= c <= s /\ u (Y s) - u (Y t) = u (f c (Y c)) * (s - t).
  Proof.
    intros Hu H0 H1 H2. destruct (MVT_gen (fun s => u (Y s)) t s (fun c => u (f c (Y c)))) as (c & Hc & E).
    - intros v Hv. rewrite Rmin_left, Rmax_right in Hv by assumption. apply HY; [lra|exact Hu].
    - intros v Hv. rewrite Rmin_left, Rmax_right in Hv by assumption. apply continuity_pt_filterlim.
      apply (ex_derive_continuous (fun s => u (Y s)) v). exists (u (f v (Y v))). apply HY; [lra|exact Hu].
    - rewrite Rmin_left, Rmax_right in Hc by assumption. exists c. split; [exact Hc|exact E].
  Qed.

  Lemma stable_consistent : exists C, 0 <= C /\
    (forall h t p q, 0 <= h <= 1 -> pdist (one_step h t p) (one_step h t q) <= (1 + C * h) * pdist p q) /\
    (forall h t, 0 <= h <= 1 -> 0 <= t -> t + h <= T -> pdist (one_step h t (Y t)) (Y (t + h)) <= C * (h * h)).
  Proof.
    destruct (bls_uniform Phi HPhi) as (M & M0 & HM). exists (6 * M * (2 + 6 * M)). split.
    { apply Rmult_le_pos; lra. }
    assert (MM : 0 <= M * M) by (apply Rmult_le_pos; lra).
    split.
    - intros h t p q Hh.
      assert (D : pdist (one_step h t p) (one_step h t q) <= pdist p q + 6 * (h * (M * pdist p q))).
      { apply pdist_le. intros u Hu. unfold one_step. rewrite !coord_step by exact Hu.
        destruct (HM u Hu (mka h t p) (mka h t q) Hh Hh) as [_ L].
        unfold dz in L. cbn [a_h a_t a_p] in L. rewrite !Rminus_eq_0, Rabs_R0, !Rplus_0_l in L.
        replace (u p + h * u (Phi (mka h t p)) - (u q + h * u (Phi (mka h t q))))
          with ((u p - u q) + h * (u (Phi (mka h t p)) - u (Phi (mka h t q)))) by ring.
        eapply Rle_trans; [apply Rabs_triang|]. apply Rplus_le_compat_l. rewrite Rabs_mult, (Rabs_right h) by lra.
        apply Rmult_le_compat_l; lra. }
      pose proof (pdist_pos p q) as Pp.
      assert (0 <= h * pdist p q) by (apply Rmult_le_pos; lra).
      assert (0 <= (6 * M + 36 * (M * M)) * (h * pdist p q)) by (apply Rmult_le_pos; lra). 
      replace ((1 + 6 * M * (2 + 6 * M) * h) * pdist p q)
        with (pdist p q + 6 * (h * (M * pdist p q)) + (6 * M + 36 * (M * M)) * (h * pdist p q)) by ring. lra.
    - intros h t Hh H0 H1.
      assert (Near : forall c, t <= c <= t + h -> pdist (Y c) (Y t) <= 6 * (M * h)).
      { intros c Hc. apply pdist_small. intros u Hu.
        destruct (mean_value u t c Hu H0 (proj1 Hc)) as (v & Hv & E); [lra|]. rewrite E, Rabs_mult, (Rabs_right (c - t)) by lra.
        rewrite <- Hf. destruct (HM u Hu (mka 0 v (Y v)) (mka 0 v (Y v))) as [B _]; [unfold dom; cbn; lra|unfold dom; cbn; lra|].
        apply Rmult_le_compat; try lra. apply Rabs_pos. }
      assert (D : pdist (one_step h t (Y t)) (Y (t + h)) <= 6 * (h * (M * (2 * h + 6 * (M * h))))).
      { apply pdist_small. intros u Hu. unfold one_step. rewrite coord_step by exact Hu.
        destruct (mean_value u t (t + h) Hu H0) as (c & Hc & E); [lra|exact H1|].
        replace (u (Y t) + h * u (Phi (mka h t (Y t))) - u (Y (t + h)))
          with (h * u (Phi (mka h t (Y t))) - (u (Y (t + h)) - u (Y t))) by ring.
        rewrite E, <- Hf. replace (t + h - t) with h by ring.
        replace (h * u (Phi (mka h t (Y t))) - u (Phi (mka 0 c (Y c))) * h)
          with (h * (u (Phi (mka h t (Y t))) - u (Phi (mka 0 c (Y c))))) by ring.
        rewrite Rabs_mult, (Rabs_right h) by lra. apply Rmult_le_compat_l; [lra|].
        destruct (HM u Hu (mka h t (Y t)) (mka 0 c (Y c))) as [_ L]; [exact Hh|unfold dom; cbn; lra|].
        eapply Rle_trans; [exact L|]. apply Rmult_le_compat_l; [exact M0|]. unfold dz. cbn [a_h a_t a_p].
        pose proof (Near c Hc) as N. assert (Sy : pdist (Y t) (Y c) = pdist (Y c) (Y t)).
        { unfold pdist. rewrite (Rabs_minus_sym (x (Y t))), (Rabs_minus_sym (y (Y t))), (Rabs_minus_sym (xi (Y t))),
            (Rabs_minus_sym (px (Y t))), (Rabs_minus_sym (py (Y t))), (Rabs_minus_sym (pz (Y t))). reflexivity. }
        rewrite Sy, Rminus_0_r, (Rabs_right h) by lra. rewrite (Rabs_left1 (t - c)) by lra. lra. }
      eapply Rle_trans; [exact D|]. apply Req_le. ring.
  Qed.
End Method.

(** Growth of the error over a step. *)
Definition err (C d t : R) : R := C * d * t * exp (C * t).
Lemma err_step C d t h e : 0 <= C -> 0 <= t -> 0 <= h <= d -> e <= err C d t ->
  (1 + C * h) * e + C * (h * h) <= err C d (t + h).
Proof.
  intros C0 H0 Hh He.
  assert (Ch : 0 <= C * h) by (apply Rmult_le_pos; lra).
  assert (Ct : 0 <= C * t) by (apply Rmult_le_pos; lra).
  assert (E1 : 1 + C * h <= exp (C * h)) by apply exp_ineq1_le.
  assert (E2 : 1 <= exp (C * (t + h))).
  { pose proof (exp_ineq1_le (C * (t + h))). assert (0 <= C * (t + h)) by (apply Rmult_le_pos; lra). lra. }
  assert (P : 0 <= err C d t).
  { unfold err. repeat apply Rmult_le_pos; try lra. left. apply exp_pos. }
  assert (S1 : (1 + C * h) * e <= exp (C * h) * err C d t).
  { apply Rle_trans with ((1 + C * h) * err C d t); [apply Rmult_le_compat_l; lra|apply Rmult_le_compat_r; lra]. }
  assert (S2 : exp (C * h) * err C d t = C * d * t * exp (C * (t + h))).
  { unfold err. replace (C * (t + h)) with (C * h + C * t) by ring. rewrite exp_plus. ring. }
  assert (S3 : C * (h * h) <= C * d * h * exp (C * (t + h))).
  { apply Rle_trans with (C * d * h * 1).
    - replace (C * (h * h)) with ((C * h) * h) by ring. replace (C * d * h * 1) with ((C * h) * d) by ring.
      apply Rmult_le_compat_l; lra.
    - apply Rmult_le_compat_l; [|exact E2]. repeat apply Rmult_le_pos; lra. }
  unfold err at 1. replace (C * d * (t + h) * exp (C * (t + h))) with (C * d * t * exp (C * (t + h)) + C * d * h * exp (C * (t + h))) by ring.
  lra.
Qed.
