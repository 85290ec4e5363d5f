(** Lemmas: the RK4 pusher is of fourth order along a motion with five bounded derivatives. *)
From Coq Require Import Reals List Lia Lra Psatz.
From Coquelicot Require Import Coquelicot.
From Verif Require Import Model_Push Spec_Push Proofs_Push Spec_Conv Proofs_Conv Proofs_Conv2 Proofs_Conv3 Proofs_Conv4
  Proofs_Ord Proofs_Ord2 Proofs_Ord4 Proofs_Ord5.
Import ListNotations.
Open Scope R_scope.

Definition six (F : (part -> R) -> R) : R := F x + F y + F xi + F px + F py + F pz.
Lemma dot_six j p p' : dot j p p' = six (fun u => u j * (u p - u p')).
Proof. reflexivity. Qed.
Lemma big_six h1 T k F : (forall u, In u coords -> Big h1 T k (F u)) -> Big h1 T k (fun h t => six (fun u => F u h t)).
Proof.
  intros H. unfold six.
  repeat (match goal with |- Big h1 T k (fun h t => @?A h t + @?B h t) => apply (big_plus h1 T k A B) end); apply H; unfold coords; cbn; tauto.
Qed.
Lemma bls_bound T J : bls T J -> exists B, 0 <= B /\ forall u, In u coords ->
  (forall s, 0 <= s <= T -> Rabs (u (J s)) <= B) /\
  (forall s s', 0 <= s <= T -> 0 <= s' <= T -> Rabs (u (J s) - u (J s')) <= B * Rabs (s - s')).
Proof.
  intros H.
  assert (E : forall l, (forall u, In u l -> In u coords) -> exists B, 0 <= B /\ forall u, In u l ->
    (forall s, 0 <= s <= T -> Rabs (u (J s)) <= B) /\
    (forall s s', 0 <= s <= T -> 0 <= s' <= T -> Rabs (u (J s) - u (J s')) <= B * Rabs (s - s'))).
  { induction l as [|v l IH]; intros Hl.
    - exists 0. split; [lra|]. intros u [].
    - destruct IH as (B & B0 & HB); [intros u Hu; apply Hl; right; exact Hu|].
      destruct (H v (Hl v (or_introl eq_refl))) as ((C & C0 & HC) & (D & D0 & HD)).
      exists (B + C + D). split; [lra|]. intros u [<-|Hu].
      + split; [intros s Hs; specialize (HC s Hs); lra|]. intros s s' Hs Hs'. eapply Rle_trans; [apply HD; assumption|].
        apply Rmult_le_compat_r; [apply Rabs_pos|lra].
      + destruct (HB u Hu) as [H1 H2]. split; [intros s Hs; specialize (H1 s Hs); lra|]. intros s s' Hs Hs'. eapply Rle_trans; [apply H2; assumption|].
        apply Rmult_le_compat_r; [apply Rabs_pos|lra]. }
  apply (E coords). auto.
Qed.
Lemma dot_bound B j p p' : 0 <= B -> (forall u, In u coords -> Rabs (u j) <= B) -> Rabs (dot j p p') <= B * pdist p p'.
Proof.
  intros B0 H. unfold dot, pdist.
  assert (E : forall u, In u coords -> Rabs (u j * (u p - u p')) <= B * Rabs (u p - u p')).
  { intros u Hu. rewrite Rabs_mult. apply Rmult_le_compat_r; [apply Rabs_pos|apply H, Hu]. }
  pose proof (E x ltac:(unfold coords; cbn; tauto)). pose proof (E y ltac:(unfold coords; cbn; tauto)). pose proof (E xi ltac:(unfold coords; cbn; tauto)).
  pose proof (E px ltac:(unfold coords; cbn; tauto)). pose proof (E py ltac:(unfold coords; cbn; tauto)). pose proof (E pz ltac:(unfold coords; cbn; tauto)).
  clear E.
  set (a1 := x j * (x p - x p')) in *. set (a2 := y j * (y p - y p')) in *. set (a3 := xi j * (xi p - xi p')) in *.
  set (a4 := px j * (px p - px p')) in *. set (a5 := py j * (py p - py p')) in *. set (a6 := pz j * (pz p - pz p')) in *.
  pose proof (Rabs_triang (a1 + a2 + a3 + a4 + a5) a6). pose proof (Rabs_triang (a1 + a2 + a3 + a4) a5). pose proof (Rabs_triang (a1 + a2 + a3) a4).
  pose proof (Rabs_triang (a1 + a2) a3). pose proof (Rabs_triang a1 a2). lra.
Qed.

Section Fourth.
  Variables q m h1 T : R.
  Hypothesis H1 : 0 <= h1 <= 1.
  Variable G : pos -> R -> em.
  Hypothesis HG : tame G.
  Variable Y : R -> part.
  Notation f := (lorentz q m G).
  Hypothesis HY : forall t, 0 <= t <= T -> forall u, In u coords -> is_derive (fun s => u (Y s)) t (u (f t (Y t))).
  Notation Big := (Big h1 T).
  Hypothesis H5 : forall u, In u coords -> exists y1 y2 y3 y4 y5 M, 0 <= M /\
    (forall s, 0 <= s <= T -> y1 s = u (f s (Y s))) /\ (forall s, 0 <= s <= T -> is_derive y1 s (y2 s)) /\ (forall s, 0 <= s <= T -> is_derive y2 s (y3 s)) /\
    (forall s, 0 <= s <= T -> is_derive y3 s (y4 s)) /\ (forall s, 0 <= s <= T -> is_derive y4 s (y5 s)) /\
    (forall s, 0 <= s <= T -> Rabs (y3 s) <= M /\ Rabs (y4 s) <= M /\ Rabs (y5 s) <= M).
  Variable rho : R.
  Hypothesis rho0 : 0 < rho <= 1.
  Hypothesis HD : forall u, In u coords -> DL T rho Y (fun s p => u (f s p)).

  (** The linearisation everywhere. *)
  Lemma linear_everywhere u : In u coords -> exists J B, 0 <= B /\
    (forall v, In v coords -> (forall s, 0 <= s <= T -> Rabs (v (J s)) <= B) /\
       (forall s s', 0 <= s <= T -> 0 <= s' <= T -> Rabs (v (J s) - v (J s')) <= B * Rabs (s - s'))) /\
    (forall s p, 0 <= s <= T -> Rabs (u (f s p) - u (f s (Y s)) - dot (J s) p (Y s)) <= B * (pdist p (Y s) * pdist p (Y s))).
  Proof.
    intros Hu. destruct (HD u Hu) as (_ & J & HJ & (C & C0 & HC)). destruct (bls_bound T J HJ) as (B & B0 & HB).
    destruct (rhs_lip q m G HG) as (M & M0 & HM).
    set (K := 2 * M / (rho * rho) + B / rho). assert (R2 : 0 < rho * rho) by (apply Rmult_lt_0_compat; lra).
    assert (Ma : 0 <= 2 * M / (rho * rho)) by (apply Rmult_le_pos; [lra|left; apply Rinv_0_lt_compat, R2]).
    assert (Mb : 0 <= B / rho) by (apply Rmult_le_pos; [lra|left; apply Rinv_0_lt_compat; lra]).
    assert (K0 : 0 <= K) by (unfold K; lra).
    exists J, (B + C + K). split; [lra|]. split.
    - intros v Hv. destruct (HB v Hv) as [A1 A2]. split; [intros s Hs; specialize (A1 s Hs); lra|].
      intros s s' Hs Hs'. eapply Rle_trans; [apply A2; assumption|]. apply Rmult_le_compat_r; [apply Rabs_pos|lra].
    - intros s p Hs. set (d := pdist p (Y s)). assert (D0 : 0 <= d) by apply pdist_pos.
      assert (Dd : 0 <= d * d) by (apply Rmult_le_pos; exact D0).
      destruct (Rle_lt_dec d rho) as [Hd|Hd].
      + pose proof (HC s p Hs Hd) as Q. fold d in Q. cbn [pow] in Q. rewrite Rmult_1_r in Q. eapply Rle_trans; [exact Q|]. apply Rmult_le_compat_r; lra.
      + assert (Q1 : Rabs (dot (J s) p (Y s)) <= B * d) by (apply dot_bound; [exact B0|]; intros v Hv; apply (HB v Hv), Hs).
        pose proof (proj1 (HM u Hu s p s p)) as Q2. pose proof (proj1 (HM u Hu s (Y s) s p)) as Q3.
        assert (E : Rabs (u (f s p) - u (f s (Y s)) - dot (J s) p (Y s)) <= 2 * M + B * d).
        { unfold Rminus. eapply Rle_trans; [apply Rabs_triang|]. rewrite Rabs_Ropp. eapply Rle_trans; [apply Rplus_le_compat_r, Rabs_triang|].
          rewrite Rabs_Ropp. lra. }
        eapply Rle_trans; [exact E|]. apply Rle_trans with (K * (d * d)); [|apply Rmult_le_compat_r; lra].
        unfold K. rewrite Rmult_plus_distr_r. apply Rplus_le_compat.
        * apply Rle_trans with (2 * M / (rho * rho) * (rho * rho)); [right; field; lra|]. apply Rmult_le_compat_l; [exact Ma|].
          apply Rmult_le_compat; lra.
        * apply Rle_trans with (B / rho * (rho * d)); [right; field; lra|]. apply Rmult_le_compat_l; [exact Mb|]. apply Rmult_le_compat_r; lra.
  Qed.

  Notation Z h t := (mka h t (Y t)).
  Lemma rk4_fourth u : In u coords -> Big 4 (fun h t => u (phi_rk4 q m G (Z h t)) -
    / 6 * (u (f t (Y t)) + 4 * u (f (t + h / 2) (Y (t + h / 2))) + u (f (t + h) (Y (t + h))))).
  Proof.
    set (k1 := fun h t : R => f t (Y t)).
    set (p2 := fun h t : R => padd (Y t) (pscal (h / 2) (k1 h t))). set (k2 := fun h t : R => f (t + h / 2) (p2 h t)).
    set (p3 := fun h t : R => padd (Y t) (pscal (h / 2) (k2 h t))). set (k3 := fun h t : R => f (t + h / 2) (p3 h t)).
    set (p4 := fun h t : R => padd (Y t) (pscal h (k3 h t))). set (k4 := fun h t : R => f (t + h) (p4 h t)).
    set (fm := fun h t : R => f (t + h / 2) (Y (t + h / 2))). set (f1 := fun h t : R => f (t + h) (Y (t + h))).
    set (e2 := fun (v : part -> R) (h t : R) => v (p2 h t) - v (Y (t + h / 2))).
    set (e3 := fun (v : part -> R) (h t : R) => v (p3 h t) - v (Y (t + h / 2))).
    set (e4 := fun (v : part -> R) (h t : R) => v (p4 h t) - v (Y (t + h))).
    pose proof (big_less h1 T H1) as Ls.
    (* quadrature *)
    assert (Q3 : forall v, In v coords -> Big 3 (fun h t => 2 * v (Y t) + h / 2 * (v (k1 h t) + v (fm h t)) - 2 * v (Y (t + h / 2)))).
    { intros v Hv. destruct (H5 v Hv) as (y1 & y2 & y3 & y4 & y5 & M & M0 & E1 & D1 & D2 & D3 & D4 & B).
      apply (big_ext h1 T 3 (fun h t => 2 * v (Y t) + h / 2 * (y1 t + y1 (t + h / 2)) - 2 * v (Y (t + h / 2)))).
      - intros h t ((? & ?) & ? & ?). unfold k1, fm. rewrite !E1 by lra. reflexivity.
      - apply (trapezoid_half h1 T (fun s => v (Y s)) y1 y2 y3) with (M := M);
          try assumption; intros s Hs; try (rewrite E1 by exact Hs; apply HY); try apply B; assumption. }
    assert (Q4 : forall v, In v coords -> Big 4 (fun h t => 5 * v (Y t) - 4 * v (Y (t + h / 2)) - v (Y (t + h)) + h * v (k1 h t) + 2 * (h * v (fm h t)))).
    { intros v Hv. destruct (H5 v Hv) as (y1 & y2 & y3 & y4 & y5 & M & M0 & E1 & D1 & D2 & D3 & D4 & B).
      apply (big_ext h1 T 4 (fun h t => 5 * v (Y t) - 4 * v (Y (t + h / 2)) - v (Y (t + h)) + h * y1 t + 2 * (h * y1 (t + h / 2)))).
      - intros h t ((? & ?) & ? & ?). unfold k1, fm. rewrite !E1 by lra. reflexivity.
      - apply (stages_rule h1 T (fun s => v (Y s)) y1 y2 y3 y4) with (M := M);
          try assumption; intros s Hs; try (rewrite E1 by exact Hs; apply HY); try apply B; assumption. }
    assert (E2 : forall v, In v coords -> Big 2 (e2 v)).
    { intros v Hv. apply (big_ext h1 T 2 (fun h t => - (v (Y (t + h / 2)) - v (Y t) - h / 2 * v (f t (Y t))))).
      - intros h t _. unfold e2, p2. rewrite coord_step by exact Hv. unfold k1. ring.
      - apply big_opp, (motion_first q m h1 T H1 G HG Y HY v Hv). }
    assert (F2 : forall v, In v coords -> Big 2 (fun h t => v (k2 h t) - v (fm h t))).
    { apply (big_rhs q m h1 T H1 G HG 2 (fun h t => t + h / 2) p2 (fun h t => Y (t + h / 2))). exact E2. }
    assert (E23 : forall v, In v coords -> Big 3 (fun h t => e2 v h t + e3 v h t)).
    { intros v Hv. apply (big_ext h1 T 3 (fun h t => (2 * v (Y t) + h / 2 * (v (k1 h t) + v (fm h t)) - 2 * v (Y (t + h / 2)))
         + h * (/ 2 * (v (k2 h t) - v (fm h t))))).
      - intros h t _. unfold e2, e3, p2, p3. rewrite !coord_step by exact Hv. field.
      - apply big_plus; [apply Q3, Hv|]. apply (big_mult h1 T 1 2 (fun h _ => h)); [apply big_h|]. apply big_scal, F2, Hv. }
    assert (E3 : forall v, In v coords -> Big 2 (e3 v)).
    { intros v Hv. apply (big_ext h1 T 2 (fun h t => (e2 v h t + e3 v h t) - e2 v h t)); [intros; ring|].
      apply big_minus; [apply Ls, E23, Hv|apply E2, Hv]. }
    assert (F3 : forall v, In v coords -> Big 2 (fun h t => v (k3 h t) - v (fm h t))).
    { apply (big_rhs q m h1 T H1 G HG 2 (fun h t => t + h / 2) p3 (fun h t => Y (t + h / 2))). exact E3. }
    assert (Tm : forall h t, ad h1 T h t -> 0 <= t + h / 2 <= T /\ 0 <= t + h <= T) by (intros h t ((? & ?) & ? & ?); lra).
    (* second-order remainder of a stage *)
    assert (St : forall (v : part -> R) (J : R -> part) B (tm : R -> R -> R) (P : R -> R -> part) k, 0 <= B ->
      (forall s p, 0 <= s <= T -> Rabs (v (f s p) - v (f s (Y s)) - dot (J s) p (Y s)) <= B * (pdist p (Y s) * pdist p (Y s))) ->
      (forall h t, ad h1 T h t -> 0 <= tm h t <= T) -> (forall u, In u coords -> Big k (fun h t => u (P h t) - u (Y (tm h t)))) ->
      Big (k + k) (fun h t => v (f (tm h t) (P h t)) - v (f (tm h t) (Y (tm h t))) - dot (J (tm h t)) (P h t) (Y (tm h t)))).
    { intros v J B tm P k B0 HB Ht HP. pose proof (big_pdist h1 T H1 k P (fun h t => Y (tm h t)) HP) as Pd.
      apply (big_le h1 T (k + k) _ (fun h t => B * (pdist (P h t) (Y (tm h t)) * pdist (P h t) (Y (tm h t))))).
      - apply big_scal, (big_mult h1 T k k (fun h t => pdist (P h t) (Y (tm h t)))); exact Pd.
      - intros h t A. eapply Rle_trans; [apply HB, Ht, A|apply Rle_abs]. }
    assert (F23 : forall v, In v coords -> Big 3 (fun h t => (v (k2 h t) - v (fm h t)) + (v (k3 h t) - v (fm h t)))).
    { intros v Hv. destruct (linear_everywhere v Hv) as (J & B & B0 & HJ & HB).
      pose proof (St v J B (fun h t => t + h / 2) p2 2%nat B0 HB (fun h t A => proj1 (Tm h t A)) E2) as S2.
      pose proof (St v J B (fun h t => t + h / 2) p3 2%nat B0 HB (fun h t A => proj1 (Tm h t A)) E3) as S3.
      apply (big_ext h1 T 3 (fun h t => ((v (k2 h t) - v (fm h t) - dot (J (t + h / 2)) (p2 h t) (Y (t + h / 2)))
         + (v (k3 h t) - v (fm h t) - dot (J (t + h / 2)) (p3 h t) (Y (t + h / 2))))
         + six (fun u => u (J (t + h / 2)) * (e2 u h t + e3 u h t)))).
      - intros h t _. rewrite !dot_six. unfold six, e2, e3. ring.
      - apply big_plus; [apply big_plus; apply Ls; assumption|]. apply (big_six h1 T 3 (fun u h t => u (J (t + h / 2)) * (e2 u h t + e3 u h t))).
        intros w Hw. apply (big_mult h1 T 0 3 (fun h t => w (J (t + h / 2)))); [|apply E23, Hw].
        exists B. split; [exact B0|]. intros h t A. cbn. rewrite Rmult_1_r. apply (HJ w Hw). exact (proj1 (Tm h t A)). }
    assert (E4 : forall v, In v coords -> Big 3 (e4 v)).
    { intros v Hv. destruct (H5 v Hv) as (y1 & y2 & y3 & y4 & y5 & M & M0 & E1 & D1 & D2 & D3 & D4 & B).
      apply (big_ext h1 T 3 (fun h t => (5 * v (Y t) - 4 * v (Y (t + h / 2)) - v (Y (t + h)) + h * v (k1 h t) + 2 * (h * v (fm h t)))
         + (-2) * (2 * v (Y t) + h / 2 * (v (k1 h t) + v (fm h t)) - 2 * v (Y (t + h / 2))) + h * (v (k3 h t) - v (fm h t)))).
      - intros h t _. unfold e4, p4. rewrite coord_step by exact Hv. field.
      - apply big_plus; [apply big_plus; [apply Ls, Q4, Hv|apply big_scal, Q3, Hv]|].
        apply (big_mult h1 T 1 2 (fun h _ => h)); [apply big_h|apply F3, Hv]. }
    assert (E234 : forall v, In v coords -> Big 4 (fun h t => 2 * e2 v h t + 2 * e3 v h t + e4 v h t)).
    { intros v Hv. apply (big_ext h1 T 4 (fun h t => (5 * v (Y t) - 4 * v (Y (t + h / 2)) - v (Y (t + h)) + h * v (k1 h t) + 2 * (h * v (fm h t)))
         + h * ((v (k2 h t) - v (fm h t)) + (v (k3 h t) - v (fm h t))))).
      - intros h t _. unfold e2, e3, e4, p2, p3, p4. rewrite !coord_step by exact Hv. field.
      - apply big_plus; [apply Q4, Hv|]. apply (big_mult h1 T 1 3 (fun h _ => h)); [apply big_h|apply F23, Hv]. }
    intros Hu. destruct (linear_everywhere u Hu) as (J & B & B0 & HJ & HB).
    pose proof (St u J B (fun h t => t + h / 2) p2 2%nat B0 HB (fun h t A => proj1 (Tm h t A)) E2) as S2.
    pose proof (St u J B (fun h t => t + h / 2) p3 2%nat B0 HB (fun h t A => proj1 (Tm h t A)) E3) as S3.
    pose proof (St u J B (fun h t => t + h) p4 3%nat B0 HB (fun h t A => proj2 (Tm h t A)) E4) as S4. cbn [Nat.add] in S2, S3, S4.
    apply (big_ext h1 T 4 (fun h t => / 6 * (2 * (u (k2 h t) - u (fm h t) - dot (J (t + h / 2)) (p2 h t) (Y (t + h / 2)))
      + 2 * (u (k3 h t) - u (fm h t) - dot (J (t + h / 2)) (p3 h t) (Y (t + h / 2)))
      + (u (k4 h t) - u (f1 h t) - dot (J (t + h)) (p4 h t) (Y (t + h)))
      + six (fun v => v (J (t + h / 2)) * (2 * e2 v h t + 2 * e3 v h t + e4 v h t) + (v (J (t + h)) - v (J (t + h / 2))) * e4 v h t)))).
    - intros h t _. change (phi_rk4 q m G (Z h t)) with (pscal (/ 6) (padd (k1 h t) (padd (pscal 2 (k2 h t)) (padd (pscal 2 (k3 h t)) (k4 h t))))).
      assert (Ec : u (pscal (/ 6) (padd (k1 h t) (padd (pscal 2 (k2 h t)) (padd (pscal 2 (k3 h t)) (k4 h t)))))
                   = / 6 * (u (k1 h t) + (2 * u (k2 h t) + (2 * u (k3 h t) + u (k4 h t))))) by (each Hu; reflexivity).
      rewrite Ec. change (u (f t (Y t))) with (u (k1 h t)). change (u (f (t + h / 2) (Y (t + h / 2)))) with (u (fm h t)).
      change (u (f (t + h) (Y (t + h)))) with (u (f1 h t)). rewrite !dot_six. unfold six, e2, e3, e4. field.
    - apply big_scal, big_plus; [apply big_plus; [apply big_plus; apply big_scal; assumption|apply Ls, Ls, S4]|].
      apply (big_six h1 T 4 (fun v h t => v (J (t + h / 2)) * (2 * e2 v h t + 2 * e3 v h t + e4 v h t) + (v (J (t + h)) - v (J (t + h / 2))) * e4 v h t)).
      intros v Hv. apply big_plus.
      + apply (big_mult h1 T 0 4 (fun h t => v (J (t + h / 2)))); [|apply E234, Hv].
        exists B. split; [exact B0|]. intros h t A. cbn. rewrite Rmult_1_r. apply (HJ v Hv). exact (proj1 (Tm h t A)).
      + apply (big_mult h1 T 1 3 (fun h t => v (J (t + h)) - v (J (t + h / 2)))); [|apply E4, Hv].
        exists B. split; [exact B0|]. intros h t A. destruct (Tm h t A) as [A1 A2]. eapply Rle_trans; [apply (HJ v Hv); assumption|].
        apply Rmult_le_compat_l; [exact B0|]. cbn [pow]. rewrite Rmult_1_r. destruct A as ((A3 & _) & _).
        replace (t + h - (t + h / 2)) with (h / 2) by field. rewrite Rabs_right; lra.
  Qed.
  Lemma fifth_order : Big 5 (fun h t => pdist (one_step (phi_rk4 q m G) h t (Y t)) (Y (t + h))).
  Proof.
    apply (big_pdist h1 T H1 5 (fun h t => one_step (phi_rk4 q m G) h t (Y t)) (fun h t => Y (t + h))). intros u Hu.
    apply (big_ext h1 T 5 (fun h t => - (u (Y (t + h)) - u (Y t) - h * (/ 6 * (u (f t (Y t)) + 4 * u (f (t + h / 2) (Y (t + h / 2))) + u (f (t + h) (Y (t + h))))))
      + h * (u (phi_rk4 q m G (Z h t)) - / 6 * (u (f t (Y t)) + 4 * u (f (t + h / 2) (Y (t + h / 2))) + u (f (t + h) (Y (t + h))))))).
    - intros h t _. unfold one_step. rewrite coord_step by exact Hu. ring.
    - apply big_plus.
      + apply big_opp. destruct (H5 u Hu) as (y1 & y2 & y3 & y4 & y5 & M & M0 & E1 & D1 & D2 & D3 & D4 & B).
        apply (big_ext h1 T 5 (fun h t => u (Y (t + h)) - u (Y t) - h * (/ 6 * (y1 t + 4 * y1 (t + h / 2) + y1 (t + h))))).
        { intros h t ((? & ?) & ? & ?). rewrite !E1 by lra. reflexivity. }
        apply (simpson h1 T (fun s => u (Y s)) y1 y2 y3 y4 y5) with (M := M);
          try assumption; intros s Hs; try (rewrite E1 by exact Hs; apply HY); try apply B; assumption.
      + apply (big_mult h1 T 1 4 (fun h _ => h)); [apply big_h|apply rk4_fourth, Hu].
  Qed.
End Fourth.
