(** Lemmas: quantities of a given order in the step, curves with bounded second differences. *)
From Coq Require Import Reals List Lia Lra Psatz.
From Coquelicot Require Import Coquelicot.
From Verif Require Import Model_Push Spec_Push Proofs_Push Spec_Conv Proofs_Conv Proofs_Conv2 Proofs_Conv3 Proofs_Conv4.
Import ListNotations.
Open Scope R_scope.

Section Big.
  Variables h1 T : R.
  Hypothesis H1 : 0 <= h1 <= 1.
  (** Steps of length [h] from time [t]. *)
  Definition ad (h t : R) : Prop := 0 <= h <= h1 /\ 0 <= t /\ t + h <= T.
  (** Of the order of the [k]-th power of the step. *)
  Definition Big (k : nat) (F : R -> R -> R) : Prop :=
    exists C, 0 <= C /\ forall h t, ad h t -> Rabs (F h t) <= C * h ^ k.

  Lemma ad_pow h t k : ad h t -> 0 <= h ^ k <= 1.
  Proof.
    intros ((A & B) & _). split; [apply pow_le, A|]. induction k as [|k IH]; cbn [pow]; [lra|].
    rewrite <- (Rmult_1_r 1). apply Rmult_le_compat; try lra. apply pow_le, A.
  Qed.
  Lemma big_ext k F G : (forall h t, ad h t -> F h t = G h t) -> Big k F -> Big k G.
  Proof. intros E (C & C0 & H). exists C. split; [exact C0|]. intros h t A. rewrite <- E by exact A. apply H, A. Qed.
  Lemma big_plus k F G : Big k F -> Big k G -> Big k (fun h t => F h t + G h t).
  Proof.
    intros (C & C0 & H) (D & D0 & K). exists (C + D). split; [lra|]. intros h t A.
    eapply Rle_trans; [apply Rabs_triang|]. specialize (H h t A). specialize (K h t A). lra.
  Qed.
  Lemma big_opp k F : Big k F -> Big k (fun h t => - F h t).
  Proof. intros (C & C0 & H). exists C. split; [exact C0|]. intros h t A. rewrite Rabs_Ropp. apply H, A. Qed.
  Lemma big_minus k F G : Big k F -> Big k G -> Big k (fun h t => F h t - G h t).
  Proof. intros H K. apply (big_plus k F (fun h t => - G h t)); [exact H|apply big_opp, K]. Qed.
  Lemma big_mult j k F G : Big j F -> Big k G -> Big (j + k) (fun h t => F h t * G h t).
  Proof.
    intros (C & C0 & H) (D & D0 & K). exists (C * D). split; [apply Rmult_le_pos; assumption|]. intros h t A.
    rewrite Rabs_mult, pow_add. replace (C * D * (h ^ j * h ^ k)) with ((C * h ^ j) * (D * h ^ k)) by ring.
    apply Rmult_le_compat; try apply Rabs_pos; [apply H, A|apply K, A].
  Qed.
  Lemma big_const c : Big 0 (fun _ _ => c).
  Proof. exists (Rabs c). split; [apply Rabs_pos|]. intros. cbn. lra. Qed.
  Lemma big_h : Big 1 (fun h _ => h).
  Proof. exists 1. split; [lra|]. intros h t ((A & _) & _). rewrite Rabs_right by lra. cbn. lra. Qed.
  Lemma big_less k F : Big (S k) F -> Big k F.
  Proof.
    intros (C & C0 & H). exists C. split; [exact C0|]. intros h t A. eapply Rle_trans; [apply H, A|].
    apply Rmult_le_compat_l; [exact C0|]. cbn [pow]. pose proof (ad_pow h t k A). destruct A as ((A & B) & _).
    rewrite <- (Rmult_1_l (h ^ k)) at 2. apply Rmult_le_compat_r; lra.
  Qed.
  Lemma big_le k F G : Big k G -> (forall h t, ad h t -> Rabs (F h t) <= Rabs (G h t)) -> Big k F.
  Proof. intros (C & C0 & H) L. exists C. split; [exact C0|]. intros h t A. eapply Rle_trans; [apply L, A|apply H, A]. Qed.
  Lemma big_scal k c F : Big k F -> Big k (fun h t => c * F h t).
  Proof. intros H. apply (big_mult 0 k (fun _ _ => c) F (big_const c) H). Qed.
  Lemma big_abs k F : Big k F -> Big k (fun h t => Rabs (F h t)).
  Proof. intros (C & C0 & H). exists C. split; [exact C0|]. intros h t A. rewrite Rabs_Rabsolu. apply H, A. Qed.
  (** Products of nearby factors. *)
  Lemma big_near_mult k F G F' G' : Big 0 F -> Big 0 G' -> Big k (fun h t => F h t - F' h t) -> Big k (fun h t => G h t - G' h t) ->
    Big k (fun h t => F h t * G h t - F' h t * G' h t).
  Proof.
    intros B1 B2 D1 D2.
    apply (big_ext k (fun h t => F h t * (G h t - G' h t) + G' h t * (F h t - F' h t))); [intros; ring|].
    apply big_plus; apply (big_mult 0 k); assumption.
  Qed.
  Lemma big_near_bound k F F' : Big 0 F' -> Big k (fun h t => F h t - F' h t) -> Big 0 F.
  Proof.
    intros B D. apply (big_ext 0 (fun h t => F' h t + (F h t - F' h t))); [intros; ring|]. apply big_plus; [exact B|].
    clear B. induction k as [|k IH]; [exact D|apply IH, big_less, D].
  Qed.
  (** Quotients of nearby denominators. *)
  Lemma big_near_inv k F F' : (forall h t, ad h t -> 1 <= F h t) -> (forall h t, ad h t -> 1 <= F' h t) ->
    Big k (fun h t => F h t - F' h t) -> Big k (fun h t => / F h t - / F' h t).
  Proof.
    intros L L' D. apply (big_le k _ _ D). intros h t A. specialize (L h t A). specialize (L' h t A).
    replace (/ F h t - / F' h t) with (- ((F h t - F' h t) * (/ F h t * / F' h t))) by (field; lra).
    rewrite Rabs_Ropp, Rabs_mult. rewrite <- (Rmult_1_r (Rabs (F h t - F' h t))) at 2. apply Rmult_le_compat_l; [apply Rabs_pos|].
    assert (I : forall a, 1 <= a -> 0 < / a <= 1).
    { intros a Ha. split; [apply Rinv_0_lt_compat; lra|]. rewrite <- Rinv_1. apply Rinv_le_contravar; lra. }
    pose proof (I _ L). pose proof (I _ L').
    rewrite Rabs_right; [|apply Rle_ge, Rmult_le_pos; lra]. rewrite <- (Rmult_1_r 1). apply Rmult_le_compat; lra.
  Qed.
  (** Roots. *)
  Lemma big_near_root k F F' : (forall h t, ad h t -> 1 <= F h t) -> (forall h t, ad h t -> 1 <= F' h t) ->
    Big k (fun h t => F h t * F h t - F' h t * F' h t) -> Big k (fun h t => F h t - F' h t).
  Proof.
    intros L L' D. apply (big_le k _ _ D). intros h t A. specialize (L h t A). specialize (L' h t A).
    replace (F h t * F h t - F' h t * F' h t) with ((F h t - F' h t) * (F h t + F' h t)) by ring. rewrite Rabs_mult.
    rewrite <- (Rmult_1_r (Rabs (F h t - F' h t))) at 1. apply Rmult_le_compat_l; [apply Rabs_pos|]. rewrite Rabs_right; lra.
  Qed.

  (** Curves. *)
  Definition second (g : R -> R) (h t : R) : R := g (t + h) + g t - 2 * g (t + h / 2).
  Definition C11 (g : R -> R) : Prop :=
    Big 0 (fun h t => g (t + h)) /\ Big 0 (fun h t => g (t + h / 2)) /\ Big 0 (fun h t => g t) /\
    Big 1 (fun h t => g (t + h) - g t) /\ Big 2 (second g).
  Lemma c11_half g : C11 g -> Big 1 (fun h t => g (t + h / 2) - g t) /\ Big 1 (fun h t => g (t + h) - g (t + h / 2)).
  Proof.
    intros (_ & _ & _ & D & S2). apply big_less in S2.
    assert (A : Big 1 (fun h t => g (t + h / 2) - g t)).
    { apply (big_ext 1 (fun h t => / 2 * ((g (t + h) - g t) - second g h t))).
      - intros. unfold second. field.
      - apply big_scal, big_minus; assumption. }
    split; [exact A|]. apply (big_ext 1 (fun h t => (g (t + h) - g t) - (g (t + h / 2) - g t))); [intros; ring|].
    apply big_minus; assumption.
  Qed.
  Lemma c11_ext g g' : (forall s, 0 <= s <= T -> g s = g' s) -> C11 g -> C11 g'.
  Proof.
    intros E (A & B & C & D & S2).
    assert (E0 : forall h t, ad h t -> g t = g' t) by (intros h t ((? & ?) & ? & ?); apply E; lra).
    assert (Em : forall h t, ad h t -> g (t + h / 2) = g' (t + h / 2)) by (intros h t ((? & ?) & ? & ?); apply E; lra).
    assert (E1 : forall h t, ad h t -> g (t + h) = g' (t + h)) by (intros h t ((? & ?) & ? & ?); apply E; lra).
    split; [|split; [|split; [|split]]].
    - eapply big_ext; [|exact A]. intros. apply (E1 h t); assumption.
    - eapply big_ext; [|exact B]. intros. apply (Em h t); assumption.
    - eapply big_ext; [|exact C]. intros. apply (E0 h t); assumption.
    - eapply big_ext; [|exact D]. intros h t Ha. cbv beta. rewrite (E1 h t Ha), (E0 h t Ha). reflexivity.
    - eapply big_ext; [|exact S2]. intros h t Ha. unfold second. rewrite (E1 h t Ha), (E0 h t Ha), (Em h t Ha). reflexivity.
  Qed.
  Lemma c11_const c : C11 (fun _ => c).
  Proof.
    split; [apply big_const|]. split; [apply big_const|]. split; [apply big_const|]. split.
    - exists 0. split; [lra|]. intros. replace (c - c) with 0 by ring. rewrite Rabs_R0. lra.
    - exists 0. split; [lra|]. intros. unfold second. replace (c + c - 2 * c) with 0 by ring. rewrite Rabs_R0. lra.
  Qed.
  Lemma c11_plus f g : C11 f -> C11 g -> C11 (fun s => f s + g s).
  Proof.
    intros (A & B & C & D & S2) (A' & B' & C' & D' & S2').
    split; [apply big_plus; assumption|]. split; [apply big_plus; assumption|]. split; [apply big_plus; assumption|]. split.
    - apply (big_ext 1 (fun h t => (f (t + h) - f t) + (g (t + h) - g t))); [intros; ring|]. apply big_plus; assumption.
    - apply (big_ext 2 (fun h t => second f h t + second g h t)); [intros; unfold second; ring|]. apply big_plus; assumption.
  Qed.
  Lemma c11_mult f g : C11 f -> C11 g -> C11 (fun s => f s * g s).
  Proof.
    intros Hf Hg. destruct (c11_half f Hf) as [F1 F2]. destruct (c11_half g Hg) as [G1 G2].
    destruct Hf as (A & B & C & D & S2), Hg as (A' & B' & C' & D' & S2').
    split; [apply (big_mult 0 0); assumption|]. split; [apply (big_mult 0 0); assumption|]. split; [apply (big_mult 0 0); assumption|]. split.
    - apply (big_ext 1 (fun h t => f (t + h) * (g (t + h) - g t) + g t * (f (t + h) - f t))); [intros; ring|].
      apply big_plus; apply (big_mult 0 1); assumption.
    - apply (big_ext 2 (fun h t => f (t + h / 2) * second g h t + g (t + h / 2) * second f h t
        + (f (t + h) - f (t + h / 2)) * (g (t + h) - g (t + h / 2)) + (f (t + h / 2) - f t) * (g (t + h / 2) - g t))).
      + intros. unfold second. ring.
      + apply big_plus; [apply big_plus; [apply big_plus; apply (big_mult 0 2); assumption|]|]; apply (big_mult 1 1); assumption.
  Qed.
  Lemma c11_opp f : C11 f -> C11 (fun s => - f s).
  Proof.
    intros H. apply (c11_ext (fun s => -1 * f s)); [intros; ring|]. apply (c11_mult (fun _ => -1)); [apply c11_const|exact H].
  Qed.
  Lemma c11_minus f g : C11 f -> C11 g -> C11 (fun s => f s - g s).
  Proof. intros Hf Hg. apply (c11_plus f (fun s => - g s)); [exact Hf|apply c11_opp, Hg]. Qed.
  Lemma c11_root f : (forall s, 1 <= f s) -> C11 (fun s => f s * f s) -> C11 f.
  Proof.
    intros L (A & B & C & D & S2).
    assert (Bd : forall k, Big 0 (fun h t => f (k h t) * f (k h t)) -> Big 0 (fun h t => f (k h t))).
    { intros k Hk. apply (big_le 0 _ _ Hk). intros h t _. specialize (L (k h t)). rewrite Rabs_mult.
      rewrite <- (Rmult_1_r (Rabs (f (k h t)))) at 1. apply Rmult_le_compat_l; [apply Rabs_pos|]. rewrite Rabs_right; lra. }
    assert (D1 : Big 1 (fun h t => f (t + h) - f t)) by (apply big_near_root; auto).
    assert (D2 : Big 1 (fun h t => f (t + h / 2) - f t)).
    { apply big_near_root; auto. apply (big_ext 1 (fun h t => / 2 * ((f (t + h) * f (t + h) - f t * f t) - second (fun s => f s * f s) h t))).
      - intros. unfold second. field.
      - apply big_scal, big_minus; [exact D|apply big_less, S2]. }
    split; [apply (Bd (fun h t => t + h)), A|]. split; [apply (Bd (fun h t => t + h / 2)), B|]. split; [apply (Bd (fun h t => t)), C|].
    split; [exact D1|].
    assert (D3 : Big 1 (fun h t => f (t + h) - f (t + h / 2))).
    { apply (big_ext 1 (fun h t => (f (t + h) - f t) - (f (t + h / 2) - f t))); [intros; ring|]. apply big_minus; assumption. }
    assert (E : Big 2 (fun h t => second (fun s => f s * f s) h t - (f (t + h) - f (t + h / 2)) * (f (t + h) - f (t + h / 2))
                         - (f (t + h / 2) - f t) * (f (t + h / 2) - f t))).
    { apply big_minus; [apply big_minus; [exact S2|]|]; apply (big_mult 1 1); assumption. }
    apply (big_le 2 _ _ E). intros h t _. specialize (L (t + h / 2)).
    replace (second (fun s => f s * f s) h t - (f (t + h) - f (t + h / 2)) * (f (t + h) - f (t + h / 2))
                         - (f (t + h / 2) - f t) * (f (t + h / 2) - f t)) with (second f h t * (2 * f (t + h / 2))) by (unfold second; ring).
    rewrite Rabs_mult. rewrite <- (Rmult_1_r (Rabs (second f h t))) at 1. apply Rmult_le_compat_l; [apply Rabs_pos|]. rewrite Rabs_right; lra.
  Qed.
  Lemma c11_inv f : (forall s, 1 <= f s) -> C11 f -> C11 (fun s => / f s).
  Proof.
    intros L Hf. pose proof (c11_half f Hf) as [F1 F2]. pose proof Hf as (A & B & C & D & S2).
    assert (Bd : forall k : R -> R -> R, Big 0 (fun h t => / f (k h t))).
    { intros k. exists 1. split; [lra|]. intros h t _. specialize (L (k h t)). cbn. rewrite Rabs_right.
      - rewrite Rmult_1_r, <- Rinv_1. apply Rinv_le_contravar; lra.
      - apply Rle_ge, Rlt_le, Rinv_0_lt_compat. lra. }
    assert (D1 : Big 1 (fun h t => / f (t + h) - / f t)) by (apply big_near_inv; auto).
    assert (D2 : Big 1 (fun h t => / f (t + h / 2) - / f t)) by (apply big_near_inv; auto).
    assert (D3 : Big 1 (fun h t => / f (t + h) - / f (t + h / 2))) by (apply big_near_inv; auto).
    split; [apply (Bd (fun h t => t + h))|]. split; [apply (Bd (fun h t => t + h / 2))|]. split; [apply (Bd (fun h t => t))|].
    split; [exact D1|].
    assert (E : Big 2 (fun h t => - (/ f (t + h / 2) * second f h t + (f (t + h) - f (t + h / 2)) * (/ f (t + h) - / f (t + h / 2))
                         + (f (t + h / 2) - f t) * (/ f (t + h / 2) - / f t)))).
    { apply big_opp, big_plus; [apply big_plus; [apply (big_mult 0 2); [apply (Bd (fun h t => t + h / 2))|exact S2]|]|]; apply (big_mult 1 1); assumption. }
    apply (big_le 2 _ _ E). intros h t _. pose proof (L (t + h / 2)) as L2. pose proof (L t) as L0. pose proof (L (t + h)) as L1.
    match goal with |- _ <= Rabs ?e => replace e with (second (fun s => / f s) h t * f (t + h / 2)) by (unfold second; field; lra) end.
    rewrite Rabs_mult. rewrite <- (Rmult_1_r (Rabs (second _ h t))) at 1. apply Rmult_le_compat_l; [apply Rabs_pos|]. rewrite Rabs_right; lra.
  Qed.
  Lemma c11_gam a b c : C11 a -> C11 b -> C11 c -> C11 (fun s => gam (a s) (b s) (c s)).
  Proof.
    intros Ha Hb Hc. apply c11_root; [intros; apply gam_ge1|].
    apply (c11_ext (fun s => 1 + (a s * a s + b s * b s + c s * c s))).
    - intros s _. unfold gam. symmetry. apply sqrt_sqrt.
      pose proof (Rle_0_sqr (a s)). pose proof (Rle_0_sqr (b s)). pose proof (Rle_0_sqr (c s)). unfold Rsqr in *. lra.
    - apply (c11_plus (fun _ => 1)); [apply c11_const|]. apply c11_plus; [apply c11_plus|]; apply c11_mult; assumption.
  Qed.

  (** Curves with a given velocity. *)
  Section Along.
    Variables U g : R -> R.
    Hypothesis HU : forall s, 0 <= s <= T -> is_derive U s (g s).
    Lemma along_mvt t s : 0 <= t -> t <= s -> s <= T -> exists c, t <= c <= s /\ U s - U t = g c * (s - t).
    Proof.
      intros H0 H2 H3. destruct (MVT_gen U t s g) as (c & Hc & E).
      - intros v Hv. rewrite Rmin_left, Rmax_right in Hv by assumption. apply HU; lra.
      - intros v Hv. rewrite Rmin_left, Rmax_right in Hv by assumption. apply continuity_pt_filterlim.
        apply (ex_derive_continuous U v). exists (g v). apply HU; lra.
      - rewrite Rmin_left, Rmax_right in Hc by assumption. exists c. split; [exact Hc|exact E].
    Qed.
    Variables M L : R.
    Hypothesis M0 : 0 <= M.
    Hypothesis L0 : 0 <= L.
    Hypothesis HM : forall s, 0 <= s <= T -> Rabs (g s) <= M.
    Hypothesis HL : forall s s', 0 <= s <= T -> 0 <= s' <= T -> Rabs (s - s') <= h1 -> Rabs (g s - g s') <= L * Rabs (s - s').
    Lemma along_move t s : 0 <= t -> t <= s -> s <= T -> Rabs (U s - U t) <= M * (s - t).
    Proof.
      intros A B C. destruct (along_mvt t s A B C) as (c & Hc & ->). rewrite Rabs_mult, (Rabs_right (s - t)) by lra.
      apply Rmult_le_compat_r; [lra|]. apply HM. lra.
    Qed.
    (** To first order. *)
    Lemma along_first : Big 2 (fun h t => U (t + h / 2) - U t - h / 2 * g t).
    Proof.
      exists L. split; [exact L0|]. intros h t ((A & A') & B & C). destruct (along_mvt t (t + h / 2)) as (c & Hc & ->); [lra|lra|lra|].
      replace (g c * (t + h / 2 - t) - h / 2 * g t) with (h / 2 * (g c - g t)) by ring. rewrite Rabs_mult, (Rabs_right (h / 2)) by lra.
      assert (Q : Rabs (g c - g t) <= L * h).
      { eapply Rle_trans; [apply HL; try lra; rewrite Rabs_right; lra|]. apply Rmult_le_compat_l; [exact L0|]. rewrite Rabs_right; lra. }
      cbn [pow]. rewrite Rmult_1_r. assert (0 <= h * (L * h)) by (apply Rmult_le_pos; [lra|apply Rmult_le_pos; lra]).
      apply Rle_trans with (h / 2 * (L * h)); [apply Rmult_le_compat_l; lra|]. lra.
    Qed.
    Lemma along_second : Big 2 (second U).
    Proof.
      exists L. split; [exact L0|]. intros h t ((A & A') & B & C). unfold second.
      destruct (along_mvt (t + h / 2) (t + h)) as (c & Hc & E); [lra|lra|lra|].
      destruct (along_mvt t (t + h / 2)) as (c' & Hc' & E'); [lra|lra|lra|].
      replace (U (t + h) + U t - 2 * U (t + h / 2)) with ((U (t + h) - U (t + h / 2)) - (U (t + h / 2) - U t)) by ring.
      rewrite E, E'. replace (g c * (t + h - (t + h / 2)) - g c' * (t + h / 2 - t)) with (h / 2 * (g c - g c')) by field.
      rewrite Rabs_mult, (Rabs_right (h / 2)) by lra.
      assert (Q : Rabs (g c - g c') <= L * h).
      { eapply Rle_trans; [apply HL; try lra; rewrite Rabs_right; lra|]. apply Rmult_le_compat_l; [exact L0|]. rewrite Rabs_right; lra. }
      cbn [pow]. rewrite Rmult_1_r. assert (0 <= h * (L * h)) by (apply Rmult_le_pos; [lra|apply Rmult_le_pos; lra]).
      apply Rle_trans with (h / 2 * (L * h)); [apply Rmult_le_compat_l; lra|]. lra.
    Qed.
    Lemma along_first_diff : Big 1 (fun h t => U (t + h) - U t).
    Proof.
      exists M. split; [exact M0|]. intros h t ((A & A') & B & C). eapply Rle_trans; [apply along_move; lra|]. cbn. right. ring.
    Qed.
    Lemma along_c11 : C11 U.
    Proof.
      assert (Bd : forall s, 0 <= s <= T -> Rabs (U s) <= Rabs (U 0) + M * T).
      { intros s Hs. pose proof (along_move 0 s ltac:(lra) ltac:(lra) ltac:(lra)) as B.
        replace (U s) with (U 0 + (U s - U 0)) by ring. eapply Rle_trans; [apply Rabs_triang|].
        assert (M * (s - 0) <= M * T) by (apply Rmult_le_compat_l; lra). lra. }
      assert (Cb : forall k, (forall h t, ad h t -> 0 <= k h t <= T) -> Big 0 (fun h t => U (k h t))).
      { intros k Hk. exists (Rabs (Rabs (U 0) + M * T)). split; [apply Rabs_pos|]. intros h t A. cbn. rewrite Rmult_1_r.
        eapply Rle_trans; [apply Bd, Hk, A|apply Rle_abs]. }
      split; [apply (Cb (fun h t => t + h)); intros h t ((? & ?) & ? & ?); lra|].
      split; [apply (Cb (fun h t => t + h / 2)); intros h t ((? & ?) & ? & ?); lra|].
      split; [apply (Cb (fun h t => t)); intros h t ((? & ?) & ? & ?); lra|].
      split; [apply along_first_diff|apply along_second].
    Qed.
    (** The midpoint rule. *)
    Lemma along_third : Big 2 (second g) -> Big 3 (fun h t => U (t + h) - U t - h * g (t + h / 2)).
    Proof.
      intros (C & C0 & H). exists C. split; [exact C0|]. intros h t ((A & A') & B & D).
      set (m := t + h / 2). set (phi := fun s => U (m + s) - U (m - s) - 2 * s * g m).
      destruct (MVT_gen phi 0 (h / 2) (fun s => g (m + s) + g (m - s) - 2 * g m)) as (c & Hc & E).
      - intros s Hs. rewrite Rmin_left, Rmax_right in Hs by lra. unfold phi.
        assert (Ds : is_derive (fun s => U (m + s)) s (g (m + s))).
        { pose proof (HU (m + s) ltac:(unfold m in *; lra)) as Hd.
          evar_last; [apply (is_derive_comp U (fun s => m + s) s (g (m + s)) 1 Hd); auto_derive; [exact I|ring]|]. apply Rmult_1_l. }
        assert (Dm : is_derive (fun s => U (m - s)) s (- g (m - s))).
        { pose proof (HU (m - s) ltac:(unfold m in *; lra)) as Hd.
          evar_last; [apply (is_derive_comp U (fun s => m - s) s (g (m - s)) (-1) Hd); auto_derive; [exact I|ring]|].
          change (-1 * g (m - s) = - g (m - s)). ring. }
        evar_last; [apply (is_derive_minus (fun s => U (m + s) - U (m - s)) (fun s => 2 * s * g m) s (g (m + s) - - g (m - s)) (2 * g m));
          [apply (is_derive_minus (fun s => U (m + s)) (fun s => U (m - s))); assumption|auto_derive; [exact I|ring]]|].
        change (g (m + s) - - g (m - s) - 2 * g m = g (m + s) + g (m - s) - 2 * g m). ring.
      - intros s Hs. rewrite Rmin_left, Rmax_right in Hs by lra. apply continuity_pt_filterlim.
        apply (ex_derive_continuous phi s). unfold phi. auto_derive.
        split; [exists (g (m + s)); apply HU; unfold m in *; lra|]. split; [|exact I]. exists (g (m + - s)). apply HU. unfold m in *. lra.
      - rewrite Rmin_left, Rmax_right in Hc by lra.
        assert (E' : U (t + h) - U t - h * g m = (g (m + c) + g (m - c) - 2 * g m) * (h / 2)).
        { unfold phi in E. replace (m + h / 2) with (t + h) in E by (unfold m; field). replace (m - h / 2) with t in E by (unfold m; field).
          rewrite Rplus_0_r, Rminus_0_r in E. lra. }
        rewrite E', Rabs_mult, (Rabs_right (h / 2)) by lra.
        assert (Hs : ad (2 * c) (m - c)) by (unfold ad, m; lra).
        pose proof (H (2 * c) (m - c) Hs) as Q. unfold second in Q.
        replace (m - c + 2 * c) with (m + c) in Q by ring. replace (m - c + 2 * c / 2) with m in Q by field.
        assert (P2 : (2 * c) ^ 2 <= h ^ 2) by (apply pow_incr; lra).
        apply Rle_trans with (C * h ^ 2 * (h / 2)).
        + apply Rmult_le_compat_r; [lra|]. eapply Rle_trans; [exact Q|]. apply Rmult_le_compat_l; [exact C0|exact P2].
        + assert (0 <= C * h ^ 2 * (h / 2)) by (apply Rmult_le_pos; [apply Rmult_le_pos; [exact C0|apply pow_le; lra]|lra]).
          replace (C * h ^ 3) with (C * h ^ 2 * (h / 2) + C * h ^ 2 * (h / 2)) by (cbn [pow]; field). lra.
    Qed.
  End Along.
End Big.
