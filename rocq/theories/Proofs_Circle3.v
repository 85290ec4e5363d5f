(** Proofs for C119: the exact motion in a uniform magnetic field. *)
From Coq Require Import Reals List Lra.
From Coquelicot Require Import Coquelicot.
From Verif Require Import Model_Push Spec_Push Proofs_Push Spec_Conv Spec_Circle Proofs_Circle Proofs_Circle2.
Open Scope R_scope.

(** Zero derivative on an interval. *)
Lemma constant_on (f : R -> R) T : (forall t, 0 <= t <= T -> is_derive f t 0) -> forall t, 0 <= t <= T -> f t = f 0.
Proof.
  intros H t Ht. destruct (MVT_gen f 0 t (fun _ => 0)) as (c & _ & E).
  - intros u Hu. rewrite Rmin_left, Rmax_right in Hu by lra. apply H. lra.
  - intros u Hu. rewrite Rmin_left, Rmax_right in Hu by lra. apply derivable_continuous_pt. exists 0. apply is_derive_Reals, H. lra.
  - lra.
Qed.
Lemma der (f : R -> R) (t l l' : R) : is_derive f t l' -> l' = l -> is_derive f t l.
Proof. intros H <-. exact H. Qed.
Lemma der_sq (f1 f2 f3 : R -> R) (d1 d2 d3 u : R) : is_derive f1 u d1 -> is_derive f2 u d2 -> is_derive f3 u d3 ->
  is_derive (fun t => f1 t * f1 t + f2 t * f2 t + f3 t * f3 t) u (2 * (f1 u * d1 + f2 u * d2 + f3 u * d3)).
Proof.
  intros H1 H2 H3. auto_derive.
  - repeat split; eexists; eassumption.
  - pose proof (is_derive_unique f1 u _ H1) as E1. pose proof (is_derive_unique f2 u _ H2) as E2. pose proof (is_derive_unique f3 u _ H3) as E3.
    change (Derive (fun x => f1 x) u = d1) in E1. change (Derive (fun x => f2 x) u = d2) in E2. change (Derive (fun x => f3 x) u = d3) in E3.
    rewrite E1, E2, E3. ring.
Qed.
Lemma der_minus (f g : R -> R) (u d e : R) : is_derive f u d -> is_derive g u e -> is_derive (fun t => f t - g t) u (d - e).
Proof. intros H1 H2. exact (is_derive_minus f g u d e H1 H2). Qed.

Section Exact.
  Variables q m T : R.
  Variable G : pos -> R -> em.
  Variables b1 b2 b3 : R.
  Hypothesis Hm : m <> 0.
  Hypothesis HB : (b1, b2, b3) <> (0, 0, 0).
  Hypothesis HU : uniform G (0, 0, 0) (b1, b2, b3).
  Variable Y : R -> part.
  Hypothesis HY : motion q m G T Y.

  Lemma forces t : 0 <= t <= T -> let k := q / (m * gamma (Y t)) in
    is_derive (fun s => px (Y s)) t (k * (py (Y t) * b3 - pz (Y t) * b2)) /\
    is_derive (fun s => py (Y s)) t (k * (pz (Y t) * b1 - px (Y t) * b3)) /\
    is_derive (fun s => pz (Y s)) t (k * (px (Y t) * b2 - py (Y t) * b1)).
  Proof.
    intros Ht k. destruct (HY t Ht) as (_ & _ & _ & H1 & H2 & H3).
    assert (g0 : gamma (Y t) <> 0).
    { apply Rgt_not_eq, sqrt_lt_R0. pose proof (Rle_0_sqr (px (Y t))). pose proof (Rle_0_sqr (py (Y t))). pose proof (Rle_0_sqr (pz (Y t))). unfold Rsqr in *. lra. }
    assert (c0 : c_SI <> 0) by (unfold c_SI; lra).
    unfold lorentz in H1, H2, H3. destruct (HU (pos_of (Y t)) t) as [F1 F2]. rewrite F1, F2 in H1, H2, H3.
    unfold velocity, momentum, scal, cross, vadd3 in H1, H2, H3. cbn [px py pz] in H1, H2, H3. unfold k.
    split; [apply (der _ _ _ _ H1); field; auto|split; [apply (der _ _ _ _ H2); field; auto|apply (der _ _ _ _ H3); field; auto]].
  Qed.
  Lemma energy t : 0 <= t <= T -> gamma (Y t) = gamma (Y 0).
  Proof.
    intros Ht. unfold gamma. f_equal. f_equal.
    apply (constant_on (fun t => px (Y t) * px (Y t) + py (Y t) * py (Y t) + pz (Y t) * pz (Y t)) T); [|exact Ht].
    intros u Hu. destruct (forces u Hu) as (H1 & H2 & H3).
    refine (der _ _ _ _ (der_sq _ _ _ _ _ _ u H1 H2 H3) _). ring.
  Qed.
  Let p0 := momentum (Y 0).
  Let w := frequency q m (b1, b2, b3) (Y 0).
  Let n := scal (/ norm (b1, b2, b3)) (b1, b2, b3).
  Lemma n_unit : fst (fst n) * fst (fst n) + snd (fst n) * snd (fst n) + snd n * snd n = 1.
  Proof. pose proof (unit_of _ HB) as N. unfold unit in N. fold n in N. destruct n as [[n1 n2] n3]. exact N. Qed.
  Lemma steady t : 0 <= t <= T -> let n1 := fst (fst n) in let n2 := snd (fst n) in let n3 := snd n in
    is_derive (fun s => px (Y s)) t (w * (py (Y t) * n3 - pz (Y t) * n2)) /\
    is_derive (fun s => py (Y s)) t (w * (pz (Y t) * n1 - px (Y t) * n3)) /\
    is_derive (fun s => pz (Y s)) t (w * (px (Y t) * n2 - py (Y t) * n1)).
  Proof.
    intros Ht. destruct (forces t Ht) as (H1 & H2 & H3). rewrite (energy t Ht) in H1, H2, H3.
    assert (N : norm (b1, b2, b3) <> 0) by (apply Rgt_not_eq, sqrt_lt_R0, sq_pos, HB).
    assert (g0 : gamma (Y 0) <> 0).
    { apply Rgt_not_eq, sqrt_lt_R0. pose proof (Rle_0_sqr (px (Y 0))). pose proof (Rle_0_sqr (py (Y 0))). pose proof (Rle_0_sqr (pz (Y 0))). unfold Rsqr in *. lra. }
    unfold w, frequency, n. cbn [scal fst snd].
    split; [apply (der _ _ _ _ H1); field; auto|split; [apply (der _ _ _ _ H2); field; auto|apply (der _ _ _ _ H3); field; auto]].
  Qed.
  Lemma exact_motion t : 0 <= t <= T -> momentum (Y t) = turned (w * t) (b1, b2, b3) p0.
  Proof.
    intros Ht. unfold turned. fold n. pose proof n_unit as N. pose proof steady as St. destruct n as [[n1 n2] n3]. cbn [fst snd] in N, St.
    unfold p0, momentum, cross, along, vadd3, scal. set (a := px (Y 0)) in *. set (b := py (Y 0)) in *. set (c := pz (Y 0)) in *.
    set (e := a * n1 + b * n2 + c * n3).
    set (Q1 := fun t => cos (w * t) * a + (sin (w * t) * (b * n3 - c * n2) + (1 - cos (w * t)) * e * n1)).
    set (Q2 := fun t => cos (w * t) * b + (sin (w * t) * (c * n1 - a * n3) + (1 - cos (w * t)) * e * n2)).
    set (Q3 := fun t => cos (w * t) * c + (sin (w * t) * (a * n2 - b * n1) + (1 - cos (w * t)) * e * n3)).
    assert (D1 : forall t, is_derive Q1 t (w * (Q2 t * n3 - Q3 t * n2))).
    { intros u. unfold Q1, Q2, Q3. auto_derive; [exact I|]. set (C := cos (w * u)). set (S := sin (w * u)).
      transitivity (w * (C * (b * n3 - c * n2) + S * (n1 * e - a * (n1 * n1 + n2 * n2 + n3 * n3)))); [rewrite N; ring|unfold e; ring]. }
    assert (D2 : forall t, is_derive Q2 t (w * (Q3 t * n1 - Q1 t * n3))).
    { intros u. unfold Q1, Q2, Q3. auto_derive; [exact I|]. set (C := cos (w * u)). set (S := sin (w * u)).
      transitivity (w * (C * (c * n1 - a * n3) + S * (n2 * e - b * (n1 * n1 + n2 * n2 + n3 * n3)))); [rewrite N; ring|unfold e; ring]. }
    assert (D3 : forall t, is_derive Q3 t (w * (Q1 t * n2 - Q2 t * n1))).
    { intros u. unfold Q1, Q2, Q3. auto_derive; [exact I|]. set (C := cos (w * u)). set (S := sin (w * u)).
      transitivity (w * (C * (a * n2 - b * n1) + S * (n3 * e - c * (n1 * n1 + n2 * n2 + n3 * n3)))); [rewrite N; ring|unfold e; ring]. }
    assert (Z : (px (Y t) - Q1 t) * (px (Y t) - Q1 t) + (py (Y t) - Q2 t) * (py (Y t) - Q2 t) + (pz (Y t) - Q3 t) * (pz (Y t) - Q3 t) = 0).
    { rewrite (constant_on (fun t => (px (Y t) - Q1 t) * (px (Y t) - Q1 t) + (py (Y t) - Q2 t) * (py (Y t) - Q2 t) + (pz (Y t) - Q3 t) * (pz (Y t) - Q3 t)) T); [| |exact Ht].
      - unfold Q1, Q2, Q3. rewrite Rmult_0_r, cos_0, sin_0. fold a b c. ring.
      - intros u Hu. destruct (St u Hu) as (H1 & H2 & H3). specialize (D1 u). specialize (D2 u). specialize (D3 u).
        refine (der _ _ _ _ (der_sq _ _ _ _ _ _ u (der_minus _ _ u _ _ H1 D1) (der_minus _ _ u _ _ H2 D2) (der_minus _ _ u _ _ H3 D3)) _). ring. }
    assert (S3 : forall u v z, u * u + v * v + z * z = 0 -> u = 0 /\ v = 0 /\ z = 0).
    { intros u v z E. pose proof (Rle_0_sqr u). pose proof (Rle_0_sqr v). pose proof (Rle_0_sqr z). unfold Rsqr in *.
      assert (U : u * u = 0) by lra. assert (V : v * v = 0) by lra. assert (W : z * z = 0) by lra.
      apply Rmult_integral in U, V, W. tauto. }
    apply S3 in Z as (Z1 & Z2 & Z3). unfold Q1, Q2, Q3, e in *. apply vec_eq; lra.
  Qed.
End Exact.
