(** Lemmas: determinants of six rows. *)
From Coq Require Import Reals List Arith Lra.
From Verif Require Import Model_Push Spec_Push Spec_Conv Spec_Volume.
Import ListNotations.
Open Scope R_scope.

(** The determinant is linear in each row. *)
Fixpoint vsum (a : list R) (k : R) (b : list R) : list R :=
  match a, b with u :: a', v :: b' => (u + k * v) :: vsum a' k b' | _, _ => [] end.
Lemma without_vsum i k : forall a b, length a = length b -> without i (vsum a k b) = vsum (without i a) k (without i b).
Proof.
  induction i as [|i IH]; intros [|u a] [|v b] E; try discriminate; try reflexivity. cbn. f_equal. apply IH. cbn in E. congruence.
Qed.
Lemma without_length i : forall a b, length a = length b -> length (without i a) = length (without i b).
Proof.
  induction i as [|i IH]; intros [|u a] [|v b] E; try discriminate; try reflexivity; cbn in *; [congruence|]. f_equal. apply IH. congruence.
Qed.
Lemma expand_row m k : forall a b i, length a = length b -> expand m i (vsum a k b) = expand m i a + k * expand m i b.
Proof.
  induction a as [|u a IH]; intros [|v b] i E; try discriminate; cbn; [ring|]. rewrite IH by (cbn in E; congruence). ring.
Qed.
Lemma expand_minor k m m' m'' : (forall i, m i = m' i + k * m'' i) -> forall a i, expand m i a = expand m' i a + k * expand m'' i a.
Proof. intros E a. induction a as [|u a IH]; intros i; cbn; [ring|]. rewrite IH, E. ring. Qed.
Lemma determinant_linear k : forall n pre a b post, length a = length b -> (length pre < n)%nat ->
  determinant n (pre ++ vsum a k b :: post) = determinant n (pre ++ a :: post) + k * determinant n (pre ++ b :: post).
Proof.
  induction n as [|n IH]; intros pre a b post E H; [inversion H|]. destruct pre as [|r pre].
  - cbn. apply expand_row, E.
  - cbn [app determinant]. apply expand_minor. intros i. rewrite !map_app. cbn [map]. rewrite without_vsum by exact E.
    apply IH; [apply without_length, E|]. rewrite map_length. cbn in H. apply Nat.succ_lt_mono, H.
Qed.

Definition D (a b c d e f : part) : R := det [a; b; c; d; e; f].
Notation "a <+> b" := (padd a b) (at level 50, left associativity).
Notation "k <*> a" := (pscal k a) (at level 40, left associativity).
Ltac lin l := unfold D, det; cbn [map];
  match goal with |- context [row (?u <+> ?k <*> ?v)] =>
    change (row (u <+> k <*> v)) with (vsum (row u) k (row v)) end;
  apply (determinant_linear _ _ l); [reflexivity|cbn; repeat constructor].
Lemma lin1 k a a' b c d e f : D (a <+> k <*> a') b c d e f = D a b c d e f + k * D a' b c d e f.
Proof. lin (@nil (list R)). Qed.
Lemma lin2 k a a' b c d e f : D b (a <+> k <*> a') c d e f = D b a c d e f + k * D b a' c d e f.
Proof. lin [row b]. Qed.
Lemma lin3 k a a' b c d e f : D b c (a <+> k <*> a') d e f = D b c a d e f + k * D b c a' d e f.
Proof. lin [row b; row c]. Qed.
Lemma lin4 k a a' b c d e f : D b c d (a <+> k <*> a') e f = D b c d a e f + k * D b c d a' e f.
Proof. lin [row b; row c; row d]. Qed.
Lemma lin5 k a a' b c d e f : D b c d e (a <+> k <*> a') f = D b c d e a f + k * D b c d e a' f.
Proof. lin [row b; row c; row d; row e]. Qed.
Lemma lin6 k a a' b c d e f : D b c d e f (a <+> k <*> a') = D b c d e f a + k * D b c d e f a'.
Proof. lin [row b; row c; row d; row e; row f]. Qed.

(** It vanishes if two rows are equal. *)
Ltac alt := unfold D, det, row; cbn [map determinant expand without]; ring.
Lemma alt14 a b c d e : D a b c a d e = 0. Proof. alt. Qed.
Lemma alt15 a b c d e : D a b c d a e = 0. Proof. alt. Qed.
Lemma alt16 a b c d e : D a b c d e a = 0. Proof. alt. Qed.
Lemma alt24 a b c d e : D b a c a d e = 0. Proof. alt. Qed.
Lemma alt25 a b c d e : D b a c d a e = 0. Proof. alt. Qed.
Lemma alt26 a b c d e : D b a c d e a = 0. Proof. alt. Qed.
Lemma alt34 a b c d e : D b c a a d e = 0. Proof. alt. Qed.
Lemma alt35 a b c d e : D b c a d a e = 0. Proof. alt. Qed.
Lemma alt36 a b c d e : D b c a d e a = 0. Proof. alt. Qed.
Lemma alt45 a b c d e : D b c d a a e = 0. Proof. alt. Qed.
Lemma alt46 a b c d e : D b c d a e a = 0. Proof. alt. Qed.
Lemma alt56 a b c d e : D b c d e a a = 0. Proof. alt. Qed.

Definition Z : part := mkp 0 0 0 0 0 0.
Lemma ZZ : Z <+> 1 <*> Z = Z.
Proof. unfold padd, pscal, Z. cbn. f_equal; ring. Qed.
Lemma zero4 a b c e f : D a b c Z e f = 0.
Proof. pose proof (lin4 1 Z Z a b c e f) as H. rewrite ZZ in H. lra. Qed.
Lemma zero5 a b c e f : D a b c e Z f = 0.
Proof. pose proof (lin5 1 Z Z a b c e f) as H. rewrite ZZ in H. lra. Qed.
Lemma zero6 a b c e f : D a b c e f Z = 0.
Proof. pose proof (lin6 1 Z Z a b c e f) as H. rewrite ZZ in H. lra. Qed.
Lemma swap45 a b c d e f : D a b c e d f = - D a b c d e f.
Proof.
  pose proof (alt45 (d <+> 1 <*> e) a b c f) as H. rewrite lin4, !lin5, !alt45 in H. lra.
Qed.
Lemma swap56 a b c d e f : D a b c d f e = - D a b c d e f.
Proof.
  pose proof (alt56 (e <+> 1 <*> f) a b c d) as H. rewrite lin5, !lin6, !alt56 in H. lra.
Qed.

(** Adding multiples of the last three rows to the first three. *)
Lemma shears a b c d e f a1 a2 a3 b1 b2 b3 c1 c2 c3 :
  D (a <+> a1 <*> d <+> a2 <*> e <+> a3 <*> f) (b <+> b1 <*> d <+> b2 <*> e <+> b3 <*> f) (c <+> c1 <*> d <+> c2 <*> e <+> c3 <*> f) d e f =
  D a b c d e f.
Proof.
  rewrite !lin1, alt14, alt15, alt16. rewrite !Rmult_0_r, !Rplus_0_r.
  rewrite !lin2, alt24, alt25, alt26. rewrite !Rmult_0_r, !Rplus_0_r.
  rewrite !lin3, alt34, alt35, alt36. rewrite !Rmult_0_r, !Rplus_0_r. reflexivity.
Qed.
(** The last three rows replaced by combinations. *)
Definition det3 (u v w : vec) : R :=
  let '(u1, u2, u3) := u in let '(v1, v2, v3) := v in let '(w1, w2, w3) := w in
  u1 * (v2 * w3 - v3 * w2) - u2 * (v1 * w3 - v3 * w1) + u3 * (v1 * w2 - v2 * w1).
Lemma mixing a b c d e f a1 a2 a3 a4 a5 a6 b1 b2 b3 b4 b5 b6 c1 c2 c3 c4 c5 c6 :
  D a b c (Z <+> a4 <*> d <+> a5 <*> e <+> a6 <*> f <+> a1 <*> a <+> a2 <*> b <+> a3 <*> c)
          (Z <+> b4 <*> d <+> b5 <*> e <+> b6 <*> f <+> b1 <*> a <+> b2 <*> b <+> b3 <*> c)
          (Z <+> c4 <*> d <+> c5 <*> e <+> c6 <*> f <+> c1 <*> a <+> c2 <*> b <+> c3 <*> c) =
  det3 (a4, a5, a6) (b4, b5, b6) (c4, c5, c6) * D a b c d e f.
Proof.
  rewrite !lin4, alt14, alt24, alt34, zero4. rewrite !Rmult_0_r, !Rplus_0_r, Rplus_0_l.
  rewrite !lin5, !alt15, !alt25, !alt35, !zero5. rewrite !alt45. rewrite !Rmult_0_r, !Rplus_0_r, !Rplus_0_l.
  rewrite !lin6, !alt16, !alt26, !alt36, !zero6, !alt46, !alt56.
  rewrite (swap45 a b c d e f), (swap56 a b c d e f), (swap56 a b c e d f), (swap45 a b c d e f).
  rewrite (swap45 a b c d f e), (swap56 a b c d e f). rewrite (swap45 a b c e f d), (swap56 a b c e d f), (swap45 a b c d e f).
  unfold det3. ring.
Qed.
