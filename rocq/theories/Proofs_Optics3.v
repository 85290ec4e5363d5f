(** Proofs about transfer maps, stated on the model; coordinate conversions. *)
From Coq Require Import Reals List Arith Lra Lia Psatz.
From Coquelicot Require Import Coquelicot.
From Verif Require Import Model_Push Model_Bunch Model_Optics Spec_Optics Proofs_Optics
  Proofs_Optics2.
Import ListNotations.
Open Scope R_scope.

Lemma second_rows z L th k1 k2 g x px y py ta d :
  quad_form (second_order_matrix z L th k1 k2 g) [x; px; y; py; ta; d] =
  rows (th / L) k1 k2 (beta_of g) (inv_gamma2 g) x px y py d z.
Proof.
  unfold second_order_matrix. rewrite ingr_nf.
  change (mkingr _ _ _ _ _ _ _ _ _ _ _ _ _ _ _ _ _ _ _) with
    (gz (th / L) k1 k2 (beta_of g) (inv_gamma2 g) z).
  unfold rows. set (ge := gz _ _ _ _ _ _).
  assert (E : forall i, (i < 6)%nat ->
    nth i (quad_form (lookup (entries ge)) [x; px; y; py; ta; d]) 0 =
    rowsum ge i x px y py d) by (intros; apply rowsum_eq; assumption).
  unfold quad_form in *. cbn [map seq nth] in *.
  pose proof (E 0%nat ltac:(lia)) as E0. pose proof (E 1%nat ltac:(lia)) as E1.
  pose proof (E 2%nat ltac:(lia)) as E2. pose proof (E 3%nat ltac:(lia)) as E3.
  pose proof (E 4%nat ltac:(lia)) as E4. pose proof (E 5%nat ltac:(lia)) as E5.
  cbn [nth] in *. rewrite E0, E1, E2, E3, E4, E5. reflexivity.
Qed.
Lemma first_im z L th k1 g x px y py ta d :
  beta_of g <> 0 ->
  mat_vec (first_order_matrix z L th k1 g) [x; px; y; py; ta; d] =
  im (th / L) k1 (beta_of g) (inv_gamma2 g) x px y py ta d z.
Proof.
  intros Hb. rewrite first_nf. unfold mat_vec, sum6, im. cbn [map nth].
  set (h := th / L). clearbody h. leq; field; assumption.
Qed.

Lemma nth_rows h k1 k2 b ig x px y py d z i : (i < 6)%nat ->
  nth i (rows h k1 k2 b ig x px y py d z) 0 = rowsum (gz h k1 k2 b ig z) i x px y py d.
Proof.
  intros Hi. unfold rows. do 6 (destruct i as [|i]; [reflexivity|]). lia.
Qed.

(** The second-order ODE, from its reduced form. *)
Lemma second_lift L th k1 k2 g z i x px y py ta d l :
  (i < 6)%nat ->
  is_derive (fun z => rowsum (gz (th / L) k1 k2 (beta_of g) (inv_gamma2 g) z) i x px y py d) z l ->
  is_derive (fun z => nth i (quad_form (second_order_matrix z L th k1 k2 g)
    [x; px; y; py; ta; d]) 0) z l.
Proof.
  intros Hi H. eapply is_derive_ext; [|exact H].
  intros t. cbv beta. rewrite second_rows, nth_rows by assumption. reflexivity.
Qed.
Lemma rhs_lift L th k1 k2 g z i x px y py ta d : beta_of g <> 0 ->
  rhs (th / L) k1 k2 (beta_of g) (inv_gamma2 g) x px y py ta d z i =
  nth i (lin (th / L) k1 (beta_of g) (inv_gamma2 g)
          (quad_form (second_order_matrix z L th k1 k2 g) [x; px; y; py; ta; d])) 0
  + nth i (quad (th / L) k1 k2 (beta_of g) (inv_gamma2 g)
          (mat_vec (first_order_matrix z L th k1 g) [x; px; y; py; ta; d])) 0.
Proof. intros Hb. rewrite second_rows, first_im by assumption. reflexivity. Qed.

Lemma second_ode L th k1 k2 g z v i :
  beta_of g <> 0 -> is_col v -> (i < 6)%nat ->
  th / L = 0 \/ k1 = 0 /\ k2 = 0 \/ k2 = 0 /\ i <> 4%nat \/
    (i < 2)%nat /\ 5 * k1 + (th / L) ^ 2 <> 0 ->
  is_derive (fun z => nth i (quad_form (second_order_matrix z L th k1 k2 g) v) 0) z
    (nth i (lin (th / L) k1 (beta_of g) (inv_gamma2 g)
              (quad_form (second_order_matrix z L th k1 k2 g) v)) 0
     + nth i (quad (th / L) k1 k2 (beta_of g) (inv_gamma2 g)
              (mat_vec (first_order_matrix z L th k1 g) v)) 0).
Proof.
  intros Hb Hv Hi HH. apply col6 in Hv as (x & px & y & py & ta & d & ->).
  rewrite <- rhs_lift by assumption. apply second_lift; [assumption|].
  set (h := th / L) in *.
  assert (G0 : h = 0 -> good (k1 + h * h) (- k1)).
  { intros ->. unfold good, mden. destruct (Req_dec k1 0); [right|left]; lra. }
  destruct (Nat.eq_dec i 5) as [->|N5].
  { unfold rhs. cbn [nth lin quad]. eapply is_derive_ext; [intros; symmetry; apply row5|].
    rewrite Rplus_0_l. apply @is_derive_const. }
  destruct (Nat.eq_dec i 4) as [->|N4].
  { assert (K : k2 = 0 \/ h = 0) by (destruct HH as [A|[[A B]|[[A B]|[A B]]]]; [tauto|tauto|lia|lia]).
    pose proof (row4_error h k1 k2 (beta_of g) (inv_gamma2 g) Hb x px y py ta d z K) as R.
    assert (Z : h * h * h * (h * k1) / beta_of g ^ 3 * E3 (k1 + h * h) z * d ^ 2 = 0).
    { destruct HH as [A|[[A B]|[[A B]|[A B]]]]; [| |lia|lia]; rewrite A; unfold Rdiv; ring. }
    rewrite Z, Rminus_0_r in R. exact R. }
  destruct (Req_dec k2 0) as [K|K].
  { apply row03_no_sextupole; [assumption|assumption|lia]. }
  destruct (lt_dec i 2) as [I2|I2].
  { apply row01_good; [assumption| |assumption].
    destruct HH as [A|[[A B]|[[A B]|[A B]]]]; [auto|lra|lra|].
    left. unfold mden. intros Q. apply B. rewrite <- Q. ring. }
  apply row23_straight; [assumption| |lia].
  destruct HH as [A|[[A B]|[[A B]|[A B]]]]; [exact A|lra|lra|lia].
Qed.

(** The error in combined-function magnets. *)
Lemma second_error L th k1 g z v :
  beta_of g <> 0 -> is_col v -> let h := th / L in let k := k1 + h ^ 2 in k <> 0 ->
  is_derive (fun z => nth 4 (quad_form (second_order_matrix z L th k1 0 g) v) 0) z
    (nth 4 (lin h k1 (beta_of g) (inv_gamma2 g)
              (quad_form (second_order_matrix z L th k1 0 g) v)) 0
     + nth 4 (quad h k1 0 (beta_of g) (inv_gamma2 g)
              (mat_vec (first_order_matrix z L th k1 g) v)) 0
     - h ^ 4 * k1 / beta_of g ^ 3
       * (entry (first_order_matrix z L th k1 g) 0 0
          * entry (first_order_matrix z L th k1 g) 0 1 ^ 2 / (4 * k ^ 2)) * nth 5 v 0 ^ 2).
Proof.
  intros Hb Hv h k Hk. apply col6 in Hv as (x & px & y & py & ta & d & ->).
  unfold h. rewrite <- rhs_lift by assumption. fold h.
  apply second_lift; [lia|]. fold h.
  pose proof (row4_error h k1 0 (beta_of g) (inv_gamma2 g) Hb x px y py ta d z
    (or_introl eq_refl)) as R.
  rewrite first_nf. fold h. unfold entry. cbn [nth].
  assert (E : k1 + h * h = k) by (unfold k; ring). rewrite E in *.
  assert (Z : h * h * h * (h * k1) / beta_of g ^ 3 * E3 k z * d ^ 2 =
    h ^ 4 * k1 / beta_of g ^ 3 * (CX k z * SX k z ^ 2 / (4 * k ^ 2)) * d ^ 2).
  { unfold E3. rewrite rnz_true by assumption. field. split; assumption. }
  rewrite <- Z. exact R.
Qed.

Lemma second_zero L th k1 k2 g v : is_col v ->
  quad_form (second_order_matrix 0 L th k1 k2 g) v = [0; 0; 0; 0; 0; 0].
Proof.
  intros Hv. apply col6 in Hv as (x & px & y & py & ta & d & ->).
  rewrite second_rows. set (h := th / L). set (b := beta_of g). set (ig := inv_gamma2 g).
  unfold rows, rowsum. cbn [map seq]. cbv [gz lookup entries ent Nat.eqb andb].
  rewrite !CX_z0, !SX_z0, DX_0, J1_0, J2_0. clearbody h.
  assert (Z3 : J3 (k1 + h * h) 0 = 0).
  { unfold J3. destruct (rnz (k1 + h * h)) as [[N ->]|[N ->]].
    rewrite CX_z0, SX_z0. field. assumption. field. }
  assert (Zc : Jc (k1 + h * h) (- k1) 0 = 0).
  { unfold Jc. destruct (rnz (mden (k1 + h * h) (- k1))) as [[N ->]|[N ->]].
    rewrite !CX_z0. field. assumption. lra. }
  assert (Zs : Js (k1 + h * h) (- k1) 0 = 0).
  { unfold Js. destruct (rnz (mden (k1 + h * h) (- k1))) as [[N ->]|[N ->]].
    rewrite !SX_z0. field. assumption. field. }
  assert (Zd : Jd (k1 + h * h) (- k1) 0 = 0).
  { unfold Jd. destruct (rnz (mden (k1 + h * h) (- k1))) as [[N ->]|[N ->]].
    rewrite !SX_z0, DX_0. field. assumption. field. }
  assert (Zf : Jf (k1 + h * h) (- k1) 0 = 0).
  { unfold Jf, F2. destruct (rnz (mden (k1 + h * h) (- k1))) as [[N ->]|[N ->]]; [|field].
    rewrite !J1_0. destruct (rnz (- k1)) as [[N' ->]|[N' ->]].
    rewrite !SX_z0. field. split; lra. field. assumption. }
  rewrite Z3, Zc, Zs, Zd, Zf. unfold Rdiv. leq; ring.
Qed.

(** ** Uniqueness for the linear equations of motion *)
Lemma lin_unique h k1 b ig (w : nat -> R -> R) :
  b <> 0 ->
  (forall i z, (i < 6)%nat -> is_derive (w i) z
     (nth i (lin h k1 b ig (map (fun i => w i z) (seq 0 6))) 0)) ->
  (forall i, (i < 6)%nat -> w i 0 = 0) ->
  forall i z, (i < 6)%nat -> w i z = 0.
Proof.
  intros Hb D Z.
  assert (osc : forall k (u v : R -> R), (forall t, is_derive u t (v t)) ->
    (forall t, is_derive v t (- k * u t)) -> u 0 = 0 -> v 0 = 0 ->
    forall t, u t = 0 /\ v t = 0).
  { intros k u v Du Dv U0 V0 t.
    assert (E1 : forall t, CX k t * v t + k * SX k t * u t = 0).
    { intros s. assert (Q : forall t, is_derive (fun t => CX k t * v t + k * SX k t * u t) t 0).
      { intros r. pose proof (is_derive_CX k r) as A. pose proof (is_derive_SX k r) as B.
        pose proof (Du r) as P. pose proof (Dv r) as Q.
        auto_derive; [exd|]. der. ring. }
      rewrite (const_of_derive _ Q). rewrite U0, V0. ring. }
    assert (E2 : forall t, CX k t * u t - SX k t * v t = 0).
    { intros s. assert (Q : forall t, is_derive (fun t => CX k t * u t - SX k t * v t) t 0).
      { intros r. pose proof (is_derive_CX k r) as A. pose proof (is_derive_SX k r) as B.
        pose proof (Du r) as P. pose proof (Dv r) as Q.
        auto_derive; [exd|]. der. ring. }
      rewrite (const_of_derive _ Q). rewrite U0, V0. ring. }
    pose proof (CX_SX k t) as S. specialize (E1 t). specialize (E2 t). split.
    - replace (u t) with (u t * (CX k t ^ 2 + k * SX k t ^ 2)) by (rewrite S; ring).
      replace (u t * (CX k t ^ 2 + k * SX k t ^ 2)) with
        (CX k t * (CX k t * u t - SX k t * v t) + SX k t * (CX k t * v t + k * SX k t * u t))
        by ring. rewrite E1, E2. ring.
    - replace (v t) with (v t * (CX k t ^ 2 + k * SX k t ^ 2)) by (rewrite S; ring).
      replace (v t * (CX k t ^ 2 + k * SX k t ^ 2)) with
        (CX k t * (CX k t * v t + k * SX k t * u t) - k * SX k t * (CX k t * u t - SX k t * v t))
        by ring. rewrite E1, E2. ring. }
  assert (W5 : forall z, w 5%nat z = 0).
  { intros z. rewrite (const_of_derive (w 5%nat)); [apply Z; lia|].
    intros t. exact (D 5%nat t ltac:(lia)). }
  assert (W01 : forall z, w 0%nat z = 0 /\ w 1%nat z = 0).
  { apply (osc (k1 + h ^ 2)).
    - intros t. exact (D 0%nat t ltac:(lia)).
    - intros t. pose proof (D 1%nat t ltac:(lia)) as A. cbn [nth lin map seq] in A.
      rewrite W5 in A.
      replace (- (k1 + h ^ 2) * w 0%nat t + h / b * 0) with (- (k1 + h ^ 2) * w 0%nat t) in A by ring.
      exact A.
    - apply Z; lia.
    - apply Z; lia. }
  assert (W23 : forall z, w 2%nat z = 0 /\ w 3%nat z = 0).
  { apply (osc (- k1)).
    - intros t. exact (D 2%nat t ltac:(lia)).
    - intros t. pose proof (D 3%nat t ltac:(lia)) as A. cbn [nth lin map seq] in A.
      replace (- - k1 * w 2%nat t) with (k1 * w 2%nat t) by ring. exact A.
    - apply Z; lia.
    - apply Z; lia. }
  assert (W4 : forall z, w 4%nat z = 0).
  { intros z. rewrite (const_of_derive (w 4%nat)); [apply Z; lia|].
    intros t. pose proof (D 4%nat t ltac:(lia)) as A. cbn [nth lin map seq] in A.
    rewrite W5, (proj1 (W01 t)) in A.
    replace (h / b * 0 - ig / b ^ 2 * 0) with 0 in A by ring. exact A. }
  intros i z Hi. do 6 (destruct i as [|i]; [first [apply W5|apply W4|apply W01|apply W23]|]). lia.
Qed.

Lemma length_mat_vec z L th k1 g v : length (mat_vec (first_order_matrix z L th k1 g) v) = 6%nat.
Proof. rewrite first_nf. reflexivity. Qed.

Lemma map2_nth (f : R -> R -> R) l m i d1 d2 d3 :
  (i < length l)%nat -> (i < length m)%nat ->
  nth i (map2 f l m) d3 = f (nth i l d1) (nth i m d2).
Proof.
  revert m i. induction l as [|a l IH]; intros [|b m] [|i]; cbn; intros; try lia; auto.
  apply IH; lia.
Qed.

Lemma shift_derive (f : R -> R) a z l :
  is_derive f (a + z) l -> is_derive (fun z => f (a + z)) z l.
Proof.
  intros D. assert (E : is_derive (fun z => a + z) z 1) by (auto_derive; [exact I|ring]).
  pose proof (is_derive_comp f (fun z => a + z) z l 1 D E) as Q.
  change (scal 1 l) with (1 * l) in Q. rewrite Rmult_1_l in Q. exact Q.
Qed.
Lemma minus3_derive (f g h : R -> R) z a b c :
  is_derive f z a -> is_derive g z b -> is_derive h z c ->
  is_derive (fun z => f z - g z - h z) z (a - b - c).
Proof.
  intros A B C. exact (is_derive_minus _ _ _ _ _ (is_derive_minus _ _ _ _ _ A B) C).
Qed.

Lemma second_compose L th k1 k2 g z1 z2 v :
  beta_of g <> 0 -> is_col v -> th / L = 0 \/ k1 = 0 /\ k2 = 0 ->
  quad_form (second_order_matrix (z1 + z2) L th k1 k2 g) v =
  map2 Rplus
    (mat_vec (first_order_matrix z2 L th k1 g) (quad_form (second_order_matrix z1 L th k1 k2 g) v))
    (quad_form (second_order_matrix z2 L th k1 k2 g) (mat_vec (first_order_matrix z1 L th k1 g) v)).
Proof.
  intros Hb Hv HH.
  set (t1 := quad_form (second_order_matrix z1 L th k1 k2 g) v).
  set (r1 := mat_vec (first_order_matrix z1 L th k1 g) v).
  assert (Hr : is_col r1) by apply length_mat_vec.
  assert (Ht : is_col t1) by reflexivity.
  set (A := fun i z => nth i (quad_form (second_order_matrix (z1 + z) L th k1 k2 g) v) 0).
  set (B := fun i z => nth i (mat_vec (first_order_matrix z L th k1 g) t1) 0).
  set (C := fun i z => nth i (quad_form (second_order_matrix z L th k1 k2 g) r1) 0).
  assert (cond : forall i, th / L = 0 \/ k1 = 0 /\ k2 = 0 \/ k2 = 0 /\ i <> 4%nat \/
    (i < 2)%nat /\ 5 * k1 + (th / L) ^ 2 <> 0) by (intros; tauto).
  assert (W : forall i z, (i < 6)%nat -> A i z - B i z - C i z = 0).
  { apply (lin_unique (th / L) k1 (beta_of g) (inv_gamma2 g)
      (fun i z => A i z - B i z - C i z) Hb).
    - intros i z Hi.
      assert (DA : is_derive (A i) z
        (nth i (lin (th / L) k1 (beta_of g) (inv_gamma2 g)
              (quad_form (second_order_matrix (z1 + z) L th k1 k2 g) v)) 0
         + nth i (quad (th / L) k1 k2 (beta_of g) (inv_gamma2 g)
              (mat_vec (first_order_matrix (z1 + z) L th k1 g) v)) 0)).
      { pose proof (second_ode L th k1 k2 g (z1 + z) v i Hb Hv Hi (cond i)) as D.
        exact (shift_derive (fun z => nth i (quad_form (second_order_matrix z L th k1 k2 g) v) 0)
          z1 z _ D). }
      pose proof (first_ode L th k1 g z t1 i Hb Hi) as DB.
      pose proof (second_ode L th k1 k2 g z r1 i Hb Hr Hi (cond i)) as DC.
      rewrite first_compose in DA by assumption. fold r1 in DA.
      pose proof (minus3_derive _ _ _ _ _ _ _ DA DB DC) as D.
      match type of D with is_derive _ _ ?l =>
        match goal with |- is_derive _ _ ?r => replace r with l; [exact D|] end end.
      set (qq := quad _ _ _ _ _ _).
      set (wa := quad_form (second_order_matrix (z1 + z) L th k1 k2 g) v).
      set (wb := mat_vec (first_order_matrix z L th k1 g) t1).
      set (wc := quad_form (second_order_matrix z L th k1 k2 g) r1).
      assert (EA : forall i, A i z = nth i wa 0) by reflexivity.
      assert (EB : forall i, B i z = nth i wb 0) by reflexivity.
      assert (EC : forall i, C i z = nth i wc 0) by reflexivity.
      clearbody wa wb wc qq. clear D DA DB DC.
      destruct i as [|[|[|[|[|[|i]]]]]]; [| | | | | |lia]; unfold lin; cbn [map seq nth];
        rewrite ?EA, ?EB, ?EC; unfold Rdiv; ring.
    - intros i Hi. unfold A, B, C. rewrite Rplus_0_r. fold t1.
      rewrite second_zero by assumption. rewrite first_identity.
      apply col6 in Ht as (a1 & a2 & a3 & a4 & a5 & a6 & ->).
      unfold mat_vec, identity6, sum6. cbn [map nth].
      destruct i as [|[|[|[|[|[|i]]]]]]; [| | | | | |lia]; cbn [nth]; ring. }
  apply nth_ext with 0 0.
  { rewrite first_nf. reflexivity. }
  intros i Hi. change (length (quad_form (second_order_matrix (z1 + z2) L th k1 k2 g) v)) with 6%nat in Hi.
  rewrite (map2_nth _ _ _ _ 0 0) by (rewrite ?length_mat_vec; assumption).
  specialize (W i z2 Hi). unfold A, B, C in W. lra.
Qed.

(** ** Where the second-order map is wrong *)
Lemma beta_2 : beta_of 2 <> 0.
Proof.
  unfold beta_of, inv_gamma2. rewrite rnz_true by lra.
  assert (0 < sqrt (1 - 1 / (2 * 2))) by (apply sqrt_lt_R0; lra). lra.
Qed.

(** Combined-function dipole: h = 1, k1 = -2. *)
Lemma combined_refuted :
  ~ is_derive (fun z => nth 4 (quad_form (second_order_matrix z 1 1 (-2) 0 2)
                                 [0; 0; 0; 0; 0; 1]) 0) 1
      (nth 4 (lin 1 (-2) (beta_of 2) (inv_gamma2 2)
                (quad_form (second_order_matrix 1 1 1 (-2) 0 2) [0; 0; 0; 0; 0; 1])) 0
       + nth 4 (quad 1 (-2) 0 (beta_of 2) (inv_gamma2 2)
                (mat_vec (first_order_matrix 1 1 1 (-2) 2) [0; 0; 0; 0; 0; 1])) 0).
Proof.
  intros H. pose proof (second_error 1 1 (-2) 2 1 [0; 0; 0; 0; 0; 1] beta_2 eq_refl) as E.
  cbv zeta in E. replace (1 / 1) with 1 in E by field. specialize (E ltac:(lra)).
  apply is_derive_unique in H. apply is_derive_unique in E. rewrite H in E. clear H.
  rewrite first_nf in E. replace (1 / 1) with 1 in E by field. unfold entry in E.
  cbn [nth] in E. replace (-2 + 1 * 1) with (-1) in E by ring.
  assert (Q : 1 ^ 4 * -2 / beta_of 2 ^ 3 * (CX (-1) 1 * SX (-1) 1 ^ 2 / (4 * (-2 + 1 ^ 2) ^ 2)) * 1 ^ 2 <> 0).
  { rewrite CX_neg, SX_neg by lra. replace (- -1) with 1 by ring. rewrite sqrt_1.
    assert (0 < sinh 1).
    { unfold sinh. assert (exp (Ropp 1) < exp 1) by (apply exp_increasing; lra). lra. }
    assert (0 < cosh 1).
    { unfold cosh. pose proof (exp_pos 1). pose proof (exp_pos (Ropp 1)). lra. }
    replace (1 * 1) with 1 by ring.
    assert (P : 0 < beta_of 2 ^ 3).
    { apply pow_lt. pose proof beta_2. pose proof (sqrt_pos (1 - inv_gamma2 2)).
      unfold beta_of in *. lra. }
    intros Z. apply Rmult_integral in Z as [Z|Z]; [|lra].
    apply Rmult_integral in Z as [Z|Z].
    - unfold Rdiv in Z. apply Rmult_integral in Z as [Z|Z]; [lra|].
      apply Rinv_neq_0_compat in Z; lra.
    - assert (0 < cosh 1 * (sinh 1 / 1) ^ 2 / (4 * (-2 + 1 ^ 2) ^ 2)); [|lra].
      apply Rdiv_lt_0_compat; [|lra]. apply Rmult_lt_0_compat; [assumption|].
      apply pow_lt. lra. }
  apply Q. clear Q. match type of E with ?a = ?b => assert (Q : a - b = 0) by lra end.
  rewrite <- Q. ring.
Qed.

(** Dipole with quadrupole and sextupole components: h = 1, k1 = -1/5, k2 = 1
    (the denominator of the resonant terms vanishes). *)
Lemma resonant_refuted :
  ~ (forall v, is_col v ->
     is_derive (fun z => nth 1 (quad_form (second_order_matrix z 1 1 (-1/5) 1 2) v) 0) 1
      (nth 1 (lin 1 (-1/5) (beta_of 2) (inv_gamma2 2)
                (quad_form (second_order_matrix 1 1 1 (-1/5) 1 2) v)) 0
       + nth 1 (quad 1 (-1/5) 1 (beta_of 2) (inv_gamma2 2)
                (mat_vec (first_order_matrix 1 1 1 (-1/5) 2) v)) 0)).
Proof.
  intros H.
  pose proof (H [0; 0; 1; 1; 0; 0] eq_refl) as A.
  pose proof (H [0; 0; 1; -1; 0; 0] eq_refl) as B. clear H.
  set (g := fun z => gz 1 (-1/5) 1 (beta_of 2) (inv_gamma2 2) z).
  set (k := -1/5 + 1 * 1). set (q := - (-1/5)).
  assert (L : forall py, is_derive (fun z => rowsum (g z) 1 0 0 1 py 0) 1
     (rhs 1 (-1/5) 1 (beta_of 2) (inv_gamma2 2) 0 0 1 py 0 0 1 1) ->
     True) by auto.
  assert (A' : is_derive (fun z => rowsum (g z) 1 0 0 1 1 0) 1
     (rhs 1 (-1/5) 1 (beta_of 2) (inv_gamma2 2) 0 0 1 1 0 0 1 1)).
  { replace (rhs 1 (-1/5) 1 (beta_of 2) (inv_gamma2 2) 0 0 1 1 0 0 1 1) with
      (rhs (1 / 1) (-1/5) 1 (beta_of 2) (inv_gamma2 2) 0 0 1 1 0 0 1 1)
      by (f_equal; field).
    rewrite rhs_lift by apply beta_2. replace (1 / 1) with 1 by field.
    eapply is_derive_ext; [|exact A]. intros t. cbv beta.
    rewrite second_rows, nth_rows by lia. unfold g. replace (1 / 1) with 1 by field.
    reflexivity. }
  assert (B' : is_derive (fun z => rowsum (g z) 1 0 0 1 (-1) 0) 1
     (rhs 1 (-1/5) 1 (beta_of 2) (inv_gamma2 2) 0 0 1 (-1) 0 0 1 1)).
  { replace (rhs 1 (-1/5) 1 (beta_of 2) (inv_gamma2 2) 0 0 1 (-1) 0 0 1 1) with
      (rhs (1 / 1) (-1/5) 1 (beta_of 2) (inv_gamma2 2) 0 0 1 (-1) 0 0 1 1)
      by (f_equal; field).
    rewrite rhs_lift by apply beta_2. replace (1 / 1) with 1 by field.
    eapply is_derive_ext; [|exact B]. intros t. cbv beta.
    rewrite second_rows, nth_rows by lia. unfold g. replace (1 / 1) with 1 by field.
    reflexivity. }
  clear A B L.
  (* the cross term *)
  assert (Cr : is_derive (fun z => rowsum (g z) 1 0 0 1 1 0 - rowsum (g z) 1 0 0 1 (-1) 0) 1
    (rhs 1 (-1/5) 1 (beta_of 2) (inv_gamma2 2) 0 0 1 1 0 0 1 1
     - rhs 1 (-1/5) 1 (beta_of 2) (inv_gamma2 2) 0 0 1 (-1) 0 0 1 1))
    by (exact (is_derive_minus _ _ _ _ _ A' B')).
  assert (M0 : mden k q = 0) by (unfold mden, k, q; field).
  assert (JC : forall z, Jc k q z = z * z / 2).
  { intros z. unfold Jc. rewrite M0, rnz_false. lra. }
  assert (JS : Js k q 1 = 1 / 6).
  { unfold Js. rewrite M0, rnz_false. field. }
  assert (D1 : is_derive (fun z => rowsum (g z) 1 0 0 1 1 0 - rowsum (g z) 1 0 0 1 (-1) 0) 1 2).
  { apply is_derive_ext with (fun z => z * z).
    - intros t. unfold rowsum, g. cbv [gz lookup entries ent Nat.eqb andb]. fold k q.
      rewrite JC. match goal with |- @eq _ ?a ?b => change (@eq R a b) end. replace 0.5 with (/ 2) by lra. field. apply beta_2.
    - auto_derive; [exact I|ring]. }
  apply is_derive_unique in Cr. apply is_derive_unique in D1. rewrite Cr in D1. clear Cr A' B'.
  assert (E : rhs 1 (-1/5) 1 (beta_of 2) (inv_gamma2 2) 0 0 1 1 0 0 1 1
     - rhs 1 (-1/5) 1 (beta_of 2) (inv_gamma2 2) 0 0 1 (-1) 0 0 1 1 =
     2 * (- k * Js k q 1 + CX q 1 * SX q 1)).
  { unfold rhs, rows, rowsum. cbn [map seq nth lin quad im]. cbv [gz lookup entries ent Nat.eqb andb].
    fold k q. replace 0.5 with (/ 2) by lra. unfold k. field. apply beta_2. }
  rewrite E, JS in D1. clear E.
  assert (P : 0 < sqrt q) by (apply sqrt_lt_R0; unfold q; lra).
  rewrite CX_pos, SX_pos in D1 by (unfold q; lra). rewrite Rmult_1_l in D1.
  assert (S2 : sin (2 * sqrt q) < 2 * sqrt q) by (apply sin_lt_x; lra).
  rewrite sin_2a in S2.
  assert (F : cos (sqrt q) * (sin (sqrt q) / sqrt q) < 1).
  { apply Rmult_lt_reg_r with (2 * sqrt q); [lra|].
    replace (cos (sqrt q) * (sin (sqrt q) / sqrt q) * (2 * sqrt q)) with
      (2 * sin (sqrt q) * cos (sqrt q)) by (field; lra). lra. }
  unfold k in D1. lra.
Qed.

(** Sextupole component in a combined-function dipole: h = 1, k1 = -1, k2 = 1. *)
Lemma sextupole_dipole_refuted :
  ~ is_derive (fun z => nth 2 (quad_form (second_order_matrix z 1 1 (-1) 1 2)
                                 [0; 0; 0; 1; 0; 1]) 0) (PI / 2)
      (nth 2 (lin 1 (-1) (beta_of 2) (inv_gamma2 2)
                (quad_form (second_order_matrix (PI / 2) 1 1 (-1) 1 2) [0; 0; 0; 1; 0; 1])) 0
       + nth 2 (quad 1 (-1) 1 (beta_of 2) (inv_gamma2 2)
                (mat_vec (first_order_matrix (PI / 2) 1 1 (-1) 2) [0; 0; 0; 1; 0; 1])) 0).
Proof.
  intros H. set (k := -1 + 1 * 1). set (q := - -1).
  assert (Ek : k = 0) by (unfold k; ring). assert (Eq : q = 1) by (unfold q; ring).
  assert (Hm : mden k q = -4) by (rewrite Ek, Eq; unfold mden; ring).
  assert (G : good k q) by (left; rewrite Hm; lra).
  assert (Dq : is_derive (Jf k q) (PI / 2) ((1 + 1) / -4 - (PI / 2) ^ 2 / 2 / -4)).
  { unfold Jf, F2. rewrite !rnz_true by (rewrite ?Hm, ?Eq; lra). rewrite Hm, Ek, Eq.
    pose proof (is_derive_SX 1 (PI / 2)) as A. pose proof (is_derive_CX 1 (PI / 2)) as B.
    pose proof (is_derive_J1 0 (PI / 2)) as C. unfold DX in C. rewrite rnz_false in C.
    auto_derive; [exd|]. der. rewrite CX_pos, SX_pos by lra. rewrite sqrt_1.
    rewrite Rmult_1_r, cos_PI2, sin_PI2. field. }
  pose proof (row2_error 1 (-1) 1 (beta_of 2) (inv_gamma2 2) beta_2 0 0 0 1 0 1 (PI / 2) _
    G ltac:(fold q; lra) Dq) as E.
  cbv zeta in E. fold k q in E.
  assert (H' : is_derive (fun z => rowsum (gz 1 (-1) 1 (beta_of 2) (inv_gamma2 2) z) 2 0 0 0 1 1)
     (PI / 2) (rhs 1 (-1) 1 (beta_of 2) (inv_gamma2 2) 0 0 0 1 0 1 (PI / 2) 2)).
  { replace (rhs 1 (-1) 1 (beta_of 2) (inv_gamma2 2) 0 0 0 1 0 1 (PI / 2) 2) with
      (rhs (1 / 1) (-1) 1 (beta_of 2) (inv_gamma2 2) 0 0 0 1 0 1 (PI / 2) 2)
      by (f_equal; field).
    rewrite rhs_lift by apply beta_2. replace (1 / 1) with 1 by field.
    eapply is_derive_ext; [|exact H]. intros t. cbv beta.
    rewrite second_rows, nth_rows by lia. replace (1 / 1) with 1 by field. reflexivity. }
  apply is_derive_unique in H'. apply is_derive_unique in E. rewrite H' in E. clear H H'.
  assert (C0 : CX q (PI / 2) = 0).
  { rewrite Eq, CX_pos, sqrt_1, Rmult_1_r by lra. apply cos_PI2. }
  assert (S1 : SX q (PI / 2) = 1).
  { rewrite Eq, SX_pos, sqrt_1, Rmult_1_r, sin_PI2 by lra. field. }
  rewrite C0, S1 in E.
  assert (EJ : Jf k q (PI / 2) - (J1 k (PI / 2) - Js k q (PI / 2)) / (4 * q) = - 3 * PI / 32).
  { unfold Jf, Js, F2. rewrite !rnz_true by (rewrite ?Hm, ?Eq; lra). rewrite C0, S1, Hm, Ek, Eq.
    rewrite SX_0. unfold J1. rewrite rnz_false. field. }
  rewrite EJ in E. pose proof beta_2 as Hb. pose proof PI_RGT_0.
  assert (Z : 2 * 1 * 1 / beta_of 2 * 1 * (3 * PI / 16) <> 0).
  { apply Rmult_integral_contrapositive; split; [|lra].
    unfold Rdiv. repeat (apply Rmult_integral_contrapositive; split); try lra.
    apply Rinv_neq_0_compat; assumption. }
  apply Z. set (r := rhs _ _ _ _ _ _ _ _ _ _ _ _ _) in E.
  match type of E with ?a = ?b => assert (Q : a - b = 0) by lra end.
  rewrite <- Q. field. assumption.
Qed.

(** ** Coordinates *)
Lemma p_kin_pos g : 1 < g -> 0 < p_kin g.
Proof. intros. unfold p_kin. apply sqrt_lt_R0. nra. Qed.
Lemma b_ref_pos g : 1 < g -> 0 < b_ref g.
Proof.
  intros H. unfold b_ref. apply sqrt_lt_R0. assert (/ g ^ 2 < / 1).
  { apply Rinv_lt_contravar; nra. } lra.
Qed.

Lemma ocelot_round_trip g v : 1 < g -> is_col v ->
  from_ocelot_col g (to_ocelot_col g v) =
  [nth 0 v 0; nth 1 v 0; nth 2 v 0; nth 3 v 0; nth 4 v 0; Rabs (nth 5 v 0)].
Proof.
  intros Hg Hv. apply col6 in Hv as (x & px & y & py & ta & d & ->).
  pose proof (p_kin_pos g Hg) as P. pose proof (b_ref_pos g Hg) as B.
  unfold from_ocelot_col, to_ocelot_col, col_gamma. cbn [nth]. leq; try (field; lra); try ring.
  set (s := 1 + px ^ 2 + py ^ 2 + d ^ 2).
  assert (Hs : 0 <= s) by (unfold s; pose proof (pow2_ge_0 px); pose proof (pow2_ge_0 py);
    pose proof (pow2_ge_0 d); lra).
  replace ((sqrt s - g) / (g * b_ref g) * g * b_ref g + g) with (sqrt s) by (field; lra).
  replace (px / p_kin g * p_kin g) with px by (field; lra).
  replace (py / p_kin g * p_kin g) with py by (field; lra).
  rewrite pow2_sqrt by assumption. rewrite <- sqrt_Rsqr_abs. f_equal. unfold s, Rsqr. ring.
Qed.

Lemma ocelot_round_trip_back g u : 1 < g -> is_col u ->
  let gamma := g + nth 5 u 0 * g * b_ref g in
  0 <= gamma ->
  1 + (nth 1 u 0 * p_kin g) ^ 2 + (nth 3 u 0 * p_kin g) ^ 2 <= gamma ^ 2 ->
  to_ocelot_col g (from_ocelot_col g u) = u.
Proof.
  intros Hg Hv gamma H0 H1. apply col6 in Hv as (x & px & y & py & ta & d & ->).
  pose proof (p_kin_pos g Hg) as P. pose proof (b_ref_pos g Hg) as B. unfold gamma in *. clear gamma.
  cbn [nth] in *. unfold from_ocelot_col, to_ocelot_col, col_gamma. cbn [nth].
  leq; try (field; lra); try ring.
  rewrite pow2_sqrt by (replace (d * g * b_ref g + g) with (g + d * g * b_ref g) by ring; lra).
  replace (1 + (px * p_kin g) ^ 2 + (py * p_kin g) ^ 2 +
    ((d * g * b_ref g + g) ^ 2 - (px * p_kin g) ^ 2 - (py * p_kin g) ^ 2 - 1))
    with ((g + d * g * b_ref g) ^ 2) by ring.
  rewrite sqrt_pow2 by assumption. field. lra.
Qed.

Lemma rotation_compose a b v : is_col v ->
  mat_vec (rotation_matrix_xz a) (mat_vec (rotation_matrix_xz b) v) =
  mat_vec (rotation_matrix_xz (a + b)) v.
Proof.
  intros Hv. apply col6 in Hv as (x & px & y & py & ta & d & ->).
  unfold rotation_matrix_xz, mat_vec, sum6. cbn [map nth]. rewrite cos_plus, sin_plus.
  leq; ring.
Qed.
Lemma rotation_0 v : is_col v -> mat_vec (rotation_matrix_xz 0) v = v.
Proof.
  intros Hv. apply col6 in Hv as (x & px & y & py & ta & d & ->).
  unfold rotation_matrix_xz, mat_vec, sum6. cbn [map nth]. rewrite cos_0, sin_0.
  leq; ring.
Qed.
Lemma rotation_lengths a v : is_col v ->
  let u := mat_vec (rotation_matrix_xz a) v in
  nth 0 u 0 ^ 2 + nth 4 u 0 ^ 2 = nth 0 v 0 ^ 2 + nth 4 v 0 ^ 2 /\
  nth 1 u 0 ^ 2 + nth 5 u 0 ^ 2 = nth 1 v 0 ^ 2 + nth 5 v 0 ^ 2 /\
  nth 2 u 0 = nth 2 v 0 /\ nth 3 u 0 = nth 3 v 0 /\ col_gamma u = col_gamma v.
Proof.
  intros Hv u. apply col6 in Hv as (x & px & y & py & ta & d & ->).
  unfold u, rotation_matrix_xz, mat_vec, sum6. cbn [map nth].
  pose proof (sin2_cos2 a) as S. unfold Rsqr in S.
  set (s := sin a) in *. set (c := cos a) in *.
  assert (S' : s ^ 2 = 1 - c ^ 2) by lra. clear S.
  assert (E : (0 * x + c * px + 0 * y + 0 * py + 0 * ta + s * d) ^ 2 +
    (0 * x + - s * px + 0 * y + 0 * py + 0 * ta + c * d) ^ 2 = px ^ 2 + d ^ 2) by ring [S'].
  split; [ring [S']|]. split; [exact E|]. split; [ring|]. split; [ring|].
  unfold col_gamma. cbn [nth]. f_equal.
  replace (0 * x + 0 * px + 0 * y + 1 * py + 0 * ta + 0 * d) with py by ring. lra.
Qed.
(** The direction of the rotation. *)
Lemma rotation_direction a v : is_col v ->
  nth 0 (mat_vec (rotation_matrix_xz a) v) 0 = cos a * nth 0 v 0 + sin a * nth 4 v 0 /\
  nth 1 (mat_vec (rotation_matrix_xz a) v) 0 = cos a * nth 1 v 0 + sin a * nth 5 v 0 /\
  nth 4 (mat_vec (rotation_matrix_xz a) v) 0 = cos a * nth 4 v 0 - sin a * nth 0 v 0 /\
  nth 5 (mat_vec (rotation_matrix_xz a) v) 0 = cos a * nth 5 v 0 - sin a * nth 1 v 0.
Proof.
  intros Hv. apply col6 in Hv as (x & px & y & py & ta & d & ->).
  unfold rotation_matrix_xz, mat_vec, sum6. cbn [map nth]. repeat split; ring.
Qed.

(** ** Bridges *)
Lemma inv_gamma2_eq g : 1 < g -> inv_gamma2 g = / g ^ 2.
Proof. intros. unfold inv_gamma2. rewrite rnz_true by lra. field. lra. Qed.
Lemma beta_of_eq g : 1 < g -> beta_of g = rel_beta g.
Proof. intros. unfold beta_of, rel_beta. rewrite inv_gamma2_eq by assumption. reflexivity. Qed.
Lemma beta_of_neq g : 1 < g -> beta_of g <> 0.
Proof.
  intros H. rewrite beta_of_eq by assumption. change (rel_beta g) with (b_ref g).
  pose proof (b_ref_pos g H). lra.
Qed.

Lemma first_ode' L th k1 g z v i : 1 < g -> (i < 6)%nat ->
  is_derive (fun z => nth i (mat_vec (first_order_matrix z L th k1 g) v) 0) z
    (nth i (lin (th / L) k1 (rel_beta g) (/ g ^ 2)
       (mat_vec (first_order_matrix z L th k1 g) v)) 0).
Proof.
  intros Hg Hi. rewrite <- beta_of_eq, <- inv_gamma2_eq by assumption.
  apply first_ode; [apply beta_of_neq|]; assumption.
Qed.
Lemma second_ode' L th k1 k2 g z v i :
  1 < g -> is_col v -> (i < 6)%nat ->
  th / L = 0 \/ k1 = 0 /\ k2 = 0 \/ k2 = 0 /\ i <> 4%nat \/
    (i < 2)%nat /\ 5 * k1 + (th / L) ^ 2 <> 0 ->
  is_derive (fun z => nth i (quad_form (second_order_matrix z L th k1 k2 g) v) 0) z
    (nth i (lin (th / L) k1 (rel_beta g) (/ g ^ 2)
              (quad_form (second_order_matrix z L th k1 k2 g) v)) 0
     + nth i (quad (th / L) k1 k2 (rel_beta g) (/ g ^ 2)
              (mat_vec (first_order_matrix z L th k1 g) v)) 0).
Proof.
  intros Hg. rewrite <- beta_of_eq, <- inv_gamma2_eq by assumption.
  apply second_ode, beta_of_neq, Hg.
Qed.

Lemma track_compose z1 z2 L th k1 k2 g order v :
  1 < g -> is_col v -> order <> 2%nat ->
  track_col z2 L th k1 k2 g order (track_col z1 L th k1 k2 g order v) =
  track_col (z1 + z2) L th k1 k2 g order v.
Proof.
  intros Hg Hv Ho. unfold track_col. rewrite (proj2 (Nat.eqb_neq order 2) Ho).
  symmetry. apply first_compose; [apply beta_of_neq, Hg|exact Hv].
Qed.

Lemma nth_col_eq (v : list R) : is_col v ->
  v = [nth 0 v 0; nth 1 v 0; nth 2 v 0; nth 3 v 0; nth 4 v 0; nth 5 v 0].
Proof. intros Hv. apply col6 in Hv as (x & px & y & py & ta & d & ->). reflexivity. Qed.

Lemma ocelot_matrix m w go :
  List.Forall is_col m -> List.Forall (fun v => 0 <= nth 5 v 0) m ->
  1 < snd (convert_to_ocelot_matrix m w go) ->
  convert_from_ocelot_matrix (fst (convert_to_ocelot_matrix m w go))
    (snd (convert_to_ocelot_matrix m w go)) = m.
Proof.
  intros HC HP. unfold convert_to_ocelot_matrix. cbn [fst snd].
  set (g := match go with Some g => g | None => _ end). clearbody g. intros Hg.
  unfold convert_from_ocelot_matrix. rewrite map_map.
  induction m as [|v m IH]; [reflexivity|]. inversion HC; inversion HP; subst. cbn [map].
  rewrite IH by assumption. f_equal. rewrite ocelot_round_trip by assumption.
  rewrite Rabs_right by lra. symmetry. apply nth_col_eq. assumption.
Qed.

Lemma sum_scaled (f : list R -> R) (g s : R) m w :
  length m = length w -> s <> 0 ->
  sum (map2 Rmult (map (fun v => (f v - g) / s) m) w) =
  (sum (map2 Rmult (map f m) w) - g * sum w) / s.
Proof.
  intros H Hs. revert w H. induction m as [|v m IH]; intros [|a w] H; try discriminate; cbn.
  - field. assumption.
  - injection H as H. change (fold_right Rplus 0 (map2 Rmult (map (fun v => (f v - g) / s) m) w))
      with (sum (map2 Rmult (map (fun v => (f v - g) / s) m) w)). rewrite IH by assumption.
    change (fold_right Rplus 0 (map2 Rmult (map f m) w)) with (sum (map2 Rmult (map f m) w)).
    change (fold_right Rplus 0 w) with (sum w). field. assumption.
Qed.
Lemma ocelot_mean m w :
  length m = length w -> sum w <> 0 ->
  let g := snd (convert_to_ocelot_matrix m w None) in
  1 < g ->
  g = sum (map2 Rmult (map col_gamma m) w) / sum w /\
  sum (map2 Rmult (map (fun v => nth 5 v 0) (fst (convert_to_ocelot_matrix m w None))) w) = 0.
Proof.
  intros H Hs g Hg. split; [reflexivity|].
  unfold convert_to_ocelot_matrix in *. cbn [fst snd] in *.
  set (g0 := average (map col_gamma m) w) in *. rewrite map_map. cbn [nth to_ocelot_col].
  change (1 < g0) in Hg. pose proof (b_ref_pos g0 Hg).
  rewrite (sum_scaled col_gamma g0 (g0 * b_ref g0) m w H).
  - replace (sum (map2 Rmult (map col_gamma m) w)) with (g0 * sum w)
      by (unfold g0, average; field; exact Hs).
    unfold Rdiv. ring.
  - apply Rmult_integral_contrapositive. split; lra.
Qed.

(** ** The error in general combined-function magnets *)
Lemma Jf_error k q z : mden k q <> 0 -> q <> 0 ->
  is_derive (Jf k q) z (Jd k q z + 3 / 2 * SX q z ^ 2 / mden k q) /\
  Jf k q z - (J1 k z - Js k q z) / (4 * q) = 3 / 4 * (z - SX q z * CX q z) / (q * mden k q).
Proof.
  intros Hm Hq. pose proof (is_derive_SX q z) as A. pose proof (is_derive_CX q z) as B.
  pose proof (is_derive_J1 k z) as C. pose proof (CX_SX q z) as S. pose proof (z_J1 k z) as Z.
  unfold Jf, F2, Jd, Js. rewrite !rnz_true by assumption. split.
  - auto_derive; [exd|]. der. replace 0.5 with (/ 2) by lra.
    set (s := SX q z) in *. set (c := CX q z) in *. clearbody s c.
    assert (S' : c ^ 2 = 1 - q * s ^ 2) by lra. field [S']. split; assumption.
  - set (j1 := J1 k z) in *. set (sx := SX k z) in *. set (s := SX q z) in *.
    set (c := CX q z) in *. clearbody s c j1 sx. subst z. unfold mden in *. field.
    split; assumption.
Qed.
Lemma second_error_full L th k1 k2 g z v :
  beta_of g <> 0 -> is_col v ->
  let h := th / L in let k := k1 + h ^ 2 in let m := 5 * k1 + h ^ 2 in
  k <> 0 -> k1 <> 0 -> m <> 0 ->
  let M := first_order_matrix z L th k1 g in
  let ode i := nth i (lin h k1 (beta_of g) (inv_gamma2 g)
              (quad_form (second_order_matrix z L th k1 k2 g) v)) 0
     + nth i (quad h k1 k2 (beta_of g) (inv_gamma2 g) (mat_vec M v)) 0 in
  is_derive (fun z => nth 4 (quad_form (second_order_matrix z L th k1 k2 g) v) 0) z
    (ode 4%nat - h ^ 3 * (k2 + 2 * h * k1) / beta_of g ^ 3
         * (entry M 0 0 * entry M 0 1 ^ 2 / (8 * k ^ 2)) * nth 5 v 0 ^ 2
     + h * k2 / beta_of g * (k1 * nth 2 v 0 ^ 2 + nth 3 v 0 ^ 2)
         * (3 / 2 * entry M 2 3 ^ 2 / m)) /\
  is_derive (fun z => nth 2 (quad_form (second_order_matrix z L th k1 k2 g) v) 0) z
    (ode 2%nat - 3 * h * k2 / (beta_of g * m) * nth 5 v 0 *
       (nth 2 v 0 * (entry M 2 3 ^ 3 * k1 - entry M 2 2 * (z - entry M 2 2 * entry M 2 3))
        + nth 3 v 0 * (entry M 2 2 * entry M 2 3 ^ 2
                       - entry M 2 3 * (z - entry M 2 2 * entry M 2 3)))).
Proof.
  intros Hb Hv h k m Hk Hk1 Hm M ode. apply col6 in Hv as (x & px & y & py & ta & d & ->).
  unfold ode, M, h. rewrite <- !rhs_lift by assumption. fold h.
  rewrite first_nf. fold h. unfold entry. cbn [nth].
  assert (E : k1 + h * h = k) by (unfold k; ring).
  assert (Em : mden (k1 + h * h) (- k1) = m) by (unfold mden, m; ring).
  assert (Hm' : mden (k1 + h * h) (- k1) <> 0) by (rewrite Em; exact Hm).
  assert (Hq : - k1 <> 0) by lra.
  destruct (Jf_error (k1 + h * h) (- k1) z Hm' Hq) as [D V].
  assert (G : good (k1 + h * h) (- k1)) by (left; exact Hm'). rewrite Em in D, V. split.
  - apply second_lift; [lia|]. fold h.
    pose proof (row4_full h k1 k2 (beta_of g) (inv_gamma2 g) Hb x px y py ta d z _ G D) as R.
    rewrite E in *.
    match type of R with is_derive _ _ ?a => match goal with |- is_derive _ _ ?b =>
      replace b with a; [exact R|] end end.
    unfold E3. rewrite rnz_true by assumption. clearbody m.
    set (r := rhs _ _ _ _ _ _ _ _ _ _ _ _ _). field. repeat split; assumption.
  - apply second_lift; [lia|]. fold h.
    pose proof (row2_error h k1 k2 (beta_of g) (inv_gamma2 g) Hb x px y py ta d z _ G Hq D) as R.
    cbv zeta in R. rewrite V in R. rewrite E in *.
    match type of R with is_derive _ _ ?a => match goal with |- is_derive _ _ ?b =>
      replace b with a; [exact R|] end end.
    clearbody m. set (r := rhs _ _ _ _ _ _ _ _ _ _ _ _ _). field. repeat split; assumption.
Qed.
