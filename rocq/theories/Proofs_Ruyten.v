(** Integrals of the radial shapes with the Ruyten correction. *)
From Coq Require Import Reals ZArith String List Lra Lia.
From Coquelicot Require Import Coquelicot.
From Verif Require Import Model_Push Model_Interp Spec_Interp Proofs_Interp
  Model_Deposit Spec_Deposit Proofs_Deposit.
Import ListNotations.
Open Scope R_scope.

(** Share of column [j] as a function of the radius in units of dr. *)
Definition hshare (g : dgrid) (cubic : bool) (j : Z) (x : R) : R :=
  let K := kernel_of g cubic true (x - / 2) 0 in at_ (k_r K) (j + 2 - k_ir K).

Lemma kernel_r_indep g cubic ruyten rc zc zc' :
  k_r (kernel_of g cubic ruyten rc zc) = k_r (kernel_of g cubic ruyten rc zc') /\
  k_ir (kernel_of g cubic ruyten rc zc) = k_ir (kernel_of g cubic ruyten rc zc').
Proof. unfold kernel_of. destruct cubic; [unfold cubic_kernel, cubic_shape|]; split; reflexivity. Qed.

Lemma radial_share_eq g s z r j : shape_name s -> dgrid_ok g ->
  dg_zmin g <= z <= z_last g -> 0 <= r <= r_edge g ->
  radial_share g s true z r j = hshare g (is_cubic s) j (r / dg_dr g).
Proof.
  intros Hs Hg Hz Hr. unfold radial_share.
  assert (Ha : darray g (zeros g)) by (split; reflexivity).
  destruct (deposit_3d_lemma g s true [(r, 0, z, 1)] (zeros g) Hs Hg Ha) as (b & -> & P1 & P2 & P3).
  rewrite P1. cbn [rows zeros].
  assert (R0 : radius (r, 0, z) = r).
  { cbn. replace (r * r + 0 * 0) with (r * r) by ring. apply sqrt_square. lra. }
  assert (I : inside g (r, 0, z)) by (split; [exact Hz|rewrite R0; lra]).
  pose proof (inside_cells g _ Hg I) as Hc.
  pose proof (kernel_fits g (is_cubic s) true _ _ Hc) as (F1 & F2 & _).
  set (K := kernel_of g (is_cubic s) true (r_cells g (r, 0, z)) (z_cells g (r, 0, z))) in *.
  rewrite (sum_range_ext _ _ (fun i => at_ (k_r K) (j + 2 - k_ir K) * ((fun _ => 1) i * at_ (k_z K) (i - k_iz K)))).
  - rewrite sum_range_scal, (sum_placed (fun _ => 1)) by assumption. rewrite wsum_one.
    destruct (kernel_sum g (is_cubic s) true (r_cells g (r, 0, z)) (z_cells g (r, 0, z))) as [E _].
    fold K in E. rewrite E. unfold hshare. unfold K, r_cells. rewrite R0.
    destruct Hg as (_ & Hr0 & Em & _). rewrite Em.
    replace ((r - dg_dr g / 2) / dg_dr g) with (r / dg_dr g - / 2) by (field; lra).
    destruct (kernel_r_indep g (is_cubic s) true (r / dg_dr g - / 2) (z_cells g (r, 0, z)) 0) as [-> ->]. ring.
  - intros i _. rewrite P3. cbn [cell zeros contributions fold_right].
    unfold particle; cbn [fst snd]. destruct (inside_dec g (r, 0, z)); [|contradiction].
    fold K. unfold spread. ring.
Qed.

(** ** Integrals of polynomial pieces *)
Lemma poly_piece f n lo hi b0 b1 b2 b3 : lo <= hi ->
  (forall u, lo < u < hi -> f (n - / 2 + u) = (b0 + b1 * u + b2 * u ^ 2 + b3 * u ^ 3)) ->
  is_RInt (fun x => f x * x) (n - / 2 + lo) (n - / 2 + hi)
    (let m := n - / 2 in
     let P := fun u => b0 * m * u + (b1 * m + b0) * u ^ 2 / 2 + (b2 * m + b1) * u ^ 3 / 3
                       + (b3 * m + b2) * u ^ 4 / 4 + b3 * u ^ 5 / 5 in P hi - P lo).
Proof.
  intros Hle Hf. set (m := n - / 2) in *.
  set (p := fun x => (b0 + b1 * (x - m) + b2 * (x - m) ^ 2 + b3 * (x - m) ^ 3) * x).
  set (Q := fun u => b0 * m * u + (b1 * m + b0) * u ^ 2 / 2 + (b2 * m + b1) * u ^ 3 / 3
                       + (b3 * m + b2) * u ^ 4 / 4 + b3 * u ^ 5 / 5).
  apply (is_RInt_ext p).
  { intros x Hx. rewrite Rmin_left, Rmax_right in Hx by lra. unfold p.
    replace (f x) with (f (m + (x - m))) by (f_equal; ring).
    rewrite Hf by lra. reflexivity. }
  cbv zeta. change (is_RInt p (m + lo) (m + hi) (Q hi - Q lo)).
  replace (Q hi - Q lo) with (minus (Q (m + hi - m)) (Q (m + lo - m)))
    by (unfold minus, plus, opp; cbn; replace (m + hi - m) with hi by ring;
        replace (m + lo - m) with lo by ring; ring).
  apply (is_RInt_derive (fun x => Q (x - m)) p).
  - intros x _. unfold Q, p. auto_derive; [trivial|]. field.
  - intros x _. unfold p. apply (ex_derive_continuous (V := R_NormedModule)). auto_derive. trivial.
Qed.
Lemma zero_piece f lo hi : (forall x, lo < x < hi -> f x = 0) -> lo <= hi ->
  is_RInt (fun x => f x * x) lo hi 0.
Proof.
  intros Hf H. apply (is_RInt_ext (fun _ => 0)).
  - intros x Hx. rewrite Rmin_left, Rmax_right in Hx by lra. rewrite Hf by lra. cbn. ring.
  - pose proof (is_RInt_const (V := R_NormedModule) lo hi 0) as C.
    assert (E : scal (hi - lo) (0 : R_NormedModule) = 0)
      by (unfold scal; cbn; unfold mult; cbn; ring).
    rewrite E in C. exact C.
Qed.

(** ** The shapes on a piece *)
Lemma piece_ceil n u : 0 < u <= 1 -> ceil (IZR n - / 2 + u - / 2) = n.
Proof. intros H. apply ceil_spec. lra. Qed.
Definition lin_coef (n : Z) : R := if Z.eqb n 0 then 0 else - / (4 * IZR n).
Definition cub_coef (n : Z) : R :=
  if Z.eqb n 0 then 0 else if Z.eqb n 1 then - (239 / 320) else - (3 / (4 * IZR n)).
Lemma lin_coef_eq g n : dgrid_ok g -> (0 <= n)%Z -> coef_of true (ruyten_linear g) n = lin_coef n.
Proof.
  intros Hg Hn. unfold coef_of, lin_coef. destruct (Z.eqb_spec n 0) as [->|]; [reflexivity|].
  rewrite ruyten_linear_eq by (assumption || lia). rewrite INR_IZR_INZ, Z2Nat.id by lia. reflexivity.
Qed.
Lemma cub_coef_eq g n : dgrid_ok g -> (0 <= n)%Z -> coef_of true (ruyten_cubic g) n = cub_coef n.
Proof.
  intros Hg Hn. unfold coef_of, cub_coef. destruct (Z.eqb_spec n 0) as [->|]; [reflexivity|].
  destruct (Z.eqb_spec n 1) as [->|]; [apply ruyten_cubic_1; assumption|].
  rewrite ruyten_cubic_eq by (assumption || lia). rewrite INR_IZR_INZ, Z2Nat.id by lia. reflexivity.
Qed.

(** Linear weights of the left and right node at position [u] of piece [n]. *)
Definition lin_u (g : dgrid) (n : Z) (u : R) : R :=
  if Z.eqb n 0 then 1 else if Z.eqb n (dg_nr g) then 0 else u.
Lemma linear_piece g j n u : dgrid_ok g -> (0 <= n <= dg_nr g)%Z -> 0 < u < 1 ->
  hshare g false j (IZR n - / 2 + u) =
  let U := lin_u g n u in
  at_ [(1 - U) + lin_coef n * (1 - U) * U; U - lin_coef n * (1 - U) * U] (j + 1 - n).
Proof.
  intros Hg Hn Hu. unfold hshare, kernel_of. cbn [linear_kernel k_r k_ir].
  rewrite piece_ceil by lra. rewrite lin_coef_eq by (assumption || lia).
  replace (j + 2 - (n + 1))%Z with (j + 1 - n)%Z by lia.
  assert (E : u_r_linear g (IZR n - / 2 + u - / 2) = lin_u g n u).
  { unfold u_r_linear, lin_u. rewrite piece_ceil by lra. destruct (Z.eqb_spec n 0) as [->|N0].
    - destruct (Rlt_dec _ 0); [reflexivity|]. lra.
    - assert (1 <= IZR n) by (apply (IZR_le 1); lia). destruct (Rlt_dec _ 0); [lra|].
      destruct (Z.eqb_spec n (dg_nr g)) as [->|N1].
      + destruct (Rlt_dec _ _); [reflexivity|lra].
      + assert (IZR n <= IZR (dg_nr g - 1)) by (apply IZR_le; lia). rewrite minus_IZR in H0.
        destruct (Rlt_dec _ _); [lra|]. lra. }
  rewrite E. reflexivity.
Qed.
(** Every point of the domain that is no cell centre lies in some piece. *)
Lemma some_piece x N : 0 < x < IZR N -> exists n u, x = IZR n - / 2 + u /\ 0 < u <= 1 /\ (0 <= n <= N)%Z.
Proof.
  intros H. exists (ceil (x - / 2)), (x + / 2 - IZR (ceil (x - / 2))).
  pose proof (ceil_bounds (x - / 2)). split; [lra|]. split; [lra|].
  split; [apply ceil_ge; lra|apply ceil_le; lra].
Qed.
Lemma linear_zero g j x : dgrid_ok g -> 0 < x < IZR (dg_nr g) ->
  x < IZR j - / 2 \/ IZR j + 3 / 2 < x -> hshare g false j x = 0.
Proof.
  intros Hg Hx H. destruct (some_piece x (dg_nr g) Hx) as (n & u & E & Hu & Hn).
  unfold hshare, kernel_of. cbn [linear_kernel k_r k_ir]. rewrite E.
  rewrite piece_ceil by lra. apply at_outside. cbn [length].
  destruct H as [H|H].
  - right. assert (IZR n < IZR j) by lra. apply lt_IZR in H0. lia.
  - left. assert (IZR (j + 1) < IZR n) by (rewrite plus_IZR; lra). apply lt_IZR in H0. lia.
Qed.

Ltac zeqb := repeat match goal with |- context [Z.eqb ?x ?y] => destruct (Z.eqb_spec x y); try lia end.
Lemma chasles (f : R -> R) a b c (l1 l2 l : R) : is_RInt f a b l1 -> is_RInt f b c l2 -> l1 + l2 = l -> is_RInt f a c l.
Proof. intros H1 H2 <-. apply (is_RInt_Chasles (V := R_NormedModule) f a b c l1 l2 H1 H2). Qed.
Lemma is_RInt_eq (f : R -> R) a b a' b' (l l' : R) : is_RInt f a' b' l' -> a' = a -> b' = b -> l' = l -> is_RInt f a b l.
Proof. now intros H -> -> ->. Qed.

Lemma linear_integral g j : dgrid_ok g -> (0 <= j < dg_nr g)%Z ->
  is_RInt (fun x => hshare g false j x * x) 0 (IZR (dg_nr g)) (IZR j + / 2).
Proof.
  intros Hg Hj. pose proof Hg as (_ & _ & _ & _ & Hn).
  assert (J0 : 0 <= IZR j) by (apply (IZR_le 0); lia).
  assert (J1 : IZR j + 1 <= IZR (dg_nr g)) by (rewrite <- plus_IZR; apply IZR_le; lia).
  (* left half *)
  assert (L : is_RInt (fun x => hshare g false j x * x) 0 (IZR j + / 2)
                (if Z.eqb j 0 then / 8 else (IZR j - / 2) / 2 + / 3 + / (4 * IZR j) * ((IZR j - / 2) / 6 + / 12))).
  { destruct (Z.eqb_spec j 0) as [->|Nj].
    - eapply is_RInt_eq.
      + apply (poly_piece (hshare g false 0) 0 (/ 2) 1 1 0 0 0); [lra|].
        intros u Hu. rewrite (linear_piece g 0 0 u) by (assumption || lia || lra).
        cbn [Z.add Z.sub Z.opp]. rewrite at2. cbn. unfold lin_u, lin_coef. cbn. ring.
      + lra.
      + lra.
      + lra.
    - assert (1 <= IZR j) by (apply (IZR_le 1); lia).
      eapply chasles.
      + apply (zero_piece (hshare g false j) 0 (IZR j - / 2)); [|lra].
        intros x Hx. apply linear_zero; [assumption|lra|lra].
      + eapply is_RInt_eq.
        * apply (poly_piece (hshare g false j) (IZR j) 0 1 0 (1 - lin_coef j) (lin_coef j) 0); [lra|].
          intros u Hu. rewrite (linear_piece g j j u) by (assumption || lia || lra).
          rewrite at2. unfold lin_u. zeqb. ring.
        * lra.
        * lra.
        * reflexivity.
      + unfold lin_coef. zeqb. cbv beta zeta. field. lra. }
  (* right half *)
  assert (R : is_RInt (fun x => hshare g false j x * x) (IZR j + / 2) (IZR (dg_nr g))
                (if Z.eqb (j + 1) (dg_nr g) then (IZR j + / 2) / 2 + / 8
                 else (IZR j + / 2) / 2 + / 6 - / (4 * (IZR j + 1)) * ((IZR j + / 2) / 6 + / 12))).
  { destruct (Z.eqb_spec (j + 1) (dg_nr g)) as [E|E].
    - eapply is_RInt_eq.
      + apply (poly_piece (hshare g false j) (IZR (j + 1)) 0 (/ 2) 1 0 0 0); [lra|].
        intros u Hu. rewrite (linear_piece g j (j + 1) u) by (assumption || lia || lra).
        rewrite at2. unfold lin_u. zeqb. ring.
      + rewrite plus_IZR; lra.
      + rewrite <- E, plus_IZR. lra.
      + rewrite plus_IZR. cbv beta zeta. field.
    - assert (J2 : IZR j + 2 <= IZR (dg_nr g)) by (rewrite <- plus_IZR; apply IZR_le; lia).
      eapply chasles.
      + eapply is_RInt_eq.
        * apply (poly_piece (hshare g false j) (IZR (j + 1)) 0 1 1 (- 1 + lin_coef (j + 1)) (- lin_coef (j + 1)) 0); [lra|].
          intros u Hu. rewrite (linear_piece g j (j + 1) u) by (assumption || lia || lra).
          rewrite at2. unfold lin_u. zeqb. ring.
        * rewrite plus_IZR; lra.
        * instantiate (1 := IZR j + 3 / 2). rewrite plus_IZR; lra.
        * reflexivity.
      + apply (zero_piece (hshare g false j)); [|lra].
        intros x Hx. apply linear_zero; [assumption|lra|lra].
      + unfold lin_coef. zeqb. rewrite plus_IZR. cbv beta zeta. field. lra. }
  eapply chasles; [exact L|exact R|].
  destruct (Z.eqb_spec (j + 1) (dg_nr g)); destruct (Z.eqb_spec j 0) as [->|Nj].
  - lra.
  - assert (1 <= IZR j) by (apply (IZR_le 1); lia). field. lra.
  - lra.
  - assert (1 <= IZR j) by (apply (IZR_le 1); lia). field. lra.
Qed.

(** ** Cubic shape *)
Definition foldz (N n : Z) (s0 s1 s2 s3 : R) : list R :=
  if Z.eqb n 0 then [0; 0; s2 + s1; s3 + s0]
  else if Z.eqb n 1 then [0; s1 + s0; s2; s3]
  else if Z.eqb n N then [s0 + s3; s1 + s2; 0; 0]
  else if Z.eqb n (N - 1) then [s0; s1; s2 + s3; 0]
  else [s0; s1; s2; s3].
Lemma cubic_piece g j n u : dgrid_ok g -> (0 <= n <= dg_nr g)%Z -> 0 < u < 1 ->
  hshare g true j (IZR n - / 2 + u) =
  let k := cub_coef n in let v := 1 - u in
  at_ (foldz (dg_nr g) n (1 / 6 * v ^ 3) (1 / 6 * (3 * u ^ 3 - 6 * u ^ 2 + 4) + k * v * u)
         (1 / 6 * (3 * v ^ 3 - 6 * v ^ 2 + 4) - k * v * u) (1 / 6 * u ^ 3)) (j + 2 - n).
Proof.
  intros Hg Hn Hu. unfold hshare, kernel_of, cubic_kernel, cubic_shape. cbn [k_r k_ir].
  rewrite piece_ceil by lra. rewrite cub_coef_eq by (assumption || lia).
  replace (IZR n - / 2 + u - / 2 - IZR n + 1) with u by lra. f_equal.
  unfold fold_edges, foldz. destruct (Z.eqb_spec n 0) as [->|N0].
  { destruct (Rle_dec _ 0); [reflexivity|lra]. }
  assert (1 <= IZR n) by (apply (IZR_le 1); lia). destruct (Rle_dec _ 0); [lra|].
  destruct (Z.eqb_spec n 1) as [->|N1].
  { destruct (Rle_dec _ 1); [reflexivity|lra]. }
  assert (2 <= IZR n) by (apply (IZR_le 2); lia). destruct (Rle_dec _ 1); [lra|].
  destruct (Z.eqb_spec n (dg_nr g)) as [->|N2].
  { destruct (Rlt_dec (IZR (dg_nr g) - 1) _); [reflexivity|lra]. }
  assert (M : IZR n <= IZR (dg_nr g - 1)) by (apply IZR_le; lia). rewrite minus_IZR in M.
  destruct (Rlt_dec (IZR (dg_nr g) - 1) _); [lra|].
  destruct (Z.eqb_spec n (dg_nr g - 1)) as [->|N3].
  { rewrite minus_IZR. destruct (Rlt_dec (IZR (dg_nr g) - 2) _); [reflexivity|lra]. }
  assert (M' : IZR n <= IZR (dg_nr g - 2)) by (apply IZR_le; lia). rewrite minus_IZR in M'.
  destruct (Rlt_dec (IZR (dg_nr g) - 2) _); [lra|]. reflexivity.
Qed.
Lemma cubic_zero g j x : dgrid_ok g -> 0 < x < IZR (dg_nr g) ->
  x < IZR j - 3 / 2 \/ IZR j + 5 / 2 < x -> hshare g true j x = 0.
Proof.
  intros Hg Hx H. destruct (some_piece x (dg_nr g) Hx) as (n & u & E & Hu & Hn).
  unfold hshare, kernel_of, cubic_kernel, cubic_shape. cbn [k_r k_ir]. rewrite E.
  rewrite piece_ceil by lra. apply at_outside. rewrite fold_edges_length.
  destruct H as [H|H].
  - right. assert (IZR n < IZR (j - 1)) by (rewrite minus_IZR; lra). apply lt_IZR in H0. lia.
  - left. assert (IZR (j + 2) < IZR n) by (rewrite plus_IZR; lra). apply lt_IZR in H0. lia.
Qed.
(** Two equal numbers give the same piece. *)
Lemma cubic_poly g j n lo hi b0 b1 b2 b3 a b l : dgrid_ok g -> (0 <= n <= dg_nr g)%Z ->
  0 <= lo -> lo <= hi -> hi <= 1 ->
  (forall u, 0 < u < 1 ->
    (let k := cub_coef n in let v := 1 - u in
     at_ (foldz (dg_nr g) n (1 / 6 * v ^ 3) (1 / 6 * (3 * u ^ 3 - 6 * u ^ 2 + 4) + k * v * u)
         (1 / 6 * (3 * v ^ 3 - 6 * v ^ 2 + 4) - k * v * u) (1 / 6 * u ^ 3)) (j + 2 - n))
    = b0 + b1 * u + b2 * u ^ 2 + b3 * u ^ 3) ->
  IZR n - / 2 + lo = a -> IZR n - / 2 + hi = b ->
  (let m := IZR n - / 2 in
     b0 * m * hi + (b1 * m + b0) * hi ^ 2 / 2 + (b2 * m + b1) * hi ^ 3 / 3
                       + (b3 * m + b2) * hi ^ 4 / 4 + b3 * hi ^ 5 / 5
     - (b0 * m * lo + (b1 * m + b0) * lo ^ 2 / 2 + (b2 * m + b1) * lo ^ 3 / 3
                       + (b3 * m + b2) * lo ^ 4 / 4 + b3 * lo ^ 5 / 5)) = l ->
  is_RInt (fun x => hshare g true j x * x) a b l.
Proof.
  intros Hg Hn H0 H1 H2 H Ha Hb <-. subst a b.
  apply (poly_piece (hshare g true j) (IZR n) lo hi b0 b1 b2 b3); [assumption|].
  intros u Hu. rewrite cubic_piece by (assumption || lra). apply H. lra.
Qed.
Ltac cshape := intros u Hu; cbv zeta; unfold foldz; zeqb; rewrite at4; zeqb; field.

Lemma cubic_right g j : dgrid_ok g -> (0 <= j)%Z -> (j + 3 <= dg_nr g)%Z ->
  is_RInt (fun x => hshare g true j x * x) (IZR j + 3 / 2) (IZR (dg_nr g))
          ((IZR j + 3 / 2) / 24 + / 120).
Proof.
  intros Hg H0 H1. assert (J : IZR j + 3 <= IZR (dg_nr g)) by (rewrite <- plus_IZR; apply IZR_le; lia).
  assert (J0 : 0 <= IZR j) by (apply (IZR_le 0); lia).
  eapply (chasles _ _ (IZR j + 5 / 2)).
  - apply (cubic_poly g j (j + 2) 0 1 (1 / 6) (- 1 / 2) (1 / 2) (- 1 / 6)); try assumption; try lra; try lia.
    + cshape.
    + rewrite plus_IZR; lra.
    + rewrite plus_IZR; lra.
    + reflexivity.
  - apply (zero_piece (hshare g true j)); [|lra]. intros x Hx. apply cubic_zero; [assumption|lra|lra].
  - rewrite plus_IZR. cbv zeta. field.
Qed.

Lemma cubic_left g j : dgrid_ok g -> (2 <= j < dg_nr g)%Z ->
  is_RInt (fun x => hshare g true j x * x) 0 (IZR j - / 2)
          ((IZR j - 3 / 2) / 24 + / 30).
Proof.
  intros Hg H0. assert (J : IZR j + 1 <= IZR (dg_nr g)) by (rewrite <- plus_IZR; apply IZR_le; lia).
  assert (J0 : 2 <= IZR j) by (apply (IZR_le 2); lia).
  eapply (chasles _ _ (IZR j - 3 / 2)).
  - apply (zero_piece (hshare g true j)); [|lra]. intros x Hx. apply cubic_zero; [assumption|lra|lra].
  - apply (cubic_poly g j (j - 1) 0 1 0 0 0 (1 / 6)); try assumption; try lra; try lia.
    + cshape.
    + rewrite minus_IZR; lra.
    + rewrite minus_IZR; lra.
    + reflexivity.
  - rewrite minus_IZR. cbv zeta. field.
Qed.
(** The piece to the left of node [j]. *)
Lemma cubic_mid_left g j : dgrid_ok g -> (1 <= j)%Z -> (j + 2 <= dg_nr g)%Z ->
  is_RInt (fun x => hshare g true j x * x) (IZR j - / 2) (IZR j + / 2)
     (let m := IZR j - / 2 in let k := cub_coef j in
      m / 6 + (m / 2 + 1 / 6) / 2 + (m / 2 + 1 / 2) / 3 + (- m / 2 + 1 / 2) / 4 - 1 / 10
      - k * (m / 6 + / 12)).
Proof.
  intros Hg H0 H1.
  apply (cubic_poly g j j 0 1 (1 / 6) (1 / 2 - cub_coef j) (1 / 2 + cub_coef j) (- 1 / 2));
    try assumption; try lra; try lia.
  cshape.
Qed.
(** The piece to the right of node [j >= 1]. *)
Lemma cubic_mid_right g j : dgrid_ok g -> (1 <= j)%Z -> (j + 2 <= dg_nr g)%Z ->
  is_RInt (fun x => hshare g true j x * x) (IZR j + / 2) (IZR j + 3 / 2)
     (let m := IZR j + / 2 in let k := cub_coef (j + 1) in
      2 * m / 3 + 1 / 3 - m / 3 + (m / 2 - 1) / 4 + 1 / 10
      + k * (m / 6 + / 12)).
Proof.
  intros Hg H0 H1.
  apply (cubic_poly g j (j + 1) 0 1 (2 / 3) (cub_coef (j + 1)) (- 1 - cub_coef (j + 1)) (1 / 2));
    try assumption; try lra; try lia.
  - cshape.
  - rewrite plus_IZR; lra.
  - rewrite plus_IZR; lra.
  - rewrite plus_IZR. cbv zeta. field.
Qed.

Lemma cubic_integral g j : dgrid_ok g -> (0 <= j)%Z -> (j + 3 <= dg_nr g)%Z ->
  is_RInt (fun x => hshare g true j x * x) 0 (IZR (dg_nr g)) (IZR j + / 2).
Proof.
  intros Hg H0 H1. pose proof (cubic_right g j Hg H0 H1) as R.
  destruct (Z.eq_dec j 0) as [->|N0].
  { eapply chasles; [|exact R|].
    - eapply (chasles _ _ (/ 2)).
      + apply (cubic_poly g 0 0 (/ 2) 1 (5 / 6) (1 / 2) (- 1 / 2) 0); try assumption; try lra; try lia.
        * cshape.
        * reflexivity.
      + apply (cubic_poly g 0 1 0 1 (5 / 6) (- 1 / 2 + cub_coef 1) (- 1 / 2 - cub_coef 1) (1 / 3)); try assumption; try lra; try lia.
        * cshape.
        * reflexivity.
      + reflexivity.
    - unfold cub_coef. cbn [Z.eqb Pos.eqb]. lra. }
  destruct (Z.eq_dec j 1) as [->|N1].
  { eapply chasles; [|exact R|].
    - eapply (chasles _ _ (1 + / 2)); [|apply (cubic_mid_right g 1); (assumption || lia)|reflexivity].
      eapply (chasles _ _ (1 - / 2)); [|apply (cubic_mid_left g 1); (assumption || lia)|reflexivity].
      apply (cubic_poly g 1 0 (/ 2) 1 (1 / 6) (- 1 / 2) (1 / 2) 0); try assumption; try lra; try lia.
      + cshape.
      + reflexivity.
    - cbv zeta. unfold cub_coef. cbn [Z.eqb Pos.eqb Z.add Pos.add]. lra. }
  assert (2 <= IZR j) by (apply (IZR_le 2); lia).
  eapply chasles; [|exact R|].
  - eapply chasles; [|apply (cubic_mid_right g j); (assumption || lia)|reflexivity].
    eapply chasles; [apply (cubic_left g j); (assumption || lia)
                    |apply (cubic_mid_left g j); (assumption || lia)|reflexivity].
  - cbv zeta. unfold cub_coef. zeqb. rewrite plus_IZR. field. lra.
Qed.
(** The last two cells. *)
Lemma cubic_integral_last g : dgrid_ok g -> (4 <= dg_nr g)%Z ->
  let N := dg_nr g in
  is_RInt (fun x => hshare g true (N - 2) x * x) 0 (IZR N) (IZR (N - 2) + / 2 - / 1920) /\
  is_RInt (fun x => hshare g true (N - 1) x * x) 0 (IZR N) (IZR (N - 1) + / 2 + / 1920).
Proof.
  intros Hg H N. subst N. assert (B : 4 <= IZR (dg_nr g)) by (apply (IZR_le 4); lia). split.
  - set (j := (dg_nr g - 2)%Z).
    eapply (chasles _ _ (IZR j + 3 / 2)).
    + eapply chasles; [|apply (cubic_mid_right g j); (assumption || lia)|reflexivity].
      eapply chasles; [apply (cubic_left g j); (assumption || lia)
                      |apply (cubic_mid_left g j); (assumption || lia)|reflexivity].
    + apply (cubic_poly g j (dg_nr g) 0 (/ 2) (1 / 6) (- 1 / 2) (1 / 2) 0); try assumption; try lra; try lia.
      * cshape.
      * unfold j. rewrite minus_IZR. lra.
      * reflexivity.
    + cbv zeta. unfold cub_coef. zeqb. rewrite plus_IZR. unfold j; rewrite minus_IZR. field. lra.
  - set (j := (dg_nr g - 1)%Z).
    eapply (chasles _ _ (IZR j + / 2)).
    + eapply chasles; [apply (cubic_left g j); (assumption || lia)| |reflexivity].
      apply (cubic_poly g j j 0 1 (1 / 6) (1 / 2 - cub_coef j) (1 / 2 + cub_coef j) (- 1 / 3)); try assumption; try lra; try lia.
      * cshape.
      * reflexivity.
    + apply (cubic_poly g j (dg_nr g) 0 (/ 2) (5 / 6) (1 / 2) (- 1 / 2) 0); try assumption; try lra; try lia.
      * cshape.
      * unfold j. rewrite minus_IZR. lra.
      * reflexivity.
    + cbv zeta. unfold cub_coef. zeqb. unfold j; rewrite minus_IZR. field. lra.
Qed.

(** ** Back to radii *)
Lemma to_radius g s j v z : shape_name s -> dgrid_ok g -> dg_zmin g <= z <= z_last g ->
  is_RInt (fun x => hshare g (is_cubic s) j x * x) 0 (IZR (dg_nr g)) v ->
  is_RInt (fun r => radial_share g s true z r j * (2 * PI * r)) 0 (r_edge g)
          (2 * PI * dg_dr g ^ 2 * v).
Proof.
  intros Hs Hg Hz H. pose proof Hg as (_ & Hr & _ & _ & Hn).
  apply (is_RInt_scal (V := R_NormedModule) _ _ _ (2 * PI * dg_dr g ^ 2)) in H.
  assert (E0 : 0 = / dg_dr g * 0 + 0) by ring.
  assert (E1 : IZR (dg_nr g) = / dg_dr g * r_edge g + 0) by (unfold r_edge; field; lra).
  rewrite E0, E1 in H at 1. clear E0 E1.
  apply (is_RInt_comp_lin (V := R_NormedModule)) in H.
  assert (N0 : 0 <= r_edge g).
  { unfold r_edge. apply Rmult_le_pos; [apply (IZR_le 0); lia|lra]. }
  eapply is_RInt_ext; [|exact H].
  intros r Hx. rewrite Rmin_left, Rmax_right in Hx by assumption.
  rewrite radial_share_eq by (assumption || lra).
  unfold scal; cbn; unfold mult; cbn. unfold Rdiv.
  replace (/ dg_dr g * r + 0) with (r * / dg_dr g) by ring. field. lra.
Qed.
