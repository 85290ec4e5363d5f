(** Lemmas about the deposition. *)
From Coq Require Import Reals ZArith String List Lra Lia Psatz Permutation.
From Verif Require Import Model_Push Model_Interp Spec_Interp Proofs_Interp
  Model_Deposit Spec_Deposit.
Import ListNotations.
Open Scope R_scope.

(** ** Finite sums *)
Lemma sum_app a b : fold_right Rplus 0 (a ++ b) = fold_right Rplus 0 a + fold_right Rplus 0 b.
Proof. induction a as [|x a IH]; cbn; [ring|]. rewrite IH. ring. Qed.
Lemma sum_range_S n f : (0 <= n)%Z -> sum_range (n + 1) f = sum_range n f + f n.
Proof.
  intros H. unfold sum_range. replace (Z.to_nat (n + 1)) with (S (Z.to_nat n)) by lia.
  rewrite seq_S, map_app, sum_app. cbn. rewrite Z2Nat.id by assumption. ring.
Qed.
Lemma sum_range_0 f : sum_range 0 f = 0.
Proof. reflexivity. Qed.
Lemma range_ind (P : Z -> Prop) : P 0%Z -> (forall n, (0 <= n)%Z -> P n -> P (n + 1)%Z) ->
  forall n, (0 <= n)%Z -> P n.
Proof.
  intros H0 HS n Hn. pattern n. apply natlike_ind; [assumption| |assumption].
  intros k Hk IH. replace (Z.succ k) with (k + 1)%Z by lia. auto.
Qed.
Lemma sum_range_ext n f g : (forall i, (0 <= i < n)%Z -> f i = g i) ->
  sum_range n f = sum_range n g.
Proof.
  intros H. unfold sum_range. f_equal. apply map_ext_in. intros k Hk. apply in_seq in Hk.
  apply H. lia.
Qed.
Lemma sum_range_plus n f g : sum_range n (fun i => f i + g i) = sum_range n f + sum_range n g.
Proof.
  unfold sum_range. induction (seq 0 (Z.to_nat n)) as [|k l IH]; cbn; [ring|].
  rewrite IH. ring.
Qed.
Lemma sum_range_scal n c f : sum_range n (fun i => c * f i) = c * sum_range n f.
Proof.
  unfold sum_range. induction (seq 0 (Z.to_nat n)) as [|k l IH]; cbn; [ring|].
  rewrite IH. ring.
Qed.
Lemma sum_range_zero n f : (forall i, (0 <= i < n)%Z -> f i = 0) -> sum_range n f = 0.
Proof.
  intros H. rewrite (sum_range_ext n f (fun _ => 0 * 0)) by (intros; rewrite H by assumption; ring).
  rewrite sum_range_scal. ring.
Qed.
(** A single non-zero term. *)
Lemma sum_range_single n k v : (0 <= k < n)%Z ->
  sum_range n (fun i => if Z.eqb i k then v i else 0) = v k.
Proof.
  intros H. assert (Hn : (0 <= n)%Z) by lia. revert H.
  apply (range_ind (fun n => (0 <= k < n)%Z ->
    sum_range n (fun i => if Z.eqb i k then v i else 0) = v k)); [lia| |assumption].
  clear n Hn. intros n Hn IH H. rewrite sum_range_S by assumption.
  destruct (Z.eqb_spec n k) as [->|E].
  - rewrite sum_range_zero; [ring|]. intros i Hi. destruct (Z.eqb_spec i k); [lia|reflexivity].
  - rewrite IH by lia. ring.
Qed.

(** ** Entries of a short list placed at an offset *)
Definition at_ (l : list R) (k : Z) : R := if Z.ltb k 0 then 0 else nth (Z.to_nat k) l 0.
Lemma at_cons v l k : at_ (v :: l) k = if Z.eqb k 0 then v else at_ l (k - 1).
Proof.
  unfold at_. destruct (Z.eqb_spec k 0) as [->|E]; [reflexivity|].
  destruct (Z.ltb_spec k 0); destruct (Z.ltb_spec (k - 1) 0); try lia; try reflexivity.
  replace (Z.to_nat k) with (S (Z.to_nat (k - 1))) by lia. reflexivity.
Qed.
Lemma at_nil k : at_ [] k = 0.
Proof. unfold at_. destruct (Z.ltb k 0); [reflexivity|]. destruct (Z.to_nat k); reflexivity. Qed.
Lemma at_outside l k : (k < 0 \/ Z.of_nat (length l) <= k)%Z -> at_ l k = 0.
Proof.
  intros H. unfold at_. destruct (Z.ltb_spec k 0); [reflexivity|].
  apply nth_overflow. lia.
Qed.

(** Weighted sum of a placed list. *)
Fixpoint wsum (f : Z -> R) (k : Z) (l : list R) : R :=
  match l with [] => 0 | v :: l' => f k * v + wsum f (k + 1) l' end.
Lemma sum_placed f l : forall k n, (0 <= k)%Z -> (k + Z.of_nat (length l) <= n)%Z ->
  sum_range n (fun i => f i * at_ l (i - k)) = wsum f k l.
Proof.
  induction l as [|v l IH]; intros k n Hk Hn.
  - cbn [wsum]. apply sum_range_zero. intros. rewrite at_nil. ring.
  - cbn [wsum]. cbn [length] in Hn.
    rewrite <- (IH (k + 1)%Z n) by lia.
    rewrite (sum_range_ext n _ (fun i => (if Z.eqb i k then f i * v else 0)
                                  + f i * at_ l (i - (k + 1)))).
    + rewrite sum_range_plus. rewrite (sum_range_single n k (fun i => f i * v)) by lia. ring.
    + intros i Hi. rewrite at_cons. destruct (Z.eqb_spec i k) as [->|E].
      * replace (Z.eqb (k - k) 0) with true by (symmetry; apply Z.eqb_eq; lia).
        rewrite (at_outside l) by lia. ring.
      * replace (Z.eqb (i - k) 0) with false by (symmetry; apply Z.eqb_neq; lia).
        replace (i - k - 1)%Z with (i - (k + 1))%Z by lia. ring.
Qed.

(** ** Adding a block *)
Lemma add2_ok a i j v : (0 <= i < rows a)%Z -> (0 <= j < cols a)%Z ->
  add2 a i j v = Ok (mka (rows a) (cols a)
    (fun k l => if andb (Z.eqb k i) (Z.eqb l j) then cell a k l + v else cell a k l)).
Proof.
  intros Hi Hj. unfold add2, wrap, in_range.
  replace (Z.ltb i 0) with false by (symmetry; apply Z.ltb_ge; lia).
  replace (Z.ltb j 0) with false by (symmetry; apply Z.ltb_ge; lia).
  replace (Z.leb 0 i) with true by (symmetry; apply Z.leb_le; lia).
  replace (Z.leb 0 j) with true by (symmetry; apply Z.leb_le; lia).
  replace (Z.ltb i (rows a)) with true by (symmetry; apply Z.ltb_lt; lia).
  replace (Z.ltb j (cols a)) with true by (symmetry; apply Z.ltb_lt; lia).
  reflexivity.
Qed.

(** [a'] is [a] with [d i j] added to every entry. *)
Definition plus_array (a : arr2) (d : Z -> Z -> R) (a' : arr2) : Prop :=
  rows a' = rows a /\ cols a' = cols a /\ forall i j, cell a' i j = cell a i j + d i j.

Lemma add_row_lemma ir w ik zk rs : forall s a,
  (0 <= ik < rows a)%Z -> (0 <= ir + Z.of_nat s)%Z ->
  (ir + Z.of_nat s + Z.of_nat (length rs) <= cols a)%Z ->
  exists a', foldM (fun a lr => add2 a ik (ir + Z.of_nat (fst lr)) (zk * snd lr * w))
               (combine (seq s (length rs)) rs) a = Ok a' /\
    plus_array a (fun i j => if Z.eqb i ik then zk * at_ rs (j - ir - Z.of_nat s) * w else 0) a'.
Proof.
  induction rs as [|v rs IH]; intros s a Hi H1 H2.
  - exists a. split; [reflexivity|]. split; [reflexivity|]. split; [reflexivity|].
    intros i j. rewrite at_nil. destruct (Z.eqb i ik); ring.
  - cbn [length] in H2. cbn [length seq combine foldM fst snd].
    rewrite add2_ok by lia. cbn [bind].
    match goal with |- exists a', foldM _ _ ?b = _ /\ _ => destruct (IH (S s) b) as (a' & E & P) end;
      [cbn; lia|cbn; lia|cbn; lia|].
    exists a'. split; [exact E|]. destruct P as (P1 & P2 & P3). split; [exact P1|].
    split; [exact P2|]. intros i j. rewrite P3. cbn [cell].
    rewrite at_cons. destruct (Z.eqb_spec i ik) as [->|Ei]; cbn [andb]; [|ring].
    destruct (Z.eqb_spec j (ir + Z.of_nat s)) as [->|Ej].
    + replace (Z.eqb _ 0) with true by (symmetry; apply Z.eqb_eq; lia).
      rewrite (at_outside rs) by lia. ring.
    + replace (Z.eqb _ 0) with false by (symmetry; apply Z.eqb_neq; lia).
      replace (j - ir - Z.of_nat (S s))%Z with (j - ir - Z.of_nat s - 1)%Z by lia. ring.
Qed.

Lemma add_block_lemma iz ir w rs zs : forall s a,
  (0 <= iz + Z.of_nat s)%Z -> (iz + Z.of_nat s + Z.of_nat (length zs) <= rows a)%Z ->
  (0 <= ir)%Z -> (ir + Z.of_nat (length rs) <= cols a)%Z ->
  exists a', foldM (fun a kz => add_row ir rs w a (iz + Z.of_nat (fst kz)) (snd kz))
               (combine (seq s (length zs)) zs) a = Ok a' /\
    plus_array a (fun i j => w * at_ zs (i - iz - Z.of_nat s) * at_ rs (j - ir)) a'.
Proof.
  induction zs as [|v zs IH]; intros s a H1 H2 H3 H4.
  - exists a. split; [reflexivity|]. split; [reflexivity|]. split; [reflexivity|].
    intros i j. rewrite at_nil. ring.
  - cbn [length] in H2. cbn [length seq combine foldM fst snd]. unfold add_row at 1.
    destruct (add_row_lemma ir w (iz + Z.of_nat s) v rs 0 a) as (b & Eb & B1 & B2 & B3);
      [lia|lia|cbn; lia|].
    rewrite Eb. cbn [bind].
    destruct (IH (S s) b) as (a' & E & P1 & P2 & P3); [lia|lia|lia|lia|].
    exists a'. split; [exact E|]. split; [congruence|]. split; [congruence|].
    intros i j. rewrite P3, B3, at_cons.
    replace (j - ir - Z.of_nat 0)%Z with (j - ir)%Z by lia.
    destruct (Z.eqb_spec i (iz + Z.of_nat s)) as [->|Ei].
    + replace (Z.eqb _ 0) with true by (symmetry; apply Z.eqb_eq; lia).
      rewrite (at_outside zs) by lia. ring.
    + replace (Z.eqb _ 0) with false by (symmetry; apply Z.eqb_neq; lia).
      replace (i - iz - Z.of_nat (S s))%Z with (i - iz - Z.of_nat s - 1)%Z by lia. ring.
Qed.
Lemma add_block_ok iz ir zs rs w a :
  (0 <= iz)%Z -> (iz + Z.of_nat (length zs) <= rows a)%Z ->
  (0 <= ir)%Z -> (ir + Z.of_nat (length rs) <= cols a)%Z ->
  exists a', add_block iz ir zs rs w a = Ok a' /\
    plus_array a (fun i j => w * at_ zs (i - iz) * at_ rs (j - ir)) a'.
Proof.
  intros H1 H2 H3 H4. unfold add_block.
  destruct (add_block_lemma iz ir w rs zs 0 a) as (a' & E & P1 & P2 & P3); try lia.
  exists a'. split; [exact E|]. split; [exact P1|]. split; [exact P2|].
  intros i j. rewrite P3. replace (i - iz - Z.of_nat 0)%Z with (i - iz)%Z by lia. ring.
Qed.

(** ** Ceiling *)
Lemma ceil_bounds x : IZR (ceil x) - 1 < x <= IZR (ceil x).
Proof.
  unfold ceil. rewrite opp_IZR. pose proof (int_part_bounds (- x)). lra.
Qed.
Lemma ceil_spec x n : IZR n - 1 < x <= IZR n -> ceil x = n.
Proof.
  intros H. unfold ceil. rewrite (int_part_spec (- x) (- n)); [lia| |]; rewrite opp_IZR; lra.
Qed.
Lemma ceil_ge x n : IZR n - 1 < x -> (n <= ceil x)%Z.
Proof.
  intros H. pose proof (ceil_bounds x).
  assert (IZR n < IZR (ceil x + 1)) by (rewrite plus_IZR; lra). apply lt_IZR in H1. lia.
Qed.
Lemma ceil_le x n : x <= IZR n -> (ceil x <= n)%Z.
Proof.
  intros H. pose proof (ceil_bounds x).
  assert (IZR (ceil x) < IZR (n + 1)) by (rewrite plus_IZR; lra). apply lt_IZR in H1. lia.
Qed.

(** ** The two shapes as offsets and weights *)
Record kernel := mkk { k_iz : Z; k_ir : Z; k_z : list R; k_r : list R }.
Definition coef_of (ruyten : bool) (c : nat -> R) (n : Z) : R :=
  if ruyten then c (Z.to_nat n) else 0.
Definition linear_kernel (g : dgrid) (ruyten : bool) (rc zc : R) : kernel :=
  let u := u_r_linear g rc in
  let k := coef_of ruyten (ruyten_linear g) (ceil rc) in
  mkk (ceil zc + 1) (ceil rc + 1)
      [1 - u_z_linear g rc zc; u_z_linear g rc zc]
      [(1 - u) + k * (1 - u) * u; u - k * (1 - u) * u].
Definition cubic_kernel (g : dgrid) (ruyten : bool) (rc zc : R) : kernel :=
  let u := rc - IZR (ceil rc) + 1 in
  let v := 1 - u in
  let k := coef_of ruyten (ruyten_cubic g) (ceil rc) in
  let '(r0, r1, r2, r3) := cubic_shape u in
  mkk (ceil zc) (ceil rc)
      (fold_edges (dg_nz g) zc (cubic_shape (zc - IZR (ceil zc) + 1)))
      (fold_edges (dg_nr g) rc (r0, r1 + k * v * u, r2 - k * v * u, r3)).
Definition spread (K : kernel) (w : R) (i j : Z) : R :=
  w * at_ (k_z K) (i - k_iz K) * at_ (k_r K) (j - k_ir K).

(** Positions in cell units of a particle in the domain. *)
Definition in_cells (g : dgrid) (rc zc : R) : Prop :=
  - / 2 <= rc <= IZR (dg_nr g) - / 2 /\ 0 <= zc <= IZR (dg_nz g) - 1.

Lemma ceil_r g rc zc : in_cells g rc zc -> (0 <= ceil rc <= dg_nr g)%Z.
Proof. intros [H _]. split; [apply ceil_ge; lra|apply ceil_le; lra]. Qed.
Lemma ceil_z g rc zc : in_cells g rc zc -> (0 <= ceil zc <= dg_nz g - 1)%Z.
Proof. intros [_ H]. split; [apply ceil_ge; lra|apply ceil_le; rewrite minus_IZR; lra]. Qed.

Lemma read_coef_ok g c n : (0 <= n <= dg_nr g)%Z -> read_coef g c n = Ok (c (Z.to_nat n)).
Proof.
  intros H. unfold read_coef, wrap, in_range.
  replace (Z.ltb n 0) with false by (symmetry; apply Z.ltb_ge; lia).
  replace (Z.leb 0 n) with true by (symmetry; apply Z.leb_le; lia).
  replace (Z.ltb n (dg_nr g + 1)) with true by (symmetry; apply Z.ltb_lt; lia). reflexivity.
Qed.

Lemma fold_edges_length n c s : length (fold_edges n c s) = 4%nat.
Proof.
  destruct s as [[[s0 s1] s2] s3]. unfold fold_edges.
  destruct (Rle_dec c 0), (Rle_dec c 1), (Rlt_dec (IZR n - 1) c), (Rlt_dec (IZR n - 2) c);
    reflexivity.
Qed.

Lemma linear_body g ruyten rc zc w a : dgrid_ok g -> darray g a -> in_cells g rc zc ->
  exists a', deposit_linear1 g ruyten rc zc w a = Ok a' /\
             plus_array a (spread (linear_kernel g ruyten rc zc) w) a'.
Proof.
  intros Hg [A1 A2] Hc. pose proof (ceil_r g rc zc Hc) as Cr. pose proof (ceil_z g rc zc Hc) as Cz.
  unfold deposit_linear1. rewrite !Z.min_l by lia. rewrite read_coef_ok by lia.
  assert (E : (if ruyten then Ok (ruyten_linear g (Z.to_nat (ceil rc))) else Ok 0)
              = Ok (coef_of ruyten (ruyten_linear g) (ceil rc)))
    by (unfold coef_of; destruct ruyten; reflexivity).
  rewrite E. cbn [bind]. apply add_block_ok; cbn [length]; lia.
Qed.
Lemma cubic_body g ruyten rc zc w a : dgrid_ok g -> darray g a -> in_cells g rc zc ->
  exists a', deposit_cubic1 g ruyten rc zc w a = Ok a' /\
             plus_array a (spread (cubic_kernel g ruyten rc zc) w) a'.
Proof.
  intros Hg [A1 A2] Hc. pose proof (ceil_r g rc zc Hc) as Cr. pose proof (ceil_z g rc zc Hc) as Cz.
  unfold deposit_cubic1. rewrite !Z.min_l by lia. rewrite read_coef_ok by lia.
  assert (E : (if ruyten then Ok (ruyten_cubic g (Z.to_nat (ceil rc))) else Ok 0)
              = Ok (coef_of ruyten (ruyten_cubic g) (ceil rc)))
    by (unfold coef_of; destruct ruyten; reflexivity).
  rewrite E. cbn [bind]. cbn [cubic_shape]. unfold cubic_kernel.
  apply add_block_ok; rewrite ?fold_edges_length; lia.
Qed.

(** ** Loops *)
Lemma plus_array_refl a : plus_array a (fun _ _ => 0) a.
Proof. repeat split. intros; ring. Qed.
Lemma plus_array_trans a b c d e : plus_array a d b -> plus_array b e c ->
  plus_array a (fun i j => d i j + e i j) c.
Proof.
  intros (P1 & P2 & P3) (Q1 & Q2 & Q3). repeat split; try congruence.
  intros. rewrite Q3, P3. ring.
Qed.
Lemma plus_array_ext a b d e : plus_array a d b -> (forall i j, d i j = e i j) ->
  plus_array a e b.
Proof. intros (P1 & P2 & P3) H. repeat split; try assumption. intros. rewrite P3, H. ring. Qed.

(** Sum over a list of the contributions of its members. *)
Definition contributions {A} (d : A -> Z -> Z -> R) (l : list A) (i j : Z) : R :=
  fold_right (fun p s => d p i j + s) 0 l.

Lemma loop_lemma {A} (ok : arr2 -> Prop) (f : arr2 -> A -> result arr2) (d : A -> Z -> Z -> R) :
  (forall a b e, ok a -> plus_array a e b -> ok b) ->
  (forall a p, ok a -> exists b, f a p = Ok b /\ plus_array a (d p) b) ->
  forall l a, ok a -> exists b, foldM f l a = Ok b /\ plus_array a (contributions d l) b.
Proof.
  intros Hk Hf. induction l as [|p l IH]; intros a Ha.
  - exists a. split; [reflexivity|]. apply plus_array_refl.
  - cbn [foldM]. destruct (Hf a p Ha) as (b & -> & P). cbn [bind].
    destruct (IH b (Hk _ _ _ Ha P)) as (c & E & Q). exists c. split; [exact E|].
    apply (plus_array_trans _ _ _ _ _ P Q).
Qed.

Definition kernel_of (g : dgrid) (cubic ruyten : bool) : R -> R -> kernel :=
  if cubic then cubic_kernel g ruyten else linear_kernel g ruyten.
Definition r_cells (g : dgrid) (p : pos) : R := (radius p - dg_rmin g) / dg_dr g.
Definition z_cells (g : dgrid) (p : pos) : R := (lon p - dg_zmin g) / dg_dz g.
Definition particle (g : dgrid) (cubic ruyten : bool) (pw : pos * R) (i j : Z) : R :=
  if inside_dec g (fst pw) then
    spread (kernel_of g cubic ruyten (r_cells g (fst pw)) (z_cells g (fst pw))) (snd pw) i j
  else 0.

Lemma cells_r g r : dgrid_ok g -> 0 <= r <= r_edge g ->
  - / 2 <= (r - dg_rmin g) / dg_dr g <= IZR (dg_nr g) - / 2.
Proof.
  intros (_ & Hr & Em & _) H. unfold r_edge in H. rewrite Em.
  replace ((r - dg_dr g / 2) / dg_dr g) with (r / dg_dr g - / 2) by (field; lra).
  assert (0 <= r / dg_dr g <= IZR (dg_nr g)); [|lra].
  split; apply Rmult_le_reg_r with (dg_dr g); try assumption;
    unfold Rdiv; rewrite ?Rmult_assoc, ?Rinv_l by lra; lra.
Qed.
Lemma cells_z g z : dgrid_ok g -> dg_zmin g <= z <= z_last g ->
  0 <= (z - dg_zmin g) / dg_dz g <= IZR (dg_nz g) - 1.
Proof.
  intros (Hz & _) H. unfold z_last in H.
  split; apply Rmult_le_reg_r with (dg_dz g); try assumption;
    unfold Rdiv; rewrite ?Rmult_assoc, ?Rinv_l by lra; lra.
Qed.
Lemma inside_cells g p : dgrid_ok g -> inside g p -> in_cells g (r_cells g p) (z_cells g p).
Proof.
  intros Hg [Hz Hr]. split.
  - apply cells_r; [assumption|]. split; [apply radius_nonneg|assumption].
  - apply cells_z; assumption.
Qed.

Lemma darray_plus g a b e : darray g a -> plus_array a e b -> darray g b.
Proof. intros [A1 A2] (P1 & P2 & _). split; congruence. Qed.

Lemma deposit_loop_lemma g (cubic ruyten : bool) l a : dgrid_ok g -> darray g a ->
  exists b, deposit_loop ((if cubic then deposit_cubic1 else deposit_linear1) g ruyten) g l a = Ok b /\
            plus_array a (contributions (particle g cubic ruyten) l) b.
Proof.
  intros Hg Ha. unfold deposit_loop.
  apply (loop_lemma (darray g)); [apply darray_plus| |assumption].
  clear a Ha l. intros a [[[x0 y0] z0] w] Ha. rewrite (radius_eq x0 y0 z0).
  unfold particle; cbn [fst snd].
  destruct (inside_dec g (x0, y0, z0)) as [H|H].
  - pose proof H as [[H1 H2] H3]. unfold z_last, r_edge in H2, H3. cbn [lon snd] in H1, H2.
    destruct (Rle_dec (dg_zmin g) z0); [|contradiction]. destruct (Rle_dec z0 _); [|contradiction].
    destruct (Rle_dec (radius (x0, y0, z0)) _); [|contradiction].
    pose proof (inside_cells g _ Hg H) as Hc. unfold r_cells, z_cells in *. cbn [lon snd] in *.
    destruct cubic; [apply cubic_body|apply linear_body]; assumption.
  - exists a. split; [|apply plus_array_refl].
    destruct (Rle_dec (dg_zmin g) z0) as [H1|]; [|reflexivity].
    destruct (Rle_dec z0 _) as [H2|]; [|reflexivity].
    destruct (Rle_dec (radius (x0, y0, z0)) _) as [H3|]; [|reflexivity].
    exfalso. apply H. repeat split; assumption.
Qed.

Lemma deposit_3d_lemma g s ruyten l a : shape_name s -> dgrid_ok g -> darray g a ->
  exists b, deposit_3d_distribution g s ruyten l a = Returned (Ok b) /\
            plus_array a (contributions (particle g (is_cubic s) ruyten) l) b.
Proof.
  intros Hs Hg Ha. unfold deposit_3d_distribution.
  destruct Hs as [-> | ->]; cbn [String.eqb Ascii.eqb Bool.eqb is_cubic].
  - destruct (deposit_loop_lemma g false ruyten l a Hg Ha) as (b & E & P).
    exists b. split; [f_equal; exact E|exact P].
  - destruct (deposit_loop_lemma g true ruyten l a Hg Ha) as (b & E & P).
    exists b. split; [f_equal; exact E|exact P].
Qed.

(** ** The plasma *)
Definition plasma_particle (g : dgrid) (cubic : bool) (zc : Z) (rw : R * R) (i j : Z) : R :=
  if Rle_dec (fst rw) (r_edge g) then
    spread (kernel_of g cubic false ((fst rw - dg_rmin g) / dg_dr g) (IZR zc)) (snd rw) i j
  else 0.
Lemma plasma_cells g zc r : dgrid_ok g -> (0 <= zc < dg_nz g)%Z -> 0 <= r <= r_edge g ->
  in_cells g ((r - dg_rmin g) / dg_dr g) (IZR zc).
Proof.
  intros Hg Hz Hr. split; [apply cells_r; assumption|].
  split; [apply (IZR_le 0); lia|]. rewrite <- minus_IZR. apply IZR_le. lia.
Qed.
Lemma deposit_plasma_lemma g s zc l a : shape_name s -> dgrid_ok g -> darray g a ->
  (0 <= zc < dg_nz g)%Z -> Forall (fun rw => 0 <= fst rw) l ->
  exists b, deposit_plasma_particles g s zc l a = Ok b /\
            plus_array a (contributions (plasma_particle g (is_cubic s) zc) l) b.
Proof.
  intros Hs Hg Ha Hz Hl.
  assert (E : deposit_plasma_particles g s zc l a
    = foldM (fun a rw => if Rle_dec (fst rw) (r_edge g) then
        (if is_cubic s then deposit_cubic1 else deposit_linear1) g false
           ((fst rw - dg_rmin g) / dg_dr g) (IZR zc) (snd rw) a else Ok a) l a)
    by (destruct Hs as [-> | ->]; reflexivity).
  rewrite E. clear E. revert a Ha. induction Hl as [|[r w] l Hr Hl IH]; intros a Ha.
  - exists a. split; [reflexivity|apply plus_array_refl].
  - cbn [foldM fst snd] in *.
    assert (B : exists b, (if Rle_dec r (r_edge g) then
        (if is_cubic s then deposit_cubic1 else deposit_linear1) g false
           ((r - dg_rmin g) / dg_dr g) (IZR zc) w a else Ok a) = Ok b /\
        plus_array a (plasma_particle g (is_cubic s) zc (r, w)) b).
    { unfold plasma_particle; cbn [fst snd]. destruct (Rle_dec r (r_edge g)) as [H|H].
      - pose proof (plasma_cells g zc r Hg Hz (conj Hr H)).
        destruct (is_cubic s); [apply cubic_body|apply linear_body]; assumption.
      - exists a. split; [reflexivity|apply plus_array_refl]. }
    destruct B as (b & -> & P). cbn [bind].
    destruct (IH b (darray_plus _ _ _ _ Ha P)) as (c & Ec & Q). exists c.
    split; [exact Ec|]. apply (plus_array_trans _ _ _ _ _ P Q).
Qed.

(** ** Sums of a kernel *)
Definition list_sum (l : list R) : R := fold_right Rplus 0 l.
Lemma wsum_one k l : wsum (fun _ => 1) k l = list_sum l.
Proof. revert k. induction l as [|v l IH]; intros k; cbn [wsum]; [reflexivity|]. rewrite IH. unfold list_sum; cbn [fold_right]. ring. Qed.

(** The block of a kernel lies in the array. *)
Definition fits (g : dgrid) (K : kernel) : Prop :=
  (0 <= k_iz K)%Z /\ (k_iz K + Z.of_nat (length (k_z K)) <= dg_nz g + 4)%Z /\
  (0 <= k_ir K)%Z /\ (k_ir K + Z.of_nat (length (k_r K)) <= dg_nr g + 4)%Z.
Lemma kernel_fits g cubic ruyten rc zc : in_cells g rc zc -> fits g (kernel_of g cubic ruyten rc zc).
Proof.
  intros Hc. pose proof (ceil_r g rc zc Hc). pose proof (ceil_z g rc zc Hc).
  unfold fits, kernel_of. destruct cubic.
  - unfold cubic_kernel, cubic_shape. cbn [k_iz k_ir k_z k_r].
    rewrite !fold_edges_length. lia.
  - cbn [linear_kernel k_iz k_ir k_z k_r length]. lia.
Qed.
Lemma spread_moment g K w F G : fits g K ->
  sum_range (dg_nz g + 4) (fun i => sum_range (dg_nr g + 4)
    (fun j => F i * G j * spread K w i j))
  = w * wsum F (k_iz K) (k_z K) * wsum G (k_ir K) (k_r K).
Proof.
  intros (F1 & F2 & F3 & F4). unfold spread.
  rewrite <- (sum_placed F (k_z K) (k_iz K) (dg_nz g + 4)) by assumption.
  rewrite <- (sum_placed G (k_r K) (k_ir K) (dg_nr g + 4)) by assumption.
  rewrite (sum_range_ext _ _ (fun i => (w * sum_range (dg_nr g + 4)
      (fun j => G j * at_ (k_r K) (j - k_ir K))) * (F i * at_ (k_z K) (i - k_iz K)))).
  - rewrite sum_range_scal. ring.
  - intros i _. rewrite (sum_range_ext _ _ (fun j => (w * F i * at_ (k_z K) (i - k_iz K))
      * (G j * at_ (k_r K) (j - k_ir K)))) by (intros; ring).
    rewrite sum_range_scal. ring.
Qed.

Lemma fold_edges_sum n c s0 s1 s2 s3 :
  list_sum (fold_edges n c (s0, s1, s2, s3)) = s0 + s1 + s2 + s3.
Proof.
  unfold fold_edges.
  destruct (Rle_dec c 0), (Rle_dec c 1), (Rlt_dec (IZR n - 1) c), (Rlt_dec (IZR n - 2) c);
    cbn; ring.
Qed.
Lemma kernel_sum g cubic ruyten rc zc :
  list_sum (k_z (kernel_of g cubic ruyten rc zc)) = 1 /\
  list_sum (k_r (kernel_of g cubic ruyten rc zc)) = 1.
Proof.
  unfold kernel_of. destruct cubic.
  - unfold cubic_kernel, cubic_shape. cbn [k_z k_r]. rewrite !fold_edges_sum. split; lra.
  - cbn [linear_kernel k_z k_r list_sum fold_right]. split; ring.
Qed.

(** ** Moments of what a list deposits *)
Lemma moment_plus f a d b : plus_array a d b ->
  moment f b = moment f a + sum_range (rows a) (fun i => sum_range (cols a) (fun j => f i j * d i j)).
Proof.
  intros (P1 & P2 & P3). unfold moment. rewrite P1, P2, <- sum_range_plus.
  apply sum_range_ext. intros i _. rewrite <- sum_range_plus. apply sum_range_ext.
  intros j _. rewrite P3. ring.
Qed.
Lemma contributions_moment {A} (d : A -> Z -> Z -> R) f nr nc l :
  sum_range nr (fun i => sum_range nc (fun j => f i j * contributions d l i j))
  = fold_right (fun p s => sum_range nr (fun i => sum_range nc (fun j => f i j * d p i j)) + s) 0 l.
Proof.
  induction l as [|p l IH].
  - cbn. apply sum_range_zero. intros. apply sum_range_zero. intros. ring.
  - cbn [fold_right]. rewrite <- IH, <- sum_range_plus. apply sum_range_ext. intros i _.
    rewrite <- sum_range_plus. apply sum_range_ext. intros j _.
    unfold contributions; cbn [fold_right]. ring.
Qed.
Lemma total_moment a : total_charge a = moment (fun _ _ => 1 * 1) a.
Proof.
  unfold total_charge, moment. apply sum_range_ext. intros. apply sum_range_ext. intros. ring.
Qed.

Lemma conserve_lemma g s ruyten l a : shape_name s -> dgrid_ok g -> darray g a ->
  exists b, deposit_3d_distribution g s ruyten l a = Returned (Ok b) /\ darray g b /\
    total_charge b = total_charge a + charge_inside g l.
Proof.
  intros Hs Hg Ha. destruct (deposit_3d_lemma g s ruyten l a Hs Hg Ha) as (b & E & P).
  exists b. split; [exact E|]. split; [eapply darray_plus; eassumption|].
  rewrite !total_moment, (moment_plus _ _ _ _ P), contributions_moment. f_equal.
  destruct Ha as [-> ->]. unfold charge_inside. clear E P.
  induction l as [|[p w] l IH]; [reflexivity|]. cbn [fold_right fst snd]. rewrite IH. f_equal.
  unfold particle; cbn [fst snd]. destruct (inside_dec g p) as [H|H].
  - pose proof (kernel_fits g (is_cubic s) ruyten _ _ (inside_cells g p Hg H)) as F.
    rewrite (spread_moment g _ w (fun _ => 1) (fun _ => 1) F), !wsum_one.
    destruct (kernel_sum g (is_cubic s) ruyten (r_cells g p) (z_cells g p)) as [-> ->]. ring.
  - apply sum_range_zero. intros. apply sum_range_zero. intros. ring.
Qed.
Lemma conserve_plasma_lemma g s zc l a : shape_name s -> dgrid_ok g -> darray g a ->
  (0 <= zc < dg_nz g)%Z -> Forall (fun rw => 0 <= fst rw) l ->
  exists b, deposit_plasma_particles g s zc l a = Ok b /\ darray g b /\
    total_charge b = total_charge a + plasma_inside g l.
Proof.
  intros Hs Hg Ha Hz Hl. destruct (deposit_plasma_lemma g s zc l a Hs Hg Ha Hz Hl) as (b & E & P).
  exists b. split; [exact E|]. split; [eapply darray_plus; eassumption|].
  rewrite !total_moment, (moment_plus _ _ _ _ P), contributions_moment. f_equal.
  destruct Ha as [-> ->]. unfold plasma_inside. clear E P.
  induction Hl as [|[r w] l Hr Hl IH]; [reflexivity|]. cbn [fold_right fst snd] in *. rewrite IH. f_equal.
  unfold plasma_particle; cbn [fst snd]. destruct (Rle_dec r (r_edge g)) as [H|H].
  - pose proof (kernel_fits g (is_cubic s) false _ _ (plasma_cells g zc r Hg Hz (conj Hr H))) as F.
    rewrite (spread_moment g _ w (fun _ => 1) (fun _ => 1) F), !wsum_one.
    destruct (kernel_sum g (is_cubic s) false ((r - dg_rmin g) / dg_dr g) (IZR zc)) as [-> ->]. ring.
  - apply sum_range_zero. intros. apply sum_range_zero. intros. ring.
Qed.

(** ** Guard cells *)
Lemma at2 x0 x1 k : at_ [x0; x1] k = if Z.eqb k 0 then x0 else if Z.eqb (k - 1) 0 then x1 else 0.
Proof. now rewrite !at_cons, at_nil. Qed.
Lemma at4 x0 x1 x2 x3 k : at_ [x0; x1; x2; x3] k =
  if Z.eqb k 0 then x0 else if Z.eqb (k - 1) 0 then x1
  else if Z.eqb (k - 1 - 1) 0 then x2 else if Z.eqb (k - 1 - 1 - 1) 0 then x3 else 0.
Proof. now rewrite !at_cons, at_nil. Qed.

Lemma fold_edges_inner n c s i : (3 <= n)%Z -> - 1 < c <= IZR n -> ~ (2 <= i < n + 2)%Z ->
  at_ (fold_edges n c s) (i - ceil c) = 0.
Proof.
  intros Hn Hc Hi. destruct s as [[[s0 s1] s2] s3].
  assert (C0 : (0 <= ceil c)%Z) by (apply ceil_ge; lra).
  assert (C1 : (ceil c <= n)%Z) by (apply ceil_le; lra).
  unfold fold_edges. destruct (Rle_dec c 0) as [H0|H0].
  { assert (ceil c <= 0)%Z by (apply ceil_le; lra). rewrite at4.
    repeat match goal with |- context [Z.eqb ?x 0] => destruct (Z.eqb_spec x 0) end; try reflexivity; lia. }
  assert (C2 : (1 <= ceil c)%Z) by (apply ceil_ge; lra).
  destruct (Rle_dec c 1) as [H1|H1].
  { assert (ceil c <= 1)%Z by (apply ceil_le; lra). rewrite at4.
    repeat match goal with |- context [Z.eqb ?x 0] => destruct (Z.eqb_spec x 0) end; try reflexivity; lia. }
  assert (C3 : (2 <= ceil c)%Z) by (apply ceil_ge; lra).
  destruct (Rlt_dec (IZR n - 1) c) as [H2|H2].
  { rewrite at4.
    repeat match goal with |- context [Z.eqb ?x 0] => destruct (Z.eqb_spec x 0) end; try reflexivity; lia. }
  assert (C4 : (ceil c <= n - 1)%Z) by (apply ceil_le; rewrite minus_IZR; lra).
  destruct (Rlt_dec (IZR n - 2) c) as [H3|H3].
  { rewrite at4.
    repeat match goal with |- context [Z.eqb ?x 0] => destruct (Z.eqb_spec x 0) end; try reflexivity; lia. }
  assert (C5 : (ceil c <= n - 2)%Z) by (apply ceil_le; rewrite minus_IZR; lra).
  rewrite at4.
  repeat match goal with |- context [Z.eqb ?x 0] => destruct (Z.eqb_spec x 0) end; try reflexivity; lia.
Qed.


Lemma linear_r_inner g ruyten rc zc j : dgrid_ok g -> in_cells g rc zc ->
  ~ (2 <= j < dg_nr g + 2)%Z ->
  at_ (k_r (linear_kernel g ruyten rc zc)) (j - k_ir (linear_kernel g ruyten rc zc)) = 0.
Proof.
  intros (_ & _ & _ & _ & Hn) Hc Hj. pose proof (ceil_r g rc zc Hc) as Cr. destruct Hc as [Hr _].
  cbn [linear_kernel k_r k_ir]. rewrite at2. unfold u_r_linear.
  assert (N : 0 <= IZR (dg_nr g) - 1) by (rewrite <- minus_IZR; apply (IZR_le 0); lia).
  destruct (Rlt_dec rc 0) as [H0|H0].
  { assert (ceil rc <= 0)%Z by (apply ceil_le; lra).
    repeat match goal with |- context [Z.eqb ?x 0] => destruct (Z.eqb_spec x 0) end; try lia; ring. }
  destruct (Rlt_dec (IZR (dg_nr g) - 1) rc) as [H1|H1].
  { assert (dg_nr g <= ceil rc)%Z by (apply ceil_ge; lra).
    repeat match goal with |- context [Z.eqb ?x 0] => destruct (Z.eqb_spec x 0) end; try lia; ring. }
  assert (C : (ceil rc <= dg_nr g - 1)%Z) by (apply ceil_le; rewrite minus_IZR; lra).
  destruct (Req_dec rc 0) as [E|E].
  - assert (Z0 : ceil rc = 0%Z) by (apply ceil_spec; rewrite E; lra). rewrite Z0, E.
    repeat match goal with |- context [Z.eqb ?x 0] => destruct (Z.eqb_spec x 0) end; try lia; ring.
  - assert (1 <= ceil rc)%Z by (apply ceil_ge; lra).
    repeat match goal with |- context [Z.eqb ?x 0] => destruct (Z.eqb_spec x 0) end; try lia; ring.
Qed.
Lemma linear_z_inner g ruyten rc zc i : in_cells g rc zc -> rc <= IZR (dg_nz g) - 1 ->
  ~ (2 <= i < dg_nz g + 2)%Z ->
  at_ (k_z (linear_kernel g ruyten rc zc)) (i - k_iz (linear_kernel g ruyten rc zc)) = 0.
Proof.
  intros Hc Hb Hi. pose proof (ceil_z g rc zc Hc) as Cz. destruct Hc as [_ Hz].
  cbn [linear_kernel k_z k_iz]. rewrite at2. unfold u_z_linear.
  destruct (Rlt_dec zc 0); [lra|]. destruct (Rlt_dec _ rc); [lra|].
  destruct (Req_dec zc 0) as [E|E].
  - assert (Z0 : ceil zc = 0%Z) by (apply ceil_spec; rewrite E; lra). rewrite Z0, E.
    repeat match goal with |- context [Z.eqb ?x 0] => destruct (Z.eqb_spec x 0) end; try lia; ring.
  - assert (1 <= ceil zc)%Z by (apply ceil_ge; lra).
    repeat match goal with |- context [Z.eqb ?x 0] => destruct (Z.eqb_spec x 0) end; try lia; ring.
Qed.
Lemma kernel_inner g s ruyten rc zc w i j : dgrid_ok g -> guarded_grid g s -> in_cells g rc zc ->
  ~ inner_cell g i j -> spread (kernel_of g (is_cubic s) ruyten rc zc) w i j = 0.
Proof.
  intros Hg Hs Hc Hi. unfold spread.
  assert (D : ~ (2 <= i < dg_nz g + 2)%Z \/ ~ (2 <= j < dg_nr g + 2)%Z)
    by (unfold inner_cell in Hi; lia).
  unfold guarded_grid in Hs. unfold kernel_of. destruct (is_cubic s).
  - destruct Hs as [S1 S2]. destruct Hc as [Hr Hz].
    unfold cubic_kernel, cubic_shape. cbn [k_z k_r k_iz k_ir].
    destruct D as [D|D].
    + rewrite (fold_edges_inner (dg_nz g) zc) by (assumption || split; lra). ring.
    + rewrite (fold_edges_inner (dg_nr g) rc) by (assumption || split; lra). ring.
  - assert (Hb : rc <= IZR (dg_nz g) - 1).
    { assert (IZR (dg_nr g) <= IZR (dg_nz g - 1)) by (apply IZR_le; lia).
      rewrite minus_IZR in H. destruct Hc as [Hr _]. lra. }
    destruct D as [D|D]; [rewrite linear_z_inner by assumption|rewrite linear_r_inner by assumption]; ring.
Qed.
Lemma contributions_zero {A} (d : A -> Z -> Z -> R) l i j :
  Forall (fun p => d p i j = 0) l -> contributions d l i j = 0.
Proof. intros H. unfold contributions. induction H as [|p l Hp Hl IH]; cbn [fold_right]; [reflexivity|]. rewrite Hp, IH. ring. Qed.

Lemma guards_lemma g s ruyten l a b : shape_name s -> dgrid_ok g -> guarded_grid g s -> darray g a ->
  deposit_3d_distribution g s ruyten l a = Returned (Ok b) ->
  forall i j, ~ inner_cell g i j -> cell b i j = cell a i j.
Proof.
  intros Hs Hg Hn Ha E i j Hi. destruct (deposit_3d_lemma g s ruyten l a Hs Hg Ha) as (b' & E' & P).
  assert (b' = b) by congruence. subst b'. destruct P as (_ & _ & P). rewrite P.
  rewrite contributions_zero; [ring|]. apply Forall_forall. intros [p w] _.
  unfold particle; cbn [fst snd]. destruct (inside_dec g p); [|reflexivity].
  apply kernel_inner; try assumption. apply inside_cells; assumption.
Qed.
Lemma plasma_guards_lemma g s zc l a b : shape_name s -> dgrid_ok g -> guarded_grid g s -> darray g a ->
  (0 <= zc < dg_nz g)%Z -> Forall (fun rw => 0 <= fst rw) l ->
  deposit_plasma_particles g s zc l a = Ok b ->
  forall i j, ~ inner_cell g i j -> cell b i j = cell a i j.
Proof.
  intros Hs Hg Hn Ha Hz Hl E i j Hi.
  destruct (deposit_plasma_lemma g s zc l a Hs Hg Ha Hz Hl) as (b' & E' & P).
  assert (b' = b) by congruence. subst b'. destruct P as (_ & _ & P). rewrite P.
  rewrite contributions_zero; [ring|]. rewrite Forall_forall in *. intros [r w] I.
  unfold plasma_particle; cbn [fst snd]. destruct (Rle_dec r (r_edge g)); [|reflexivity].
  apply kernel_inner; try assumption. apply plasma_cells; try assumption.
  split; [apply (Hl _ I)|assumption].
Qed.

(** ** Order, concatenation, scaling *)
Lemma contributions_app {A} (d : A -> Z -> Z -> R) l l' i j :
  contributions d (l ++ l') i j = contributions d l i j + contributions d l' i j.
Proof. unfold contributions. induction l as [|p l IH]; cbn [app fold_right]; [ring|]. rewrite IH. ring. Qed.
Lemma contributions_perm {A} (d : A -> Z -> Z -> R) l l' i j :
  Permutation l l' -> contributions d l i j = contributions d l' i j.
Proof. intros H. unfold contributions. induction H; cbn [fold_right]; lra. Qed.
Lemma plus_array_unique a d b b' : plus_array a d b -> plus_array a d b' -> same_array b b'.
Proof. intros (P1 & P2 & P3) (Q1 & Q2 & Q3). split; [congruence|]. split; [congruence|]. intros. rewrite P3, Q3. reflexivity. Qed.
Lemma particle_scal g cubic ruyten c p w i j :
  particle g cubic ruyten (p, c * w) i j = c * particle g cubic ruyten (p, w) i j.
Proof. unfold particle, spread; cbn [fst snd]. destruct (inside_dec g p); ring. Qed.
Lemma contributions_scal g cubic ruyten c l i j :
  contributions (particle g cubic ruyten) (map (fun pw => (fst pw, c * snd pw)) l) i j
  = c * contributions (particle g cubic ruyten) l i j.
Proof.
  induction l as [|[p w] l IH]; cbn [map contributions fold_right fst snd]; [ring|].
  fold (contributions (particle g cubic ruyten) (map (fun pw => (fst pw, c * snd pw)) l) i j).
  fold (contributions (particle g cubic ruyten) l i j).
  rewrite IH, particle_scal. ring.
Qed.

(** ** Non-negative weights *)
Lemma u_r_range g rc : 0 <= u_r_linear g rc <= 1.
Proof.
  unfold u_r_linear. destruct (Rlt_dec rc 0); [lra|]. destruct (Rlt_dec _ rc); [lra|].
  pose proof (ceil_bounds rc). lra.
Qed.
Lemma u_z_range g rc zc : 0 <= u_z_linear g rc zc <= 1.
Proof.
  unfold u_z_linear. destruct (Rlt_dec zc 0); [lra|]. destruct (Rlt_dec _ rc); [lra|].
  pose proof (ceil_bounds zc). lra.
Qed.

Lemma cell_volume_norm_eq g j : dgrid_ok g -> cell_volume_norm g j = INR j + / 2.
Proof.
  intros (Hz & Hr & _). unfold cell_volume_norm, cell_volume, r_grid.
  pose proof PI_RGT_0. replace 0.5 with (/ 2) by lra. field. repeat split; lra.
Qed.
Lemma cumsum_eq g j : dgrid_ok g -> cumsum (cell_volume_norm g) j = INR (S j) ^ 2 / 2.
Proof.
  intros Hg. induction j as [|j IH]; cbn [cumsum]; rewrite cell_volume_norm_eq by assumption.
  - cbn. field.
  - rewrite IH, !S_INR. field.
Qed.
Lemma ruyten_linear_eq g k : dgrid_ok g -> (1 <= k)%nat -> ruyten_linear g k = - / (4 * INR k).
Proof.
  intros Hg Hk. destruct k as [|j]; [lia|]. unfold ruyten_linear. rewrite cumsum_eq by assumption.
  assert (0 < INR (S j)) by (apply lt_0_INR; lia). replace 0.5 with (/ 2) by lra. field. lra.
Qed.
Lemma ruyten_cubic_eq g k : dgrid_ok g -> (2 <= k)%nat -> ruyten_cubic g k = - (3 / (4 * INR k)).
Proof.
  intros Hg Hk. destruct k as [|[|j]]; [lia|lia|]. unfold ruyten_cubic. rewrite cumsum_eq by assumption.
  assert (0 < INR (S (S j))) by (apply lt_0_INR; lia).
  replace 0.5 with (/ 2) by lra. replace 0.125 with (/ 8) by lra. field. lra.
Qed.
Lemma ruyten_cubic_1 g : dgrid_ok g -> ruyten_cubic g 1 = - (239 / 320).
Proof.
  intros Hg. unfold ruyten_cubic. rewrite cell_volume_norm_eq by assumption. cbn [INR]. lra.
Qed.
Lemma ruyten_linear_range g ruyten n : dgrid_ok g -> (0 <= n)%Z ->
  - 1 <= coef_of ruyten (ruyten_linear g) n <= 0.
Proof.
  intros Hg Hn. unfold coef_of. destruct ruyten; [|lra].
  destruct (Z.to_nat n) as [|j] eqn:E; [cbn; lra|].
  rewrite ruyten_linear_eq by (assumption || lia).
  assert (1 <= INR (S j)) by (apply (le_INR 1); lia).
  assert (0 < / (4 * INR (S j))) by (apply Rinv_0_lt_compat; lra).
  assert (/ (4 * INR (S j)) <= / 1) by (apply Rinv_le_contravar; lra). lra.
Qed.
Lemma ruyten_cubic_range g ruyten n : dgrid_ok g -> (0 <= n)%Z ->
  - (3 / 4) <= coef_of ruyten (ruyten_cubic g) n <= 0.
Proof.
  intros Hg Hn. unfold coef_of. destruct ruyten; [|lra].
  destruct (Z.to_nat n) as [|[|j]] eqn:E; [cbn; lra|rewrite ruyten_cubic_1 by assumption; lra|].
  rewrite ruyten_cubic_eq by (assumption || lia).
  assert (2 <= INR (S (S j))) by (apply (le_INR 2); lia).
  unfold Rdiv. assert (0 < / (4 * INR (S (S j)))) by (apply Rinv_0_lt_compat; lra).
  assert (/ (4 * INR (S (S j))) <= / 8) by (apply Rinv_le_contravar; lra). lra.
Qed.

Lemma at_nonneg l k : Forall (Rle 0) l -> 0 <= at_ l k.
Proof.
  intros H. unfold at_. destruct (Z.ltb k 0); [lra|].
  destruct (nth_in_or_default (Z.to_nat k) l 0) as [I|E]; [|rewrite E; lra].
  rewrite Forall_forall in H. apply H, I.
Qed.
Lemma fold_edges_nonneg n c s0 s1 s2 s3 : 0 <= s0 -> 0 <= s1 -> 0 <= s2 -> 0 <= s3 ->
  Forall (Rle 0) (fold_edges n c (s0, s1, s2, s3)).
Proof.
  intros. unfold fold_edges.
  destruct (Rle_dec c 0), (Rle_dec c 1), (Rlt_dec (IZR n - 1) c), (Rlt_dec (IZR n - 2) c);
    repeat apply Forall_cons; try apply Forall_nil; lra.
Qed.
Lemma cubic_bounds u : 0 <= u <= 1 -> 0 <= 1 / 6 * (1 - u) ^ 3 /\
  0 <= 1 / 6 * (3 * u ^ 3 - 6 * u ^ 2 + 4) - 3 / 4 * (1 - u) * u /\
  0 <= 1 / 6 * (3 * (1 - u) ^ 3 - 6 * (1 - u) ^ 2 + 4) /\ 0 <= 1 / 6 * u ^ 3.
Proof.
  intros H. repeat split.
  - assert (0 <= (1 - u) ^ 3) by (apply pow_le; lra). lra.
  - replace (1 / 6 * (3 * u ^ 3 - 6 * u ^ 2 + 4) - 3 / 4 * (1 - u) * u)
      with ((6 * ((1 - u) ^ 2 * u) + (9 * ((1 - u) - / 6) ^ 2 + 7 / 4)) / 12) by field.
    assert (0 <= (1 - u) ^ 2 * u) by (apply Rmult_le_pos; [apply pow2_ge_0|lra]).
    pose proof (pow2_ge_0 (1 - u - / 6)). lra.
  - replace (1 / 6 * (3 * (1 - u) ^ 3 - 6 * (1 - u) ^ 2 + 4))
      with ((1 + 3 * u + 3 * (u ^ 2 * (1 - u))) / 6) by field.
    assert (0 <= u ^ 2 * (1 - u)) by (apply Rmult_le_pos; [apply pow2_ge_0|lra]). lra.
  - assert (0 <= u ^ 3) by (apply pow_le; lra). lra.
Qed.
Lemma kernel_nonneg g cubic ruyten rc zc : dgrid_ok g -> in_cells g rc zc ->
  Forall (Rle 0) (k_z (kernel_of g cubic ruyten rc zc)) /\
  Forall (Rle 0) (k_r (kernel_of g cubic ruyten rc zc)).
Proof.
  intros Hg Hc. pose proof (ceil_r g rc zc Hc) as Cr. unfold kernel_of. destruct cubic.
  - unfold cubic_kernel, cubic_shape. cbn [k_z k_r].
    pose proof (ruyten_cubic_range g ruyten (ceil rc) Hg (proj1 Cr)) as K.
    set (k := coef_of ruyten (ruyten_cubic g) (ceil rc)) in *.
    pose proof (ceil_bounds rc). pose proof (ceil_bounds zc). split.
    + set (u := zc - IZR (ceil zc) + 1). assert (U : 0 <= u <= 1) by (unfold u; lra).
      destruct (cubic_bounds u U) as (B1 & B2 & B3 & B4).
      assert (0 <= (1 - u) * u) by (apply Rmult_le_pos; lra).
      apply fold_edges_nonneg; try assumption. lra.
    + set (u := rc - IZR (ceil rc) + 1). assert (U : 0 <= u <= 1) by (unfold u; lra).
      destruct (cubic_bounds u U) as (B1 & B2 & B3 & B4).
      assert (P : 0 <= (1 - u) * u) by (apply Rmult_le_pos; lra).
      assert (Q : k * ((1 - u) * u) <= 0 * ((1 - u) * u)) by (apply Rmult_le_compat_r; lra).
      rewrite Rmult_0_l in Q.
      assert (Q' : - (3 / 4) * ((1 - u) * u) <= k * ((1 - u) * u))
        by (apply Rmult_le_compat_r; lra).
      apply fold_edges_nonneg; try assumption.
      * replace (k * (1 - u) * u) with (k * ((1 - u) * u)) by ring. lra.
      * replace (k * (1 - u) * u) with (k * ((1 - u) * u)) by ring. lra.
  - cbn [linear_kernel k_z k_r].
    pose proof (ruyten_linear_range g ruyten (ceil rc) Hg (proj1 Cr)) as K.
    set (k := coef_of ruyten (ruyten_linear g) (ceil rc)) in *.
    pose proof (u_r_range g rc) as U. set (u := u_r_linear g rc) in *.
    pose proof (u_z_range g rc zc) as V. set (v := u_z_linear g rc zc) in *.
    assert (P : 0 <= (1 - u) * u) by (apply Rmult_le_pos; lra).
    split; repeat apply Forall_cons; try apply Forall_nil; try lra.
    + replace (1 - u + k * (1 - u) * u) with ((1 - u) * (1 + k * u)) by ring.
      apply Rmult_le_pos; [lra|]. nra.
    + replace (k * (1 - u) * u) with (k * ((1 - u) * u)) by ring. nra.
Qed.
Lemma spread_nonneg K w i j : Forall (Rle 0) (k_z K) -> Forall (Rle 0) (k_r K) -> 0 <= w ->
  0 <= spread K w i j.
Proof.
  intros Hz Hr Hw. unfold spread. apply Rmult_le_pos; [apply Rmult_le_pos; [assumption|]|];
    apply at_nonneg; assumption.
Qed.
Lemma contributions_nonneg {A} (d : A -> Z -> Z -> R) l i j :
  Forall (fun p => 0 <= d p i j) l -> 0 <= contributions d l i j.
Proof. intros H. unfold contributions. induction H; cbn [fold_right]; lra. Qed.
Lemma nonneg_lemma g s ruyten l a b : shape_name s -> dgrid_ok g -> darray g a ->
  Forall (fun pw => 0 <= snd pw) l ->
  deposit_3d_distribution g s ruyten l a = Returned (Ok b) ->
  forall i j, cell a i j <= cell b i j.
Proof.
  intros Hs Hg Ha Hl E i j. destruct (deposit_3d_lemma g s ruyten l a Hs Hg Ha) as (b' & E' & P).
  assert (b' = b) by congruence. subst b'. destruct P as (_ & _ & P). rewrite P.
  assert (0 <= contributions (particle g (is_cubic s) ruyten) l i j); [|lra].
  apply contributions_nonneg. rewrite Forall_forall in *. intros [p w] I.
  unfold particle; cbn [fst snd]. destruct (inside_dec g p) as [H|]; [|lra].
  destruct (kernel_nonneg g (is_cubic s) ruyten _ _ Hg (inside_cells g p Hg H)).
  apply spread_nonneg; try assumption. apply (Hl _ I).
Qed.
Lemma plasma_nonneg_lemma g s zc l a b : shape_name s -> dgrid_ok g -> darray g a ->
  (0 <= zc < dg_nz g)%Z -> Forall (fun rw => 0 <= fst rw /\ 0 <= snd rw) l ->
  deposit_plasma_particles g s zc l a = Ok b ->
  forall i j, cell a i j <= cell b i j.
Proof.
  intros Hs Hg Ha Hz Hl E i j.
  assert (Hl' : Forall (fun rw => 0 <= fst rw) l) by (eapply Forall_impl; [|exact Hl]; tauto).
  destruct (deposit_plasma_lemma g s zc l a Hs Hg Ha Hz Hl') as (b' & E' & P).
  assert (b' = b) by congruence. subst b'. destruct P as (_ & _ & P). rewrite P.
  assert (0 <= contributions (plasma_particle g (is_cubic s) zc) l i j); [|lra].
  apply contributions_nonneg. rewrite Forall_forall in *. intros [r w] I.
  unfold plasma_particle; cbn [fst snd]. destruct (Rle_dec r (r_edge g)) as [H|]; [|lra].
  destruct (Hl _ I) as [I1 I2]. cbn [fst snd] in *.
  destruct (kernel_nonneg g (is_cubic s) false _ _ Hg (plasma_cells g zc r Hg Hz (conj I1 H))).
  apply spread_nonneg; assumption.
Qed.

(** ** First moments *)
(** Positions away from the edges, in cell units. *)
Definition interior_z (g : dgrid) (s : string) (rc zc : R) : Prop :=
  if is_cubic s then 1 < zc <= IZR (dg_nz g) - 2 else rc <= IZR (dg_nz g) - 1.
Definition interior_r (g : dgrid) (s : string) (rc : R) : Prop :=
  if is_cubic s then 1 < rc <= IZR (dg_nr g) - 2 else 0 <= rc <= IZR (dg_nr g) - 1.

Lemma fold_edges_interior n c s0 s1 s2 s3 : 1 < c <= IZR n - 2 ->
  fold_edges n c (s0, s1, s2, s3) = [s0; s1; s2; s3].
Proof.
  intros H. unfold fold_edges. destruct (Rle_dec c 0); [lra|]. destruct (Rle_dec c 1); [lra|].
  destruct (Rlt_dec (IZR n - 1) c); [lra|]. destruct (Rlt_dec (IZR n - 2) c); [lra|]. reflexivity.
Qed.
Lemma kernel_z_moment g s ruyten rc zc : in_cells g rc zc -> interior_z g s rc zc ->
  let K := kernel_of g (is_cubic s) ruyten rc zc in
  wsum (row_z g) (k_iz K) (k_z K) = dg_zmin g + zc * dg_dz g.
Proof.
  intros Hc Hi. unfold interior_z in Hi. unfold kernel_of. destruct (is_cubic s).
  - unfold cubic_kernel, cubic_shape. cbn [k_z k_iz].
    rewrite fold_edges_interior by assumption. cbn [wsum]. unfold row_z. rewrite !plus_IZR. field.
  - cbn [linear_kernel k_z k_iz wsum]. unfold u_z_linear, row_z. destruct Hc as [_ Hz].
    destruct (Rlt_dec zc 0); [lra|]. destruct (Rlt_dec _ rc); [lra|]. rewrite !plus_IZR. ring.
Qed.
Lemma kernel_r_moment g s rc zc : interior_r g s rc ->
  let K := kernel_of g (is_cubic s) false rc zc in
  wsum (col_r g) (k_ir K) (k_r K) = dg_rmin g + rc * dg_dr g.
Proof.
  intros Hi. unfold interior_r in Hi. unfold kernel_of, coef_of. destruct (is_cubic s).
  - unfold cubic_kernel, cubic_shape, coef_of. cbn [k_r k_ir].
    rewrite fold_edges_interior by assumption. cbn [wsum]. unfold col_r. rewrite !plus_IZR. field.
  - cbn [linear_kernel k_r k_ir wsum coef_of]. unfold u_r_linear, col_r.
    destruct (Rlt_dec rc 0); [lra|]. destruct (Rlt_dec _ rc); [lra|]. rewrite !plus_IZR. ring.
Qed.

Lemma z_moment_lemma g s ruyten l a b : shape_name s -> dgrid_ok g -> darray g a ->
  Forall (fun pw => inside g (fst pw) ->
    interior_z g s (r_cells g (fst pw)) (z_cells g (fst pw))) l ->
  deposit_3d_distribution g s ruyten l a = Returned (Ok b) ->
  moment (fun i _ => row_z g i) b = moment (fun i _ => row_z g i) a + weighted g lon l.
Proof.
  intros Hs Hg Ha Hl E. destruct (deposit_3d_lemma g s ruyten l a Hs Hg Ha) as (b' & E' & P).
  assert (b' = b) by congruence. subst b'.
  rewrite (moment_plus _ _ _ _ P), contributions_moment. f_equal.
  destruct Ha as [-> ->]. unfold weighted. clear E E' P.
  induction Hl as [|[p w] l H0 Hl IH]; [reflexivity|]. cbn [fold_right fst snd] in *. rewrite IH. f_equal.
  unfold particle; cbn [fst snd]. destruct (inside_dec g p) as [H|H].
  - pose proof (inside_cells g p Hg H) as Hc.
    pose proof (kernel_fits g (is_cubic s) ruyten _ _ Hc) as F.
    rewrite (sum_range_ext _ _ (fun i => sum_range (dg_nr g + 4) (fun j => row_z g i * (fun _ => 1) j *
      spread (kernel_of g (is_cubic s) ruyten (r_cells g p) (z_cells g p)) w i j)))
      by (intros; apply sum_range_ext; intros; ring).
    rewrite (spread_moment g _ w (row_z g) (fun _ => 1) F), wsum_one.
    rewrite kernel_z_moment by auto.
    destruct (kernel_sum g (is_cubic s) ruyten (r_cells g p) (z_cells g p)) as [_ ->].
    unfold z_cells. destruct Hg as (Hz & _). field. lra.
  - apply sum_range_zero. intros. apply sum_range_zero. intros. ring.
Qed.
Lemma r_moment_lemma g s l a b : shape_name s -> dgrid_ok g -> darray g a ->
  Forall (fun pw => inside g (fst pw) -> interior_r g s (r_cells g (fst pw))) l ->
  deposit_3d_distribution g s false l a = Returned (Ok b) ->
  moment (fun _ j => col_r g j) b = moment (fun _ j => col_r g j) a + weighted g radius l.
Proof.
  intros Hs Hg Ha Hl E. destruct (deposit_3d_lemma g s false l a Hs Hg Ha) as (b' & E' & P).
  assert (b' = b) by congruence. subst b'.
  rewrite (moment_plus _ _ _ _ P), contributions_moment. f_equal.
  destruct Ha as [-> ->]. unfold weighted. clear E E' P.
  induction Hl as [|[p w] l H0 Hl IH]; [reflexivity|]. cbn [fold_right fst snd] in *. rewrite IH. f_equal.
  unfold particle; cbn [fst snd]. destruct (inside_dec g p) as [H|H].
  - pose proof (inside_cells g p Hg H) as Hc.
    pose proof (kernel_fits g (is_cubic s) false _ _ Hc) as F.
    rewrite (sum_range_ext _ _ (fun i => sum_range (dg_nr g + 4) (fun j => (fun _ => 1) i * col_r g j *
      spread (kernel_of g (is_cubic s) false (r_cells g p) (z_cells g p)) w i j)))
      by (intros; apply sum_range_ext; intros; ring).
    rewrite (spread_moment g _ w (fun _ => 1) (col_r g) F), wsum_one.
    rewrite kernel_r_moment by auto.
    destruct (kernel_sum g (is_cubic s) false (r_cells g p) (z_cells g p)) as [-> _].
    unfold r_cells. destruct Hg as (_ & Hr & _). field. lra.
  - apply sum_range_zero. intros. apply sum_range_zero. intros. ring.
Qed.

(** ** Statements in lengths *)
Lemma div_le a b c : 0 < c -> a <= b * c -> a / c <= b.
Proof. intros Hc H. apply Rmult_le_reg_r with c; [assumption|]. unfold Rdiv. rewrite Rmult_assoc, Rinv_l by lra. lra. Qed.
Lemma div_ge a b c : 0 < c -> b * c <= a -> b <= a / c.
Proof. intros Hc H. apply Rmult_le_reg_r with c; [assumption|]. unfold Rdiv. rewrite Rmult_assoc, Rinv_l by lra. lra. Qed.
Lemma div_gt a b c : 0 < c -> b * c < a -> b < a / c.
Proof. intros Hc H. apply Rmult_lt_reg_r with c; [assumption|]. unfold Rdiv. rewrite Rmult_assoc, Rinv_l by lra. lra. Qed.
Lemma away_z_interior g s p : shape_name s -> dgrid_ok g -> away_z g s p ->
  interior_z g s (r_cells g p) (z_cells g p).
Proof.
  intros Hs Hg. unfold away_z, interior_z. destruct Hg as (Hz & Hr & Em & _).
  destruct Hs as [-> | ->]; cbn; unfold z_cells, r_cells, z_last.
  - intros H. apply div_le; [assumption|]. rewrite Em. lra.
  - intros [H1 H2]. split; [apply div_gt|apply div_le]; lra.
Qed.
Lemma away_r_interior g s p : shape_name s -> dgrid_ok g -> away_r g s p ->
  interior_r g s (r_cells g p).
Proof.
  intros Hs Hg. unfold away_r, interior_r. destruct Hg as (Hz & Hr & Em & _).
  destruct Hs as [-> | ->]; cbn; unfold r_cells, r_edge; rewrite Em.
  - intros [H1 H2]. split; [apply div_ge|apply div_le]; lra.
  - intros [H1 H2]. split; [apply div_gt|apply div_le]; lra.
Qed.

(** ** Order *)
Lemma order_lemma g s ruyten l l' a : shape_name s -> dgrid_ok g -> darray g a -> Permutation l l' ->
  exists b b', deposit_3d_distribution g s ruyten l a = Returned (Ok b) /\
    deposit_3d_distribution g s ruyten l' a = Returned (Ok b') /\ same_array b b'.
Proof.
  intros Hs Hg Ha Hp.
  destruct (deposit_3d_lemma g s ruyten l a Hs Hg Ha) as (b & E & P).
  destruct (deposit_3d_lemma g s ruyten l' a Hs Hg Ha) as (b' & E' & P').
  exists b, b'. split; [exact E|]. split; [exact E'|].
  apply (plus_array_unique a _ b b' P). eapply plus_array_ext; [exact P'|].
  intros. symmetry. apply contributions_perm, Hp.
Qed.
Lemma foldM_app {A B} (f : B -> A -> result B) l l' b :
  foldM f (l ++ l') b = (do c <- foldM f l b; foldM f l' c).
Proof. revert b. induction l as [|x l IH]; intros b; cbn; [reflexivity|]. destruct (f b x); cbn; [apply IH|reflexivity]. Qed.
Lemma app_lemma g s ruyten l l' a b : shape_name s ->
  deposit_3d_distribution g s ruyten l a = Returned (Ok b) ->
  deposit_3d_distribution g s ruyten (l ++ l') a = deposit_3d_distribution g s ruyten l' b.
Proof.
  intros Hs. unfold deposit_3d_distribution, deposit_loop.
  destruct Hs as [-> | ->]; cbn [String.eqb Ascii.eqb Bool.eqb]; rewrite foldM_app;
    intros E; match type of E with Returned ?x = _ => assert (E' : x = Ok b) by congruence; rewrite E' end; reflexivity.
Qed.
Lemma scale_lemma g s ruyten c l : shape_name s -> dgrid_ok g ->
  exists b b', deposit_3d_distribution g s ruyten l (zeros g) = Returned (Ok b) /\
    deposit_3d_distribution g s ruyten (map (fun pw => (fst pw, c * snd pw)) l) (zeros g)
      = Returned (Ok b') /\
    rows b' = rows b /\ cols b' = cols b /\ forall i j, cell b' i j = c * cell b i j.
Proof.
  intros Hs Hg. assert (Ha : darray g (zeros g)) by (split; reflexivity).
  destruct (deposit_3d_lemma g s ruyten l _ Hs Hg Ha) as (b & E & P1 & P2 & P3).
  destruct (deposit_3d_lemma g s ruyten (map (fun pw => (fst pw, c * snd pw)) l) _ Hs Hg Ha)
    as (b' & E' & P1' & P2' & P3').
  exists b, b'. split; [exact E|]. split; [exact E'|]. split; [congruence|]. split; [congruence|].
  intros. rewrite P3', P3, contributions_scal. cbn [cell zeros]. ring.
Qed.
Lemma plasma_order_lemma g s zc l l' a : shape_name s -> dgrid_ok g -> darray g a ->
  (0 <= zc < dg_nz g)%Z -> Forall (fun rw => 0 <= fst rw) l -> Permutation l l' ->
  exists b b', deposit_plasma_particles g s zc l a = Ok b /\
    deposit_plasma_particles g s zc l' a = Ok b' /\ same_array b b'.
Proof.
  intros Hs Hg Ha Hz Hl Hp.
  assert (Hl' : Forall (fun rw => 0 <= fst rw) l').
  { rewrite Forall_forall in *. intros x I. apply Hl. apply (Permutation_in _ (Permutation_sym Hp) I). }
  destruct (deposit_plasma_lemma g s zc l a Hs Hg Ha Hz Hl) as (b & E & P).
  destruct (deposit_plasma_lemma g s zc l' a Hs Hg Ha Hz Hl') as (b' & E' & P').
  exists b, b'. split; [exact E|]. split; [exact E'|].
  apply (plus_array_unique a _ b b' P). eapply plus_array_ext; [exact P'|].
  intros. symmetry. apply contributions_perm, Hp.
Qed.
(** Particles outside are skipped. *)
Lemma outside_lemma g s ruyten l a : shape_name s -> Forall (fun pw => ~ inside g (fst pw)) l ->
  deposit_3d_distribution g s ruyten l a = Returned (Ok a).
Proof.
  intros Hs Hl. unfold deposit_3d_distribution, deposit_loop.
  destruct Hs as [-> | ->]; cbn [String.eqb Ascii.eqb Bool.eqb]; f_equal;
  induction Hl as [|[[[x y] z] w] l H Hl IH]; cbn [foldM]; try reflexivity;
  cbn [fst] in H; rewrite (radius_eq x y z);
  (destruct (Rle_dec (dg_zmin g) z) as [H1|]; [|exact IH]);
  (destruct (Rle_dec z _) as [H2|]; [|exact IH]);
  (destruct (Rle_dec (radius (x, y, z)) _) as [H3|]; [|exact IH]);
  exfalso; apply H; repeat split; assumption.
Qed.

(** ** Leaks *)
Definition leaky (g : dgrid) : pos := (r_edge g, 0, dg_zmin g).
Lemma leaky_inside g : dgrid_ok g -> inside g (leaky g) /\ radius (leaky g) = r_edge g.
Proof.
  intros (Hz & Hr & _ & Nz & Nr).
  assert (N1 : 1 <= IZR (dg_nz g)) by (apply (IZR_le 1); assumption).
  assert (N2 : 1 <= IZR (dg_nr g)) by (apply (IZR_le 1); assumption).
  assert (E : radius (leaky g) = r_edge g).
  { cbn. replace (r_edge g * r_edge g + 0 * 0) with (r_edge g * r_edge g) by ring.
    apply sqrt_square. unfold r_edge. nra. }
  split; [|exact E]. split; [|lra]. cbn. unfold z_last. nra.
Qed.
Lemma linear_leak_lemma g ruyten : dgrid_ok g -> (dg_nz g <= dg_nr g)%Z ->
  exists b, deposit_3d_distribution g "linear" ruyten [(leaky g, 1)] (zeros g) = Returned (Ok b) /\
    (forall i j, inner_cell g i j -> cell b i j = 0) /\
    total_charge b = 1 /\
    moment (fun i _ => row_z g i) b = dg_zmin g - dg_dz g.
Proof.
  intros Hg Hn. assert (Ha : darray g (zeros g)) by (split; reflexivity).
  destruct (leaky_inside g Hg) as [Hi Er].
  destruct (conserve_lemma g "linear" ruyten [(leaky g, 1)] (zeros g) (or_introl eq_refl) Hg Ha)
    as (b0 & E0 & _ & T).
  destruct (deposit_3d_lemma g "linear" ruyten [(leaky g, 1)] (zeros g) (or_introl eq_refl) Hg Ha)
    as (b & E & P). assert (b0 = b) by congruence. subst b0.
  assert (Hc := inside_cells g _ Hg Hi).
  assert (Z0 : z_cells g (leaky g) = 0)
    by (unfold z_cells; cbn; destruct Hg as (Hz & _); field; lra).
  assert (U : u_z_linear g (r_cells g (leaky g)) (z_cells g (leaky g)) = 0).
  { unfold u_z_linear. rewrite Z0. destruct (Rlt_dec 0 0); [lra|].
    destruct (Rlt_dec _ _) as [|N]; [reflexivity|]. exfalso. apply N. unfold r_cells. rewrite Er.
    destruct Hg as (_ & Hr & Em & _). rewrite Em. unfold r_edge.
    replace ((IZR (dg_nr g) * dg_dr g - dg_dr g / 2) / dg_dr g) with (IZR (dg_nr g) - / 2)
      by (field; lra). apply IZR_le in Hn. lra. }
  assert (C0 : ceil 0 = 0%Z) by (apply ceil_spec; lra).
  exists b. split; [exact E|]. split; [|split].
  - intros i j Hij. destruct P as (_ & _ & P). rewrite P. cbn [zeros cell contributions fold_right].
    unfold particle; cbn [fst snd]. destruct (inside_dec g (leaky g)); [|ring].
    unfold spread, kernel_of, is_cubic. cbn [String.eqb Ascii.eqb Bool.eqb linear_kernel k_z k_iz].
    rewrite U, Z0, C0, at2. destruct Hij as [Hij _].
    destruct (Z.eqb_spec (i - (0 + 1)) 0); [lia|]. destruct (Z.eqb_spec (i - (0 + 1) - 1) 0); ring.
  - rewrite T. cbn [charge_inside fold_right fst snd]. destruct (inside_dec g (leaky g)); [|contradiction].
    unfold total_charge, zeros; cbn [rows cols cell].
    rewrite sum_range_zero; [ring|]. intros. apply sum_range_zero. reflexivity.
  - rewrite (moment_plus _ _ _ _ P), contributions_moment. cbn [fold_right zeros rows cols].
    unfold particle; cbn [fst snd]. destruct (inside_dec g (leaky g)); [|contradiction].
    pose proof (kernel_fits g (is_cubic "linear") ruyten _ _ Hc) as F.
    rewrite (sum_range_ext (dg_nz g + 4) _ (fun i => sum_range (dg_nr g + 4) (fun j => row_z g i * (fun _ => 1) j *
      spread (kernel_of g (is_cubic "linear") ruyten (r_cells g (leaky g)) (z_cells g (leaky g))) 1 i j)))
      by (intros; apply sum_range_ext; intros; ring).
    rewrite (spread_moment g _ 1 (row_z g) (fun _ => 1) F), wsum_one.
    destruct (kernel_sum g (is_cubic "linear") ruyten (r_cells g (leaky g)) (z_cells g (leaky g))) as [_ ->].
    unfold kernel_of, is_cubic. cbn [String.eqb Ascii.eqb Bool.eqb linear_kernel k_z k_iz wsum].
    rewrite U, Z0, C0. unfold moment. cbn [rows cols cell zeros].
    rewrite sum_range_zero by (intros; apply sum_range_zero; intros; ring).
    unfold row_z. cbn. ring.
Qed.
Definition leaky_cubic (g : dgrid) : pos := (dg_dr g, 0, dg_zmin g).
Lemma cubic_leak_lemma g ruyten : dgrid_ok g -> dg_nr g = 2%Z ->
  exists b, deposit_3d_distribution g "cubic" ruyten [(leaky_cubic g, 1)] (zeros g) = Returned (Ok b) /\
    inside g (leaky_cubic g) /\ ~ inner_cell g 2 4 /\ 0 < cell b 2 4.
Proof.
  intros Hg Hn. assert (Ha : darray g (zeros g)) by (split; reflexivity).
  pose proof Hg as (Hz & Hr & Em & Nz & Nr).
  assert (N1 : 1 <= IZR (dg_nz g)) by (apply (IZR_le 1); assumption).
  assert (Er : radius (leaky_cubic g) = dg_dr g).
  { cbn. replace (dg_dr g * dg_dr g + 0 * 0) with (dg_dr g * dg_dr g) by ring.
    apply sqrt_square. lra. }
  assert (Hi : inside g (leaky_cubic g)).
  { split; [cbn; unfold z_last; nra|]. rewrite Er. unfold r_edge. rewrite Hn. lra. }
  destruct (deposit_3d_lemma g "cubic" ruyten [(leaky_cubic g, 1)] (zeros g) (or_intror eq_refl) Hg Ha)
    as (b & E & _ & _ & P).
  exists b. split; [exact E|]. split; [exact Hi|]. split; [unfold inner_cell; lia|].
  rewrite P. cbn [zeros cell contributions fold_right]. unfold particle; cbn [fst snd].
  destruct (inside_dec g (leaky_cubic g)); [|contradiction].
  assert (Z0 : z_cells g (leaky_cubic g) = 0) by (unfold z_cells; cbn; field; lra).
  assert (R0 : r_cells g (leaky_cubic g) = / 2) by (unfold r_cells; rewrite Er, Em; field; lra).
  unfold spread, kernel_of, is_cubic. cbn [String.eqb Ascii.eqb Bool.eqb].
  unfold cubic_kernel, cubic_shape. cbn [k_z k_r k_iz k_ir]. rewrite Z0, R0.
  assert (C0 : ceil 0 = 0%Z) by (apply ceil_spec; lra).
  assert (C1 : ceil (/ 2) = 1%Z) by (apply ceil_spec; lra). rewrite C0, C1.
  unfold fold_edges. destruct (Rle_dec 0 0); [|lra]. destruct (Rle_dec (/ 2) 0); [lra|].
  destruct (Rle_dec (/ 2) 1); [|lra]. rewrite !at4. cbn [Z.eqb Z.sub Z.opp Z.add Z.pos_sub Pos.pred_double].
  lra.
Qed.

(** ** Moments of the plasma deposit *)
Lemma plasma_moment_lemma g s zc l a b F G v : shape_name s -> dgrid_ok g -> darray g a ->
  (0 <= zc < dg_nz g)%Z -> Forall (fun rw => 0 <= fst rw) l ->
  Forall (fun rw => fst rw <= r_edge g ->
    let K := kernel_of g (is_cubic s) false ((fst rw - dg_rmin g) / dg_dr g) (IZR zc) in
    wsum F (k_iz K) (k_z K) * wsum G (k_ir K) (k_r K) = v (fst rw)) l ->
  deposit_plasma_particles g s zc l a = Ok b ->
  moment (fun i j => F i * G j) b = moment (fun i j => F i * G j) a + plasma_weighted g v l.
Proof.
  intros Hs Hg Ha Hz Hl Hv E. destruct (deposit_plasma_lemma g s zc l a Hs Hg Ha Hz Hl) as (b' & E' & P).
  assert (b' = b) by congruence. subst b'.
  rewrite (moment_plus _ _ _ _ P), contributions_moment. f_equal.
  destruct Ha as [-> ->]. unfold plasma_weighted. clear E E' P. revert Hv.
  induction Hl as [|[r w] l H0 Hl IH]; intros Hv; [reflexivity|].
  apply Forall_cons_iff in Hv as [V Hv]. cbn [fold_right fst snd] in *. rewrite IH by assumption. f_equal.
  unfold plasma_particle; cbn [fst snd]. destruct (Rle_dec r (r_edge g)) as [H|H].
  - pose proof (kernel_fits g (is_cubic s) false _ _ (plasma_cells g zc r Hg Hz (conj H0 H))) as Fi.
    rewrite (spread_moment g _ w F G Fi), <- (V H). ring.
  - apply sum_range_zero. intros. apply sum_range_zero. intros. ring.
Qed.
Lemma plasma_z_moment_lemma g s zc l a b : shape_name s -> dgrid_ok g -> darray g a ->
  (0 <= zc < dg_nz g)%Z -> Forall (fun rw => 0 <= fst rw) l ->
  Forall (fun rw => fst rw <= r_edge g -> plasma_away_z g s zc (fst rw)) l ->
  deposit_plasma_particles g s zc l a = Ok b ->
  moment (fun i _ => row_z g i) b
  = moment (fun i _ => row_z g i) a + plasma_weighted g (fun _ => dg_zmin g + IZR zc * dg_dz g) l.
Proof.
  intros Hs Hg Ha Hz Hl Hv E.
  assert (M : forall a, moment (fun i _ => row_z g i) a = moment (fun i j => row_z g i * (fun _ => 1) j) a).
  { intros. unfold moment. apply sum_range_ext. intros. apply sum_range_ext. intros. ring. }
  rewrite !M. apply (plasma_moment_lemma g s zc l a b); try assumption.
  rewrite Forall_forall in *. intros [r w] I H. cbn [fst] in *. specialize (Hv _ I H). specialize (Hl _ I).
  cbn [fst] in *. pose proof (plasma_cells g zc r Hg Hz (conj Hl H)) as Hc. cbv zeta.
  rewrite wsum_one. rewrite (proj2 (kernel_sum g (is_cubic s) false _ _)).
  rewrite kernel_z_moment; [ring|assumption|].
  unfold plasma_away_z, interior_z in *. destruct Hg as (_ & Hr & Em & _).
  destruct (is_cubic s).
  - split; [apply (IZR_lt 1); lia|]. rewrite <- minus_IZR. apply IZR_le. lia.
  - apply div_le; [assumption|]. rewrite Em. lra.
Qed.
Lemma plasma_r_moment_lemma g s zc l a b : shape_name s -> dgrid_ok g -> darray g a ->
  (0 <= zc < dg_nz g)%Z -> Forall (fun rw => 0 <= fst rw) l ->
  Forall (fun rw => fst rw <= r_edge g -> plasma_away_r g s (fst rw)) l ->
  deposit_plasma_particles g s zc l a = Ok b ->
  moment (fun _ j => col_r g j) b
  = moment (fun _ j => col_r g j) a + plasma_weighted g (fun r => r) l.
Proof.
  intros Hs Hg Ha Hz Hl Hv E.
  assert (M : forall a, moment (fun _ j => col_r g j) a = moment (fun i j => (fun _ => 1) i * col_r g j) a).
  { intros. unfold moment. apply sum_range_ext. intros. apply sum_range_ext. intros. ring. }
  rewrite !M. apply (plasma_moment_lemma g s zc l a b); try assumption.
  rewrite Forall_forall in *. intros [r w] I H. cbn [fst] in *. specialize (Hv _ I H). cbn [fst] in *.
  cbv zeta. rewrite wsum_one. rewrite (proj1 (kernel_sum g (is_cubic s) false _ _)).
  destruct Hg as (_ & Hr & Em & _).
  rewrite kernel_r_moment; [field; lra|].
  unfold plasma_away_r, interior_r, r_edge in *. rewrite Em.
  destruct (is_cubic s); destruct Hv; split; try (apply div_le; lra); try (apply div_ge; lra);
    apply div_gt; lra.
Qed.
