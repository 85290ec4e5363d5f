(** C46: magnetic field of the plasma electrons. *)
From Coq Require Import Reals Lra ZArith Lia List Bool Arith Permutation.
From Coquelicot Require Import Coquelicot.
From Verif Require Import Model_Push Model_Interp Model_Psi Spec_Psi Proofs_Psi Model_BTheta Spec_BTheta Proofs_BTheta Proofs_BTheta2 Proofs_BTheta3 Proofs_BTheta4.
Import ListNotations.
Open Scope R_scope.

(** The field on the grid and at the particles is that of a solution of the field equations:
    values on the grid, and on the chord between the middle points to the neighbours, bounded by
    3, at the particles. *)
Theorem C46_field : forall p idx f, orders idx (e_r p) -> regular p -> e_r p <> [] ->
  exists field w, solves p field w /\ field 0 = 0 /\
    (forall r_fld b_theta k, (forall x, In x r_fld -> 0 < x) ->
       (forall a b, (a < b < length r_fld)%nat -> nth a r_fld 0 <= nth b r_fld 0) ->
       exists out, calculate_b_theta exact (2 + f) r_fld p idx b_theta k = Some out /\
         (forall j, (0 <= j < Z.of_nat (length r_fld))%Z ->
            cell out (k + 2) (2 + j) = field (nth (Z.to_nat j) r_fld 0)) /\
         (forall i j, (i <> k + 2 \/ j < 2 \/ 2 + Z.of_nat (length r_fld) <= j)%Z ->
            cell out i j = cell b_theta i j)) /\
    (forall dr_p, 0 < dr_p ->
       exists v, b_theta_at_particles exact (2 + f) p idx dr_p = Some v /\ length v = length (e_r p) /\
         forall k, (k < length (e_r p))%nat -> nth (nth k idx 0%nat) v 0 =
           bounded 3 (chord field (mid_left idx (e_r p) k) (mid_right (dr_p / 2) idx (e_r p) k)
                        (nth (nth k idx 0%nat) (e_r p) 0))).
Proof.
  intros p idx f ORD REG NE.
  exists (fieldA p idx (shoot (chain p idx))), (curlA p idx (shoot (chain p idx))).
  split; [apply exists_solution; auto|]. split; [apply fieldA_zero; auto|]. split.
  - intros r_fld b_theta k PF SF. apply grid_field; auto.
  - intros dr_p DP. apply particle_field; auto.
Qed.
Print Assumptions C46_field.
(** The field equations have one solution only. *)
Theorem C46_unique : forall p field w field' w', regular p -> solves p field w -> solves p field' w' ->
  forall x, 0 < x -> ~ In x (e_r p) -> field x = field' x /\ w x = w' x.
Proof.
  intros p field w field' w' REG S S' x X N.
  destruct (sort_exists (e_r p)) as (idx & ORD).
  destruct (unique_solution p idx ORD REG field w S x X N) as [-> ->].
  destruct (unique_solution p idx ORD REG field' w' S' x X N) as [-> ->]. auto.
Qed.
Print Assumptions C46_unique.
(** Without any motion or driver there is no field. *)
Theorem C46_quiet : forall p field w, regular p -> quiet p -> solves p field w ->
  forall x, 0 < x -> ~ In x (e_r p) -> field x = 0.
Proof.
  intros p field w REG Q S x X N. apply (C46_unique p field w (fun _ => 0) (fun _ => 0)); auto. apply zero_solves; auto.
Qed.
(** The loop that repeats the calculation when precision is lost ends after at most as many passes
    as there are particles, however numbers are rounded. *)
Theorem C46_terminates : forall rnd p idx, length idx = length (e_r p) ->
  exists a b a_0, length a = length (e_r p) /\ length b = length (e_r p) /\
  forall fuel, (length (e_r p) <= fuel)%nat -> ai_bi_from_axis rnd fuel p idx = Some (a, b, a_0).
Proof. exact axis_terminates. Qed.
Theorem C46_edge_terminates : forall rnd p idx, length idx = length (e_r p) ->
  exists res, forall fuel, (length (e_r p) <= fuel)%nat -> ai_bi_from_edge rnd fuel p idx = Some res.
Proof. exact edge_ends. Qed.
(** The recursion from the edge gives the same coefficients as that from the axis. *)
Theorem C46_edge : forall p idx f, orders idx (e_r p) -> regular p ->
  ai_bi_from_edge exact (2 + f) p idx = ai_bi_from_axis exact (2 + f) p idx.
Proof. intros p idx f ORD REG. apply edge_is_axis; auto. Qed.
Print Assumptions C46_edge.
(** The field at the particles never exceeds 3, with any rounding. *)
Theorem C46_bounded : forall rnd fuel p idx dr_p v, b_theta_at_particles rnd fuel p idx dr_p = Some v ->
  forall x, In x v -> -3 <= x <= 3.
Proof. exact particle_bound. Qed.
Print Assumptions C46_bounded.

(** In each pass the values T + d K and P + d U are accepted up to the first one that loses
    precision, except the first and the last one ([tp], [ku]: pairs of T, P and of K, U). *)
Theorem C46_precision : forall rnd d tp ku k, length tp = length ku -> (k < length tp)%nat ->
  ((k < length (accept rnd d true tp ku))%nat <->
   forall j, (0 < j <= k)%nat -> S j <> length tp ->
     no_cancellation (fst (nth j tp (0, 0))) (rnd (fst (nth j ku (0, 0)) * d)) /\
     no_cancellation (snd (nth j tp (0, 0))) (rnd (snd (nth j ku (0, 0)) * d))).
Proof.
  intros rnd d tp ku k L K. rewrite accept_kept by auto. unfold kept. split; intros H j J.
  - intros N. destruct (H j ltac:(lia)) as [[_ A]|[A|A]]; auto; lia.
  - destruct j as [|j]; [auto|]. destruct (Nat.eq_dec (S (S j)) (length tp)); auto. right. right. apply H; lia.
Qed.
Theorem C46_edge_precision : forall rnd d tp ku k, length tp = length ku -> (k < length tp)%nat ->
  ((k < length (edge_accept rnd d true tp ku))%nat <->
   forall j, (0 < j <= k)%nat ->
     no_cancellation (fst (nth j tp (0, 0))) (rnd (fst (nth j ku (0, 0)) * d)) /\
     no_cancellation (snd (nth j tp (0, 0))) (rnd (snd (nth j ku (0, 0)) * d))).
Proof.
  intros rnd d tp ku k L K. rewrite edge_accept_kept by auto. unfold kept. split; intros H j J.
  - destruct (H j ltac:(lia)) as [[_ A]|A]; auto; lia.
  - destruct j as [|j]; [auto|]. right. apply H; lia.
Qed.
Print Assumptions C46_precision.

(** One electron at rest in the field of a beam. *)
Definition one : plasma := mkpl [1] [0] [1] [1] [0] [0] [0] [1] [0].
Example C46_example : regular one /\ orders [0%nat] (e_r one) /\
  ai_bi_from_axis exact 2 one [0%nat] = Some ([0], [- / 3], - / 3).
Proof.
  split; [|split].
  - split; simpl.
    + repeat constructor.
    + intros x [<-|[]]; lra.
    + repeat constructor. intros [].
    + intros x [<-|[]]; lra.
    + intros x [<-|[]]; lra.
  - split; [apply Permutation_refl|]. simpl. intros; lia.
  - unfold ai_bi_from_axis, exact. cbn. repeat f_equal; lra.
Qed.
