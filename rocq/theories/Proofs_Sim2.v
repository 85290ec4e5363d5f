(** The solvers see of a bunch only how its charge is distributed over r and xi. *)
From Coq Require Import Reals ZArith String List Bool Lia Lra FunctionalExtensionality.
From Coquelicot Require Import Coquelicot.
From Verif Require Import Model_Push Model_Interp Model_Deposit Model_QS Model_Fluid Model_RZ Model_Sim.
Import ListNotations.
Open Scope R_scope.

(** Operations on an array that add a fixed pattern, times a weight. *)
Definition lin (P : R -> arr2 -> result arr2) : Prop :=
  exists (ok : Z -> Z -> bool) (S : Z -> Z -> Z -> Z -> R), forall w a,
    P w a = if ok (rows a) (cols a)
            then Ok (mka (rows a) (cols a) (fun k l => cell a k l + w * S (rows a) (cols a) k l))
            else Fault OutOfBounds.
Lemma arr2_eta a : mka (rows a) (cols a) (cell a) = a.
Proof. destruct a; reflexivity. Qed.
Lemma lin_id : lin (fun _ a => Ok a).
Proof.
  exists (fun _ _ => true), (fun _ _ _ _ => 0). intros w a. rewrite <- (arr2_eta a) at 1. f_equal. f_equal.
  extensionality k. extensionality l. cbn. ring.
Qed.
Lemma lin_fault : lin (fun _ _ => Fault OutOfBounds).
Proof. exists (fun _ _ => false), (fun _ _ _ _ => 0). reflexivity. Qed.
Lemma lin_bind P Q : lin P -> lin Q -> lin (fun w a => do a' <- P w a; Q w a').
Proof.
  intros (o1 & S1 & H1) (o2 & S2 & H2).
  exists (fun r c => andb (o1 r c) (o2 r c)), (fun r c k l => S1 r c k l + S2 r c k l). intros w a.
  rewrite H1. destruct (o1 (rows a) (cols a)); [|reflexivity]. cbn [bind andb]. rewrite H2. cbn [rows cols cell].
  destruct (o2 (rows a) (cols a)); [|reflexivity]. f_equal. f_equal.
  extensionality k. extensionality l. ring.
Qed.
Lemma lin_ext P Q : (forall w a, P w a = Q w a) -> lin P -> lin Q.
Proof. intros E (o & S & H). exists o, S. intros w a. rewrite <- E. apply H. Qed.
Lemma lin_add2 i j v : lin (fun w a => add2 a i j (v * w)).
Proof.
  exists (fun r c => andb (in_range r (wrap r i)) (in_range c (wrap c j))),
    (fun r c k l => if andb (Z.eqb k (wrap r i)) (Z.eqb l (wrap c j)) then v else 0). intros w a.
  unfold add2. destruct (andb _ _); [|reflexivity]. f_equal. f_equal.
  extensionality k. extensionality l. destruct (andb _ _); ring.
Qed.
Lemma lin_foldM {A} (f : A -> R -> arr2 -> result arr2) l : (forall u, lin (f u)) ->
  lin (fun w a => foldM (fun a u => f u w a) l a).
Proof.
  intros H. induction l as [|u l IH]; cbn [foldM]; [apply lin_id|].
  apply (lin_bind (f u) (fun w a => foldM (fun a u => f u w a) l a)); [apply H|exact IH].
Qed.
Lemma lin_row ir rs ik zk : lin (fun w a => add_row ir rs w a ik zk).
Proof.
  unfold add_row. apply (lin_foldM (fun lr w a => add2 a ik (ir + Z.of_nat (fst lr)) (zk * snd lr * w))).
  intros u. apply lin_add2.
Qed.
Lemma lin_block iz ir zs rs : lin (fun w a => add_block iz ir zs rs w a).
Proof.
  unfold add_block. apply (lin_foldM (fun kz w a => add_row ir rs w a (iz + Z.of_nat (fst kz)) (snd kz))).
  intros u. apply lin_row.
Qed.
Lemma read_coef_fault g c n f : read_coef g c n = Fault f -> f = OutOfBounds.
Proof. unfold read_coef. cbv zeta. destruct (in_range _ _); congruence. Qed.
Lemma lin_linear g ry rc zc : lin (deposit_linear1 g ry rc zc).
Proof.
  eapply lin_ext; [intros; reflexivity|]. unfold deposit_linear1. cbv zeta.
  destruct (if ry then _ else _) as [v|f] eqn:E; cbn [bind].
  - apply (lin_block (ceil zc + 1)%Z).
  - destruct ry; [|discriminate]. rewrite (read_coef_fault _ _ _ _ E). apply lin_fault.
Qed.
Lemma lin_cubic g ry rc zc : lin (deposit_cubic1 g ry rc zc).
Proof.
  unfold deposit_cubic1. cbv zeta. unfold cubic_shape at 1. cbv zeta.
  destruct (if ry then _ else _) as [v|f] eqn:E; cbn [bind].
  - apply (lin_block (ceil zc)).
  - destruct ry; [|discriminate]. rewrite (read_coef_fault _ _ _ _ E). apply lin_fault.
Qed.

(** What one particle does. *)
Definition at_point (body : R -> R -> R -> arr2 -> result arr2) (g : dgrid) (r2 z w : R) (a : arr2) : result arr2 :=
  if Rle_dec (dg_zmin g) z then
    if Rle_dec z (dg_zmin g + (IZR (dg_nz g) - 1) * dg_dz g) then
      if Rle_dec (sqrt r2) (IZR (dg_nr g) * dg_dr g) then
        body ((sqrt r2 - dg_rmin g) / dg_dr g) ((z - dg_zmin g) / dg_dz g) w a
      else Ok a
    else Ok a
  else Ok a.
Definition key (pw : pos * R) : R * R := let '((x, y, z), _) := pw in (x ^ 2 + y ^ 2, z).
Lemma loop_points body g l a : deposit_loop body g l a =
  foldM (fun a pw => at_point body g (fst (key pw)) (snd (key pw)) (snd pw) a) l a.
Proof.
  unfold deposit_loop. cbv zeta. revert a. induction l as [|[[[x0 y0] z0] w] l IH]; intros a; [reflexivity|].
  cbn [foldM key fst snd]. unfold at_point at 1. unfold bind.
  destruct (Rle_dec _ _); [|apply IH]. destruct (Rle_dec _ _); [|apply IH].
  destruct (Rle_dec _ _); [|apply IH]. destruct (body _ _ _ _); [apply IH|reflexivity].
Qed.
Lemma lin_point body g r2 z : (forall rc zc, lin (body rc zc)) -> lin (at_point body g r2 z).
Proof.
  intros H. unfold at_point. destruct (Rle_dec _ _); [|apply lin_id]. destruct (Rle_dec _ _); [|apply lin_id].
  destruct (Rle_dec _ _); [apply H|apply lin_id].
Qed.

(** The same charge on the same circles. *)
Definition qsum (l : charges) (g : R -> R -> R) : R :=
  fold_right Rplus 0 (map (fun pw => snd pw * g (fst (key pw)) (snd (key pw))) l).
Definition alike (l l' : charges) : Prop :=
  (forall k, In k (map key l) <-> In k (map key l')) /\ (forall g, qsum l g = qsum l' g).

(** Pattern, and whether it fits, read off an array of zeros. *)
Definition unit_on (P : R -> arr2 -> result arr2) (r c : Z) : result arr2 := P 1 (mka r c (fun _ _ => 0)).
Definition fine (P : R -> arr2 -> result arr2) (r c : Z) : bool :=
  match unit_on P r c with Ok _ => true | Fault _ => false end.
Definition pattern (P : R -> arr2 -> result arr2) (r c k l : Z) : R :=
  match unit_on P r c with Ok b => cell b k l | Fault _ => 0 end.
Lemma lin_canonical P : lin P -> forall w a,
  P w a = if fine P (rows a) (cols a)
          then Ok (mka (rows a) (cols a) (fun k l => cell a k l + w * pattern P (rows a) (cols a) k l))
          else Fault OutOfBounds.
Proof.
  intros (ok & S & H) w a. unfold fine, pattern, unit_on. rewrite !H. cbn [rows cols cell].
  destruct (ok (rows a) (cols a)); [|reflexivity]. f_equal. f_equal.
  extensionality k. extensionality l. cbn [cell]. ring.
Qed.
Lemma foldM_points body g l a : (forall rc zc, lin (body rc zc)) -> forall (ok : R -> R -> Z -> Z -> bool)
    (S : R -> R -> Z -> Z -> Z -> Z -> R),
  (forall r2 z w a, at_point body g r2 z w a =
     if ok r2 z (rows a) (cols a)
     then Ok (mka (rows a) (cols a) (fun k l => cell a k l + w * S r2 z (rows a) (cols a) k l))
     else Fault OutOfBounds) ->
  deposit_loop body g l a =
  if forallb (fun k : R * R => ok (fst k) (snd k) (rows a) (cols a)) (map key l)
  then Ok (mka (rows a) (cols a) (fun k j => cell a k j + qsum l (fun r2 z => S r2 z (rows a) (cols a) k j)))
  else Fault OutOfBounds.
Proof.
  intros Hb ok S H. rewrite loop_points. revert a.
  induction l as [|pw l IH]; intros a; cbn [foldM map forallb].
  - f_equal. rewrite <- (arr2_eta a) at 1. f_equal. extensionality k. extensionality j. cbn. ring.
  - rewrite H. destruct (ok _ _ _ _); [|reflexivity]. cbn [bind andb]. rewrite IH. cbn [rows cols cell].
    destruct (forallb _ _); [|reflexivity]. f_equal. f_equal.
    extensionality k. extensionality j. unfold qsum. cbn [map fold_right]. ring.
Qed.
Lemma forallb_same {A} (f : A -> bool) l l' : (forall k, In k l <-> In k l') -> forallb f l = forallb f l'.
Proof.
  intros H. apply eq_true_iff_eq. rewrite !forallb_forall. split; intros E k Hk; apply E, H, Hk.
Qed.
Lemma deposit_alike g s ry l l' a : alike l l' ->
  deposit_3d_distribution g s ry l a = deposit_3d_distribution g s ry l' a.
Proof.
  intros [A1 A2].
  assert (G : forall body, (forall rc zc, lin (body rc zc)) -> deposit_loop body g l a = deposit_loop body g l' a).
  { intros body Hb.
    assert (H0 : forall r2 z w a, at_point body g r2 z w a =
       if fine (at_point body g r2 z) (rows a) (cols a)
       then Ok (mka (rows a) (cols a) (fun k l => cell a k l + w * pattern (at_point body g r2 z) (rows a) (cols a) k l))
       else Fault OutOfBounds) by (intros r2 z w a0; apply lin_canonical, lin_point, Hb).
    pose (o := fun r2 z => fine (at_point body g r2 z)). pose (S0 := fun r2 z => pattern (at_point body g r2 z)).
    rewrite (foldM_points body g l a Hb o S0 H0), (foldM_points body g l' a Hb o S0 H0).
    rewrite (forallb_same _ _ _ A1). destruct (forallb _ _); [|reflexivity]. f_equal. f_equal.
    extensionality k. extensionality j. rewrite A2. reflexivity. }
  unfold deposit_3d_distribution.
  destruct (String.eqb s "linear"); [f_equal; apply G; intros; apply lin_linear|].
  destruct (String.eqb s "cubic"); [f_equal; apply G; intros; apply lin_cubic|reflexivity].
Qed.
(** Rescaled coordinates and charges. *)
Lemma alike_map (f : pos * R -> pos * R) (F : R * R -> R * R) c l l' :
  (forall pw, key (f pw) = F (key pw)) -> (forall pw, snd (f pw) = c * snd pw) ->
  alike l l' -> alike (map f l) (map f l').
Proof.
  intros Hk Hw [A1 A2]. split.
  - intros k. rewrite !map_map. rewrite !(map_ext _ _ Hk), <- !(map_map key F), !in_map_iff.
    split; intros (u & Hu & Hi); exists u; (split; [exact Hu|]); apply A1; exact Hi.
  - intros g.
    assert (E : forall l, qsum (map f l) g = qsum l (fun r z => c * g (fst (F (r, z))) (snd (F (r, z))))).
    { clear - Hk Hw. intros l. unfold qsum. rewrite map_map. f_equal. apply map_ext. intros pw.
      rewrite Hk, Hw. destruct (key pw) as [r2 z]. cbn. ring. }
    rewrite !E. apply A2.
Qed.

Section Solvers.
  Variables (argsort : list R -> list nat) (skin_depth wave_breaking : R -> R) (charge_e light : R).
  Lemma beam_source_alike n_p g s l l' b : alike l l' ->
    calculate_beam_source skin_depth charge_e n_p g s l b = calculate_beam_source skin_depth charge_e n_p g s l' b.
  Proof.
    intros H. unfold calculate_beam_source. cbv zeta. f_equal. apply deposit_alike.
    set (k := skin_depth (n_p / 1e6)).
    apply (alike_map _ (fun u => (fst u * / k ^ 2, snd u / k))
      (/ charge_e * / (2 * PI * dg_dr g * dg_dz g * k ^ 3 * n_p)) l l'); [| |exact H].
    - intros [[[x0 y0] z0] q]. cbn [key fst snd]. unfold Rdiv. rewrite !Rpow_mult_distr, <- Rmult_plus_distr_r.
      rewrite pow_inv. reflexivity.
    - intros [[[x0 y0] z0] q]. cbn [snd]. unfold Rdiv. ring.
  Qed.
  Lemma beam_sources_alike n_p g s l l' : Forall2 alike l l' -> forall b,
    beam_sources skin_depth charge_e n_p g s l b = beam_sources skin_depth charge_e n_p g s l' b.
  Proof.
    induction 1 as [|u u' l l' Hu Hl IH]; intros b; [reflexivity|]. cbn [beam_sources].
    rewrite (beam_source_alike n_p g s u u' b Hu).
    destruct (calculate_beam_source _ _ _ _ _ _ _) as [[v|f]|]; cbn [cbind]; auto.
  Qed.
  Lemma deposit_bunches_alike W l l' : Forall2 alike l l' -> forall a,
    deposit_bunches skin_depth charge_e W l a = deposit_bunches skin_depth charge_e W l' a.
  Proof.
    induction 1 as [|u u' l l' Hu Hl IH]; intros a; [reflexivity|]. cbn [deposit_bunches].
    rewrite (deposit_alike _ _ _ (map (in_plasma_units skin_depth charge_e W) u)
                                 (map (in_plasma_units skin_depth charge_e W) u')).
    - destruct (deposit_3d_distribution _ _ _ _ _) as [[v|f]|]; cbn [cbind]; auto.
    - set (k := p_sd skin_depth W).
      apply (alike_map _ (fun v => (fst v * / k ^ 2, snd v / k)) (/ charge_e) u u'); [| |exact Hu].
      + intros [[[x0 y0] z0] q]. cbn [in_plasma_units key fst snd]. fold k. unfold Rdiv.
        rewrite !Rpow_mult_distr, <- Rmult_plus_distr_r, pow_inv. reflexivity.
      + intros [[[x0 y0] z0] q]. cbn. unfold Rdiv. ring.
  Qed.
  Lemma solve_alike pl x n z li l l' : Forall2 alike l l' ->
    solve_of charge_e light argsort skin_depth wave_breaking pl x n z li l =
    solve_of charge_e light argsort skin_depth wave_breaking pl x n z li l'.
  Proof.
    intros H. destruct pl as [s beam|q]; cbn [solve_of].
    - unfold fluid_solve. destruct (match li with Some (a, _) => fits x a | None => true end); [|reflexivity].
      unfold fluid_wakefield. rewrite (deposit_bunches_alike _ l l' H). reflexivity.
    - unfold qs_solve. destruct (match li with Some (a, _) => fits x a | None => true end); [|reflexivity].
      unfold calculate_wakefields. cbv zeta. rewrite (beam_sources_alike _ _ _ l l' H). reflexivity.
  Qed.
End Solvers.
