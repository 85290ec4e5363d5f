(** Proofs: the field of bunches inside the plasma. *)
From Coq Require Import Reals ZArith String List Bool Arith Lia Lra Permutation.
From Verif Require Import Model_Push Model_Interp Spec_Interp Proofs_Interp Model_Deposit Spec_Deposit Proofs_Deposit
  Model_Psi Model_BTheta Model_QS Spec_QS Proofs_QS Proofs_QS2 Proofs_QS3.
Import ListNotations.
Open Scope R_scope.

Lemma cumsum_sum (f : Z -> R) n : cumsum (fun k => f (Z.of_nat k)) n = sum_range (Z.of_nat n) f + f (Z.of_nat n).
Proof.
  induction n as [|n IH]; cbn [cumsum].
  - change (Z.of_nat 0) with 0%Z. rewrite sum_range_0. ring.
  - rewrite IH. replace (Z.of_nat (S n)) with (Z.of_nat n + 1)%Z by lia. rewrite sum_range_S by lia. ring.
Qed.
Lemma integral_enclosed rho dr i j : (0 <= j)%Z -> 0 < dr ->
  beam_integral rho dr i j = enclosed rho i j * dr / ((IZR j + / 2) * dr).
Proof.
  intros J D. unfold beam_integral, enclosed, inner. rewrite (cumsum_sum (fun k => cell rho (i + 2) (k + 2))). rewrite Z2Nat.id by lia.
  assert (P : 0 <= IZR j) by (apply IZR_le; lia). replace 0.5 with (/ 2) by lra.
  rewrite (Rplus_comm (/ 2)), Rabs_right by nra. f_equal. f_equal.
  destruct (Z.eqb j 0); lra.
Qed.
Lemma enclosed_plus a b c i j : (forall k, inner c i k = inner a i k + inner b i k) ->
  enclosed c i j = enclosed a i j + enclosed b i j.
Proof. intros H. unfold enclosed. rewrite (sum_range_ext j _ _ (fun k _ => H k)), sum_range_plus, H. ring. Qed.
Lemma enclosed_ext a b i j : (forall k, inner a i k = inner b i k) -> enclosed a i j = enclosed b i j.
Proof. intros H. unfold enclosed. rewrite (sum_range_ext j _ _ (fun k _ => H k)), H. reflexivity. Qed.

Section Beam.
  Variables (skin_depth : R -> R) (charge_e n_p : R) (g : dgrid) (shape : string).
  Hypothesis Hs : shape_name shape.
  Hypothesis Hg : dgrid_ok g.
  Let s := skin_depth (n_p / 1000000).
  Let D (l : list (pos * R)) : arr2 :=
    mka (dg_nz g + 4) (dg_nr g + 4) (contributions (particle g (is_cubic shape) true) (map (normalized s n_p charge_e g) l)).

  Lemma zeros_ok : darray g (zeros g). Proof. split; reflexivity. Qed.
  Lemma source_lemma bunch b : darray g b ->
    exists rho b', deposit_3d_distribution g shape true (map (normalized s n_p charge_e g) bunch) (zeros g) = Returned (Ok rho) /\
      calculate_beam_source skin_depth charge_e n_p g shape bunch b = Returned (Ok b') /\ darray g b' /\
      (forall i j, inner rho i j = inner (D bunch) i j) /\
      (forall i j, in_grid g i j -> inner b' i j = inner b i j + enclosed rho i j * dg_dr g / cell_radius g j) /\
      (forall i j, ~ inner_cell g i j -> cell b' i j = cell b i j).
  Proof.
    intros [B1 B2]. destruct (deposit_3d_lemma g shape true (map (normalized s n_p charge_e g) bunch) (zeros g) Hs Hg zeros_ok) as (rho & E & (P1 & P2 & P3)).
    unfold calculate_beam_source. cbv zeta.
    assert (Em : map (fun pq : pos * R => let '(x, y, xi, q) := pq in
        (x / skin_depth (n_p / 1e6), y / skin_depth (n_p / 1e6), xi / skin_depth (n_p / 1e6),
         q / charge_e / (2 * PI * dg_dr g * dg_dz g * skin_depth (n_p / 1e6) ^ 3 * n_p))) bunch = map (normalized s n_p charge_e g) bunch).
    { apply map_ext. intros [[[x y] xi] q]. unfold normalized, s. replace 1e6 with 1000000 by lra. assert (Q : forall a b, q / a / b = q / (a * b)) by (intros; unfold Rdiv; rewrite Rinv_mult; ring). rewrite Q. reflexivity. }
    assert (Em' : map (fun pq : R * R * R * R => let '(x, y, xi, q) := pq in
        (x / skin_depth (n_p / 1e6), y / skin_depth (n_p / 1e6), xi / skin_depth (n_p / 1e6),
         q / charge_e / (2 * PI * dg_dr g * dg_dz g * skin_depth (n_p / 1e6) ^ 3 * n_p))) bunch = map (normalized s n_p charge_e g) bunch) by exact Em.
    unfold pos in *. rewrite Em'. fold (zeros g). change (zeros2 (dg_nz g) (dg_nr g)) with (zeros g). rewrite E. cbn [cbind].
    eexists rho, _. split; [reflexivity|]. split; [reflexivity|]. split; [split; [exact B1|exact B2]|].
    split. { intros i j. unfold inner, D; cbn [cell]. rewrite P3. cbn [zeros cell]. unfold pos. lra. }
    destruct Hg as (_ & Hr & _).
    split.
    - intros i j [I J]. unfold inner at 1, plus2d; cbn [cell]. unfold inner_part; cbn [cell].
      replace (Z.leb 2 (i + 2)) with true by (symmetry; apply Z.leb_le; lia).
      replace (Z.ltb (i + 2) (dg_nz g + 2)) with true by (symmetry; apply Z.ltb_lt; lia).
      replace (Z.leb 2 (j + 2)) with true by (symmetry; apply Z.leb_le; lia).
      replace (Z.ltb (j + 2) (dg_nr g + 2)) with true by (symmetry; apply Z.ltb_lt; lia). cbn [andb].
      replace (i + 2 - 2)%Z with i by lia. replace (j + 2 - 2)%Z with j by lia.
      rewrite integral_enclosed by (assumption || lia). reflexivity.
    - intros i j N. unfold plus2d; cbn [cell]. unfold inner_part; cbn [cell]. unfold inner_cell in N.
      destruct (Z.leb_spec 2 i), (Z.ltb_spec i (dg_nz g + 2)), (Z.leb_spec 2 j), (Z.ltb_spec j (dg_nr g + 2)); cbn [andb]; try lra. lia.
  Qed.
  Lemma D_app l l' i j : inner (D (l ++ l')) i j = inner (D l) i j + inner (D l') i j.
  Proof. unfold inner, D; cbn [cell]. rewrite map_app. apply contributions_app. Qed.
  Lemma D_perm l l' i j : Permutation l l' -> inner (D l) i j = inner (D l') i j.
  Proof. intros P. unfold inner, D; cbn [cell]. apply contributions_perm. apply Permutation_map. exact P. Qed.
  (** All bunches. *)
  Lemma sources_lemma : forall bunches b, darray g b ->
    exists b', beam_sources skin_depth charge_e n_p g shape bunches b = Returned (Ok b') /\ darray g b' /\
      (forall i j, in_grid g i j -> inner b' i j = inner b i j + enclosed (D (concat bunches)) i j * dg_dr g / cell_radius g j) /\
      (forall i j, ~ inner_cell g i j -> cell b' i j = cell b i j).
  Proof.
    induction bunches as [|l bs IH]; intros b B.
    - exists b. split; [reflexivity|]. split; [exact B|]. split; [|auto]. intros i j _.
      assert (Z : enclosed (D (concat [])) i j = 0).
      { unfold enclosed. rewrite sum_range_zero by (intros; reflexivity). unfold inner, D; cbn. ring. }
      rewrite Z. unfold Rdiv. ring.
    - cbn [beam_sources]. destruct (source_lemma l b B) as (rho & b1 & _ & -> & B1 & Er & V1 & G1). cbn [cbind].
      destruct (IH b1 B1) as (b2 & -> & B2 & V2 & G2). exists b2. split; [reflexivity|]. split; [exact B2|]. split.
      + intros i j I. rewrite V2, V1 by exact I. cbn [concat].
        rewrite (enclosed_plus (D l) (D (concat bs)) (D (l ++ concat bs)) i j) by (intros; apply D_app).
        rewrite (enclosed_ext rho (D l)) by (intros; apply Er). unfold Rdiv. ring.
      + intros i j N. rewrite G2, G1 by exact N. reflexivity.
  Qed.
  Lemma sources_same bunches bunches' b b1 b2 : darray g b ->
    (forall i j, in_grid g i j -> enclosed (D (concat bunches)) i j = enclosed (D (concat bunches')) i j) ->
    beam_sources skin_depth charge_e n_p g shape bunches b = Returned (Ok b1) ->
    beam_sources skin_depth charge_e n_p g shape bunches' b = Returned (Ok b2) -> same_array b1 b2.
  Proof.
    intros B H E1 E2. destruct (sources_lemma bunches b B) as (c1 & F1 & (A1 & A2) & V1 & G1).
    destruct (sources_lemma bunches' b B) as (c2 & F2 & (A3 & A4) & V2 & G2).
    rewrite E1 in F1. injection F1 as <-. rewrite E2 in F2. injection F2 as <-.
    split; [congruence|]. split; [congruence|]. intros i j.
    assert (Q : inner_cell g i j \/ ~ inner_cell g i j) by (unfold inner_cell; lia). destruct Q as [Q|Q].
    - assert (Q' : in_grid g (i - 2) (j - 2)) by (unfold in_grid; unfold inner_cell in Q; lia).
      specialize (V1 _ _ Q'). specialize (V2 _ _ Q'). rewrite H in V1 by exact Q'. rewrite <- V2 in V1. unfold inner in V1.
      replace (i - 2 + 2)%Z with i in V1 by lia. replace (j - 2 + 2)%Z with j in V1 by lia. exact V1.
    - rewrite G1, G2 by exact Q. reflexivity.
  Qed.
  Lemma order_of_bunches bunches bunches' b b1 b2 : darray g b -> Permutation (concat bunches) (concat bunches') ->
    beam_sources skin_depth charge_e n_p g shape bunches b = Returned (Ok b1) ->
    beam_sources skin_depth charge_e n_p g shape bunches' b = Returned (Ok b2) -> same_array b1 b2.
  Proof.
    intros B P. apply sources_same; [exact B|]. intros i j _. apply enclosed_ext. intros k. apply D_perm. exact P.
  Qed.
  Lemma rotated_same l l' : List.Forall2 rotated l l' -> forall i j, inner (D l) i j = inner (D l') i j.
  Proof.
    intros F i j. unfold inner, D; cbn [cell]. induction F as [|[[[x y] z] q] [[[x' y'] z'] q'] l l' (R1 & R2 & R3) F IH]; [reflexivity|].
    cbn [map contributions fold_right] in *. f_equal; [|exact IH]. cbn [fst snd radius lon] in *. subst z' q'.
    unfold normalized, particle, r_cells, z_cells; cbn [fst snd].
    assert (E : forall a b, radius (a / s, b / s, z / s) = sqrt (a * a + b * b) * Rabs (/ s)).
    { intros a b. unfold radius. replace (a / s * (a / s) + b / s * (b / s)) with ((a * a + b * b) * (/ s) ^ 2) by (unfold Rdiv; ring).
      rewrite sqrt_mult_alt by nra. f_equal. rewrite <- Rsqr_pow2. apply sqrt_Rsqr_abs. }
    assert (Q : inside g (x / s, y / s, z / s) <-> inside g (x' / s, y' / s, z / s)).
    { unfold inside. rewrite !E, R1. tauto. }
    rewrite !E, R1. destruct (inside_dec g (x / s, y / s, z / s)), (inside_dec g (x' / s, y' / s, z / s)); tauto || reflexivity.
  Qed.
  Lemma rotated_concat bunches bunches' b b1 b2 : darray g b -> List.Forall2 rotated (concat bunches) (concat bunches') ->
    beam_sources skin_depth charge_e n_p g shape bunches b = Returned (Ok b1) ->
    beam_sources skin_depth charge_e n_p g shape bunches' b = Returned (Ok b2) -> same_array b1 b2.
  Proof.
    intros B P. apply sources_same; [exact B|]. intros i j _. apply enclosed_ext. intros k. apply rotated_same. exact P.
  Qed.
  Lemma D_scale c l i j : inner (D (map (times_charge c) l)) i j = c * inner (D l) i j.
  Proof.
    unfold inner, D; cbn [cell]. rewrite <- contributions_scal. f_equal. rewrite !map_map. apply map_ext.
    intros [[[x y] xi] q]. unfold times_charge, normalized; cbn [fst snd]. f_equal. unfold Rdiv. ring.
  Qed.
  Lemma scale_bunches c bunches b b1 b2 : darray g b ->
    beam_sources skin_depth charge_e n_p g shape bunches b = Returned (Ok b1) ->
    beam_sources skin_depth charge_e n_p g shape (map (map (times_charge c)) bunches) b = Returned (Ok b2) ->
    forall i j, cell b2 i j - cell b i j = c * (cell b1 i j - cell b i j).
  Proof.
    intros B E1 E2 i j. destruct (sources_lemma bunches b B) as (c1 & F1 & _ & V1 & G1).
    destruct (sources_lemma (map (map (times_charge c)) bunches) b B) as (c2 & F2 & _ & V2 & G2).
    rewrite E1 in F1. injection F1 as <-. rewrite E2 in F2. injection F2 as <-.
    assert (Q : inner_cell g i j \/ ~ inner_cell g i j) by (unfold inner_cell; lia). destruct Q as [Q|Q].
    - assert (Q' : in_grid g (i - 2) (j - 2)) by (unfold in_grid; unfold inner_cell in Q; lia).
      specialize (V1 _ _ Q'). specialize (V2 _ _ Q'). unfold inner in V1 at 1 2. unfold inner in V2 at 1 2.
      replace (i - 2 + 2)%Z with i in * by lia. replace (j - 2 + 2)%Z with j in * by lia. rewrite V1, V2.
      assert (Es : enclosed (D (concat (map (map (times_charge c)) bunches))) (i - 2) (j - 2) = c * enclosed (D (concat bunches)) (i - 2) (j - 2)).
      { rewrite <- concat_map. unfold enclosed. rewrite (sum_range_ext _ _ _ (fun k _ => D_scale c (concat bunches) (i - 2) k)), sum_range_scal, D_scale. ring. }
      rewrite Es. unfold Rdiv. ring.
    - rewrite G1, G2 by exact Q. ring.
  Qed.
  (** Only particles ahead matter. *)
  Lemma particle_behind p w m i j : z_cells g p <= IZR m - 2 -> (m + 2 <= i)%Z -> particle g (is_cubic shape) true (p, w) i j = 0.
  Proof.
    intros Z I. unfold particle; cbn [fst snd]. destruct (inside_dec g p); [|reflexivity]. apply spread_above.
    assert (C : (ceil (z_cells g p) <= m - 2)%Z) by (apply ceil_le; rewrite minus_IZR; exact Z). destruct (is_cubic shape); lia.
  Qed.
  Lemma D_filter m xi l i j : 0 < s -> xi / s <= dg_zmin g + (IZR m - 2) * dg_dz g -> (m <= i)%Z ->
    inner (D l) i j = inner (D (filter (ahead xi) l)) i j.
  Proof.
    intros S X I. unfold inner, D; cbn [cell]. induction l as [|pq l IH]; [reflexivity|]. cbn [filter]. unfold ahead at 1.
    destruct (Rle_dec (lon (fst pq)) xi) as [L|L].
    - cbn [map contributions fold_right]. unfold contributions in IH at 1. rewrite IH.
      destruct pq as [[[x y] z] q]. unfold normalized at 1. rewrite (particle_behind _ _ m); [ring| |lia].
      destruct Hg as (Hz & _). unfold z_cells, lon in *; cbn [snd fst] in *.
      apply Rmult_le_reg_r with (dg_dz g); [exact Hz|]. unfold Rdiv at 1. rewrite Rmult_assoc, Rinv_l, Rmult_1_r by lra.
      assert (z / s <= xi / s). { unfold Rdiv. apply Rmult_le_compat_r; [|exact L]. left. apply Rinv_0_lt_compat. exact S. }
      lra.
    - cbn [map contributions fold_right]. unfold contributions in IH. rewrite IH. reflexivity.
  Qed.
  Lemma bunches_ahead m xi bunches bunches' b b1 b2 : darray g b -> 0 < s -> xi / s <= dg_zmin g + (IZR m - 2) * dg_dz g ->
    List.Forall2 (fun l l' => filter (ahead xi) l = filter (ahead xi) l') bunches bunches' ->
    beam_sources skin_depth charge_e n_p g shape bunches b = Returned (Ok b1) ->
    beam_sources skin_depth charge_e n_p g shape bunches' b = Returned (Ok b2) ->
    forall i j, (m <= i)%Z -> in_grid g i j -> inner b1 i j = inner b2 i j.
  Proof.
    intros B S X F E1 E2 i j I J. destruct (sources_lemma bunches b B) as (c1 & F1 & _ & V1 & G1).
    destruct (sources_lemma bunches' b B) as (c2 & F2 & _ & V2 & G2).
    rewrite E1 in F1. injection F1 as <-. rewrite E2 in F2. injection F2 as <-.
    rewrite V1, V2 by exact J. f_equal. f_equal. f_equal. apply enclosed_ext. intros k.
    rewrite (D_filter m xi (concat bunches)), (D_filter m xi (concat bunches')) by assumption.
    assert (Q : filter (ahead xi) (concat bunches) = filter (ahead xi) (concat bunches')).
    { clear - F. induction F as [|l l' bs bs' H F IH]; [reflexivity|]. cbn [concat]. rewrite !filter_app, H, IH. reflexivity. }
    rewrite Q. reflexivity.
  Qed.
  (** Outside of the charge. *)
  Lemma D_beyond j l : (forall p w, In (p, w) (map (normalized s n_p charge_e g) l) -> radius p + 2 * dg_dr g <= cell_radius g j) ->
    forall i k, (j <= k)%Z -> inner (D l) i k = 0.
  Proof.
    intros H i k K. unfold inner, D; cbn [cell]. apply contributions_zero. apply Forall_forall. intros [p w] I.
    unfold particle; cbn [fst snd]. destruct (inside_dec g p); [|reflexivity]. unfold spread.
    specialize (H p w I). unfold cell_radius in H. destruct Hg as (_ & Hr & Em & _).
    assert (C : (ceil (r_cells g p) <= j - 2)%Z).
    { apply ceil_le. rewrite minus_IZR. unfold r_cells. rewrite Em.
      apply Rmult_le_reg_r with (dg_dr g); [exact Hr|]. unfold Rdiv at 1. rewrite Rmult_assoc, Rinv_l, Rmult_1_r by lra. lra. }
    unfold kernel_of. destruct (is_cubic shape).
    - unfold cubic_kernel. cbn [cubic_shape k_z k_iz k_r k_ir]. rewrite (at_outside _ (k + 2 - ceil (r_cells g p))); [ring|].
      rewrite fold_edges_length. lia.
    - unfold linear_kernel. cbn [k_z k_iz k_r k_ir]. rewrite (at_outside _ (k + 2 - (ceil (r_cells g p) + 1))); [ring|]. cbn [length]. lia.
  Qed.
End Beam.
