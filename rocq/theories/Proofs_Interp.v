(** Lemmas about the interpolation of gridded fields. *)
From Coq Require Import Reals ZArith List Lra Lia Psatz.
From Verif Require Import Model_Push Spec_Push Proofs_Push Model_Interp Spec_Interp.
Import ListNotations.
Open Scope R_scope.

Lemma int_part_spec u i : IZR i <= u -> u < IZR i + 1 -> Int_part u = i.
Proof.
  intros H1 H2. pose proof (base_Int_part u) as [A B].
  assert (IZR (Int_part u) < IZR (i + 1)) by (rewrite plus_IZR; lra).
  assert (IZR i < IZR (Int_part u + 1)) by (rewrite plus_IZR; lra).
  apply lt_IZR in H, H0. lia.
Qed.
Lemma int_part_bounds u : IZR (Int_part u) <= u < IZR (Int_part u) + 1.
Proof. pose proof (base_Int_part u). lra. Qed.
Lemma int_part_ge u i : IZR i <= u -> (i <= Int_part u)%Z.
Proof.
  intros H. pose proof (int_part_bounds u).
  assert (IZR i < IZR (Int_part u + 1)) by (rewrite plus_IZR; lra).
  apply lt_IZR in H1. lia.
Qed.
Lemma int_part_le u i : u < IZR i + 1 -> (Int_part u <= i)%Z.
Proof.
  intros H. pose proof (int_part_bounds u).
  assert (IZR (Int_part u) < IZR (i + 1)) by (rewrite plus_IZR; lra).
  apply lt_IZR in H1. lia.
Qed.
(** A position in a closed cell is in the half-open one, or it is its upper end. *)
Lemma closed_cell u i : IZR i <= u <= IZR i + 1 ->
  Int_part u = i \/ (Int_part u = (i + 1)%Z /\ u = IZR i + 1).
Proof.
  intros [H1 H2]. destruct (Rlt_dec u (IZR i + 1)).
  - left. apply int_part_spec; lra.
  - right. assert (u = IZR i + 1) by lra. split; [|assumption].
    apply int_part_spec; rewrite plus_IZR; lra.
Qed.

Lemma rd2_ok a i j : (0 <= i < rows a)%Z -> (0 <= j < cols a)%Z ->
  rd2 a i j = Ok (cell a i j).
Proof.
  intros Hi Hj. unfold rd2, wrap, in_range.
  replace (Z.ltb i 0) with false by (symmetry; apply Z.ltb_ge; lia).
  replace (Z.ltb j 0) with false by (symmetry; apply Z.ltb_ge; lia).
  replace (Z.leb 0 i) with true by (symmetry; apply Z.leb_le; lia).
  replace (Z.leb 0 j) with true by (symmetry; apply Z.leb_le; lia).
  replace (Z.ltb i (rows a)) with true by (symmetry; apply Z.ltb_lt; lia).
  replace (Z.ltb j (cols a)) with true by (symmetry; apply Z.ltb_lt; lia).
  reflexivity.
Qed.

Notation geom_of := args_of (only parsing).

Section Core.
  Variables (g : gridspec) (a : arr2) (z r : R).
  Hypothesis (Hg : proper g) (Hc : covered g z r).
  Hypothesis (Ha : rows a = (gnz g + 4)%Z) (Hb : cols a = (gnr g + 4)%Z).

  Let u := (z - gz0 g) / gdz g.
  Let v := r / gdr g.

  Lemma u_eq : z = gz0 g + u * gdz g.
  Proof. destruct Hg as (? & _). unfold u. field. lra. Qed.
  Lemma v_eq : r = v * gdr g.
  Proof. destruct Hg as (_ & ? & _). unfold v. field. lra. Qed.

  Lemma z_cell_eq : (z - z_min (geom_of g)) / d_z (geom_of g) + 2 = u + 2.
  Proof. destruct Hg as (? & _). unfold u, geom_of, node_z; cbn. field. lra. Qed.
  Lemma r_cell_eq : (r - r_min (geom_of g)) / d_r (geom_of g) + 2 = v + 3 / 2.
  Proof. destruct Hg as (_ & ? & _). unfold v, geom_of, node_r; cbn. field. lra. Qed.

  Lemma u_range : 0 <= u <= IZR (gnz g) - 1.
  Proof.
    destruct Hc as [[H1 H2] _]. destruct Hg as (Hz & _). unfold node_z in *.
    rewrite minus_IZR in H2. unfold u. split.
    - apply Rmult_le_reg_r with (gdz g); [lra|]. field_simplify; [|lra]. lra.
    - apply Rmult_le_reg_r with (gdz g); [lra|]. field_simplify; [|lra]. lra.
  Qed.
  Lemma v_range : 0 <= v <= IZR (gnr g) - / 2.
  Proof.
    destruct Hc as [_ [H1 H2]]. destruct Hg as (_ & Hr & _). unfold node_r in *.
    rewrite minus_IZR in H2. unfold v. split.
    - apply Rmult_le_reg_r with (gdr g); [lra|]. field_simplify; [|lra]. lra.
    - apply Rmult_le_reg_r with (gdr g); [lra|].
      replace (r / gdr g * gdr g) with r by (field; lra). lra.
  Qed.

  Let p := locate (geom_of g) z r.
  Lemma reads s : (s = 1 \/ s = if below p then -1 else 1) ->
    interpolate4 a p s =
      Ok (dr_u p * (dz_u p * (cell a (iz_lower p) (ir_lower p) * s)
                    + dz_l p * (cell a (iz_upper p) (ir_lower p) * s))
          + dr_l p * (dz_u p * cell a (iz_lower p) (ir_upper p)
                      + dz_l p * cell a (iz_upper p) (ir_upper p))).
  Proof.
    intros _. unfold interpolate4.
    pose proof u_range as Hu. pose proof v_range as Hv.
    assert (Hz : (0 <= iz_lower p /\ iz_upper p < gnz g + 4 /\ 0 <= iz_upper p
                  /\ iz_lower p < gnz g + 4)%Z).
    { unfold p, locate; cbn [iz_lower iz_upper]. rewrite z_cell_eq.
      assert (2 <= Int_part (u + 2))%Z by (apply int_part_ge; lra).
      assert (Int_part (u + 2) <= gnz g + 1)%Z
        by (apply int_part_le; rewrite plus_IZR; lra). lia. }
    assert (Hr : (0 <= ir_lower p /\ ir_upper p < gnr g + 4 /\ 0 <= ir_upper p
                  /\ ir_lower p < gnr g + 4)%Z).
    { unfold p, locate; cbn [ir_lower ir_upper]. rewrite r_cell_eq.
      assert (1 <= Int_part (v + 3 / 2))%Z by (apply int_part_ge; lra).
      assert (Int_part (v + 3 / 2) <= gnr g + 1)%Z
        by (apply int_part_le; rewrite plus_IZR; lra).
      destruct (Z.ltb_spec (Int_part (v + 3 / 2)) 2); destruct Hg as (_ & _ & _ & ?); lia. }
    rewrite !rd2_ok by lia. reflexivity.
  Qed.

  Lemma core (odd : bool) : exists w,
    interpolate4 a p (if odd then if below p then -1 else 1 else 1) = Ok w /\
    interpolates g odd (inner a) z r w.
  Proof.
    set (s := if odd then if below p then -1 else 1 else 1).
    assert (Hs : s = 1 \/ s = if below p then -1 else 1) by (unfold s; destruct odd; auto).
    rewrite (reads s Hs). eexists; split; [reflexivity|].
    intros i Hi Hzi lam.
    assert (Hd : 0 < gdz g /\ 0 < gdr g) by (destruct Hg; tauto). destruct Hd as [Hdz Hdr].
    assert (Eu : lam = u - IZR i). { unfold lam, u, node_z. field. lra. }
    assert (Hu : IZR i <= u <= IZR i + 1).
    { unfold node_z in Hzi. rewrite plus_IZR in Hzi.
      assert (0 <= lam <= 1).
      { unfold lam, node_z. split; apply Rmult_le_reg_r with (gdz g); try lra.
        - field_simplify; [|lra]. lra.
        - field_simplify; [|lra]. lra. }
      lra. }
    assert (Hub : IZR (i + 2) <= u + 2 <= IZR (i + 2) + 1) by (rewrite plus_IZR; lra).
    assert (Ez : exists k l, iz_lower p = k /\ iz_upper p = l /\
       (forall j, dz_u p * cell a k j + dz_l p * cell a l j =
                  (1 - lam) * cell a (i + 2) j + lam * cell a (i + 1 + 2) j)).
    { unfold p, locate; cbn [iz_lower iz_upper dz_u dz_l]. rewrite z_cell_eq.
      exists (Int_part (u + 2)), (Int_part (u + 2) + 1)%Z. split; [reflexivity|].
      split; [reflexivity|]. intros j. rewrite plus_IZR.
      destruct (closed_cell _ _ Hub) as [E|[E E']]; rewrite E.
      - replace (i + 2 + 1)%Z with (i + 1 + 2)%Z by lia. rewrite plus_IZR, Eu. ring.
      - rewrite plus_IZR in E'. assert (Eu' : u = IZR i + 1) by lra. rewrite !plus_IZR, Eu, Eu'.
        replace (i + 2 + 1)%Z with (i + 1 + 2)%Z by lia. ring. }
    destruct Ez as (k & l & -> & -> & Ez).
    assert (Ef : forall j1 j2,
       dr_u p * (dz_u p * (cell a k j1 * s) + dz_l p * (cell a l j1 * s))
       + dr_l p * (dz_u p * cell a k j2 + dz_l p * cell a l j2)
       = dr_u p * s * ((1 - lam) * cell a (i + 2) j1 + lam * cell a (i + 1 + 2) j1)
         + dr_l p * ((1 - lam) * cell a (i + 2) j2 + lam * cell a (i + 1 + 2) j2)).
    { intros j1 j2. rewrite <- !Ez. ring. }
    rewrite Ef. clear Ef Ez. pose proof v_range as Hv. split.
    - intros j Hj Hrj.
      assert (Hvj : IZR (j + 2) <= v + 3 / 2 <= IZR (j + 2) + 1).
      { unfold node_r in Hrj. rewrite plus_IZR in *. rewrite v_eq in Hrj.
        split.
        - apply Rmult_le_reg_r with (gdr g); [lra|]. lra.
        - apply Rmult_le_reg_r with (gdr g); [lra|]. lra. }
      assert (Eb : below p = false).
      { unfold p, locate; cbn [below]. rewrite r_cell_eq. apply Z.ltb_ge.
        apply int_part_ge. rewrite plus_IZR in Hvj.
        assert (0 <= IZR j) by (apply IZR_le; lia). lra. }
      assert (s = 1) as -> by (unfold s; rewrite Eb; destruct odd; reflexivity).
      revert Eb. unfold p, locate; cbn [below ir_lower ir_upper dr_u dr_l].
      rewrite r_cell_eq. intros ->.
      assert (Em : (r - node_r g j) / gdr g = v - IZR j - / 2)
        by (unfold node_r, v; field; lra).
      rewrite Em. unfold bilinear, inner.
      destruct (closed_cell _ _ Hvj) as [E|[E E']]; rewrite E.
      + rewrite !plus_IZR. replace (j + 2 + 1)%Z with (j + 1 + 2)%Z by lia. lra.
      + rewrite plus_IZR in E'. assert (Ev : v = IZR j + 3 / 2) by lra. rewrite Ev, !plus_IZR.
        replace (j + 2 + 1)%Z with (j + 1 + 2)%Z by lia. lra.
    - intros [Hr0 Hr1]. unfold node_r in Hr1 |- *.
      assert (Ev : r / ((0 + / 2) * gdr g) = 2 * v) by (unfold v; field; lra). rewrite Ev.
      assert (Hv2 : v <= / 2).
      { apply Rmult_le_reg_r with (gdr g); [lra|]. rewrite <- v_eq. lra. }
      unfold s. unfold p, locate; cbn [below ir_lower ir_upper dr_u dr_l]. rewrite r_cell_eq.
      unfold inner. change (0 + 2)%Z with 2%Z.
      assert (Hv1 : IZR 1 <= v + 3 / 2 <= IZR 1 + 1) by lra.
      destruct (closed_cell _ _ Hv1) as [E|[E E']]; rewrite E; cbn [Z.ltb Z.compare Pos.compare Pos.compare_cont Z.add Pos.add].
      + destruct odd; lra.
      + replace v with (/ 2) in * by lra. destruct odd; lra.
  Qed.
End Core.

Lemma linspace_z0 w : xi_fld w 0 = w_ximin w.
Proof. unfold xi_fld, linspace. lra. Qed.
Lemma nxi_pos w : well_formed w -> 0 < IZR (w_nxi w) - 1.
Proof. intros (_ & _ & H & _). apply IZR_le in H. lra. Qed.
Lemma nr_pos w : well_formed w -> 0 < IZR (w_nr w) - 1.
Proof. intros (_ & _ & _ & H & _). apply IZR_le in H. lra. Qed.

Lemma proper_grid w : well_formed w -> proper (grid_of w).
Proof.
  intros H. pose proof (nxi_pos w H) as P1. pose proof (nr_pos w H) as P2.
  destruct H as (H1 & H2 & H3 & H4 & _). unfold proper, grid_of; cbn.
  repeat split; try assumption.
  - apply Rdiv_lt_0_compat; lra.
  - apply Rdiv_lt_0_compat; lra.
Qed.

Lemma r_fld_node w j : well_formed w -> r_fld w j = node_r (grid_of w) j.
Proof.
  intros H. pose proof (nr_pos w H).
  unfold r_fld, linspace, w_dr, node_r, grid_of; cbn. field. lra.
Qed.
Lemma xi_fld_node w i : xi_fld w i = node_z (grid_of w) i.
Proof. reflexivity. Qed.

Lemma w_geom_eq w : well_formed w -> w_geom w = geom_of (grid_of w).
Proof.
  intros H. unfold w_geom, geom_of. rewrite !r_fld_node, !xi_fld_node by assumption. f_equal.
  - unfold node_z. lra.
  - unfold node_r. lra.
Qed.

Lemma radius_nonneg p : 0 <= radius p.
Proof. destruct p as [[a b] z]; cbn. apply sqrt_pos. Qed.
Lemma radius_eq a b z : sqrt (a ^ 2 + b ^ 2) = radius (a, b, z).
Proof. cbn. f_equal. ring. Qed.

Lemma within_true g z r : 0 <= r -> within (geom_of g) z r = true <-> covered g z r.
Proof.
  intros Hr. unfold within, covered; cbn [z_min z_max r_max geom_of].
  destruct (Rle_dec (node_z g 0) z); destruct (Rle_dec z (node_z g (gnz g - 1)));
    destruct (Rle_dec r (node_r g (gnr g - 1))); intuition; try discriminate; tauto.
Qed.
Lemma within_false g z r : 0 <= r -> within (geom_of g) z r = false <-> ~ covered g z r.
Proof.
  intros Hr. rewrite <- within_true by assumption. destruct (within _ _ _); intuition discriminate.
Qed.

(** One particle. *)
Lemma gather_main_one w p : well_formed w -> 0 < radius p ->
  (~ covered (grid_of w) (lon p) (radius p) ->
     forall f, gather_main1 (e_r w) (e_z w) (b_t w) (w_geom w) p f = Ok f) /\
  (covered (grid_of w) (lon p) (radius p) -> exists er ez bt,
     interpolates (grid_of w) true (inner (e_r w)) (lon p) (radius p) er /\
     interpolates (grid_of w) false (inner (e_z w)) (lon p) (radius p) ez /\
     interpolates (grid_of w) true (inner (b_t w)) (lon p) (radius p) bt /\
     forall f, gather_main1 (e_r w) (e_z w) (b_t w) (w_geom w) p f =
       Ok (em_plus f (axisymmetric er ez bt p))).
Proof.
  intros Hw Hr. pose proof (proper_grid w Hw) as Hg.
  destruct p as [[a b] z]; cbn [lon snd].
  unfold gather_main1. rewrite (radius_eq a b z), (w_geom_eq w Hw).
  destruct (Req_EM_T _ 0); [lra|]. split.
  - intros H. apply within_false in H; [|lra]. intros f. rewrite H. reflexivity.
  - intros H. pose proof H as H'. apply within_true in H'; [|lra]. rewrite H'.
    destruct Hw as (_ & _ & _ & _ & [A1 A2] & [A3 A4] & [A5 A6]).
    destruct (core _ (e_r w) _ _ Hg H A1 A2 true) as (er & Eer & Ier).
    destruct (core _ (b_t w) _ _ Hg H A5 A6 true) as (bt & Ebt & Ibt).
    destruct (core _ (e_z w) _ _ Hg H A3 A4 false) as (ez & Eez & Iez).
    exists er, ez, bt. split; [assumption|]. split; [assumption|]. split; [assumption|].
    intros f. rewrite Eer, Ebt, Eez. cbn [bind]. f_equal.
    unfold em_plus, axisymmetric. apply em_eq; cbn [ex ey Model_Push.ez bx by_ bz];
      try (unfold Rdiv; ring).
Qed.

Lemma traverse_map {A B} (f : A -> result B) (g : A -> B) l :
  (forall a, In a l -> f a = Ok (g a)) -> traverse f l = Ok (map g l).
Proof.
  induction l as [|a l IH]; intros H; [reflexivity|]. cbn [traverse map].
  rewrite (H a) by (left; reflexivity). cbn [bind]. rewrite IH by (intros; apply H; right; assumption).
  reflexivity.
Qed.
Lemma map2_combine {A B C} (f : A -> B -> C) a : forall b,
  map2 f a b = map (fun p => f (fst p) (snd p)) (combine a b).
Proof. induction a as [|u a IH]; intros [|v b]; cbn; try reflexivity. f_equal. apply IH. Qed.

(** Total version of the gathered value at a position. *)
Definition value_of (w : rz) (p : pos) : em :=
  match gather_main1 (e_r w) (e_z w) (b_t w) (w_geom w) p em0 with
  | Ok v => v | Fault _ => em0 end.

Lemma em_plus_0 v : em_plus em0 v = v.
Proof. destruct v. apply em_eq; cbn; ring. Qed.
Lemma em_plus_0_r v : em_plus v em0 = v.
Proof. destruct v. apply em_eq; cbn; ring. Qed.

Lemma gather_lemma w : well_formed w ->
  (forall ps b, (forall p, In p ps -> 0 < radius p) ->
     w_gather w ps b = Ok (map2 (fun p f => em_plus f (value_of w p)) ps b)) /\
  (forall p, 0 < radius p -> ~ covered (grid_of w) (lon p) (radius p) -> value_of w p = em0) /\
  (forall p, 0 < radius p -> covered (grid_of w) (lon p) (radius p) -> exists er ez bt,
     interpolates (grid_of w) true (inner (e_r w)) (lon p) (radius p) er /\
     interpolates (grid_of w) false (inner (e_z w)) (lon p) (radius p) ez /\
     interpolates (grid_of w) true (inner (b_t w)) (lon p) (radius p) bt /\
     value_of w p = axisymmetric er ez bt p).
Proof.
  intros Hw. split; [|split].
  - intros ps b H. unfold w_gather, gather_main_fields_cyl_linear.
    rewrite map2_combine. apply traverse_map. intros [p f] Hin. cbn [fst snd].
    apply in_combine_l in Hin. apply H in Hin. unfold value_of.
    destruct (within (w_geom w) (lon p) (radius p)) eqn:E; rewrite w_geom_eq in E by assumption.
    + apply within_true in E; [|lra].
      destruct (proj2 (gather_main_one w p Hw Hin) E) as (er & ez & bt & _ & _ & _ & Ev).
      rewrite !Ev, em_plus_0. reflexivity.
    + apply within_false in E; [|lra].
      rewrite !(proj1 (gather_main_one w p Hw Hin) E), em_plus_0_r. reflexivity.
  - intros p Hp H. unfold value_of. rewrite (proj1 (gather_main_one w p Hw Hp) H). reflexivity.
  - intros p Hp H. destruct (proj2 (gather_main_one w p Hw Hp) H)
      as (er & ez & bt & I1 & I2 & I3 & Ev).
    exists er, ez, bt. split; [assumption|]. split; [assumption|]. split; [assumption|].
    unfold value_of. rewrite Ev, em_plus_0. reflexivity.
Qed.

(** ** Consequences of [interpolates] *)

(** Every covered point lies in a cell. *)
Lemma cell_exists n u : (1 <= n)%Z -> 0 <= u <= IZR n ->
  exists i, (0 <= i < n)%Z /\ IZR i <= u <= IZR (i + 1).
Proof.
  intros Hn Hu. destruct (Rlt_dec u (IZR n)).
  - exists (Int_part u). pose proof (int_part_bounds u) as B. split.
    + split; [apply int_part_ge; lra|].
      apply lt_IZR. lra.
    + rewrite plus_IZR. lra.
  - exists (n - 1)%Z. split; [lia|]. rewrite plus_IZR, minus_IZR. lra.
Qed.
Lemma z_cell g z : proper g -> node_z g 0 <= z <= node_z g (gnz g - 1) ->
  exists i, (0 <= i < gnz g - 1)%Z /\ node_z g i <= z <= node_z g (i + 1).
Proof.
  intros (Hz & _ & Hn & _) H. unfold node_z in *. rewrite minus_IZR in H.
  destruct (cell_exists (gnz g - 1) ((z - gz0 g) / gdz g)) as (i & Hi & A).
  - lia.
  - rewrite minus_IZR.
    split; apply Rmult_le_reg_r with (gdz g); try lra;
      unfold Rdiv; rewrite ?Rmult_assoc, ?Rinv_l by lra; lra.
  - exists i. split; [lia|]. rewrite plus_IZR in *.
    assert (E : z = gz0 g + (z - gz0 g) / gdz g * gdz g) by (field; lra).
    split.
    + apply Rle_trans with (gz0 g + (z - gz0 g) / gdz g * gdz g); [nra|lra].
    + apply Rle_trans with (gz0 g + (z - gz0 g) / gdz g * gdz g); [lra|nra].
Qed.
Lemma r_cell g r : proper g -> 0 <= r <= node_r g (gnr g - 1) ->
  0 <= r <= node_r g 0 \/
  exists j, (0 <= j < gnr g - 1)%Z /\ node_r g j <= r <= node_r g (j + 1).
Proof.
  intros (_ & Hr & _ & Hn) H. destruct (Rle_dec r (node_r g 0)) as [Hle|Hle]; [left; lra|right].
  unfold node_r in *. rewrite minus_IZR in H.
  assert (E : r = r / gdr g * gdr g) by (field; lra).
  destruct (cell_exists (gnr g - 1) (r / gdr g - / 2)) as (i & Hi & A).
  - lia.
  - rewrite minus_IZR. split; apply Rmult_le_reg_r with (gdr g); lra.
  - exists i. split; [lia|]. rewrite plus_IZR in *. split.
    + apply Rle_trans with (r / gdr g * gdr g); [nra|lra].
    + apply Rle_trans with (r / gdr g * gdr g); [lra|nra].
Qed.

Lemma frac_range a x d : 0 < d -> a <= x <= a + d -> 0 <= (x - a) / d <= 1.
Proof.
  intros Hd H. split; apply Rmult_le_reg_r with d; try assumption;
    unfold Rdiv; rewrite ?Rmult_assoc, ?Rinv_l by lra; lra.
Qed.
Lemma node_z_S g i : node_z g (i + 1) = node_z g i + gdz g.
Proof. unfold node_z. rewrite plus_IZR. ring. Qed.
Lemma node_r_S g i : node_r g (i + 1) = node_r g i + gdr g.
Proof. unfold node_r. rewrite plus_IZR. ring. Qed.

(** A combination with weights in [0, 1] stays within the bounds. *)
Lemma mix m M l a b : 0 <= l <= 1 -> m <= a <= M -> m <= b <= M ->
  m <= (1 - l) * a + l * b <= M.
Proof. intros. nra. Qed.
Lemma mix_abs M l a b : 0 <= l <= 1 -> Rabs a <= M -> Rabs b <= M ->
  Rabs ((1 - l) * a + l * b) <= M.
Proof.
  intros H A B. apply Rabs_le. 
  assert (- M <= a <= M) by (revert A; unfold Rabs; destruct (Rcase_abs a); lra).
  assert (- M <= b <= M) by (revert B; unfold Rabs; destruct (Rcase_abs b); lra).
  apply mix; assumption.
Qed.

Lemma interpolates_bounds g f z r v m M : proper g -> covered g z r ->
  interpolates g false f z r v ->
  (forall i j, (0 <= i < gnz g)%Z -> (0 <= j < gnr g)%Z -> m <= f i j <= M) ->
  m <= v <= M.
Proof.
  intros Hg [Hz Hr] I B. destruct (z_cell g z Hg Hz) as (i & Hi & Ci).
  destruct (I i Hi Ci) as [I1 I2]. pose proof Hg as (Pz & Pr & Nz & Nr).
  assert (L : 0 <= (z - node_z g i) / gdz g <= 1)
    by (apply frac_range; [assumption|rewrite <- node_z_S; assumption]).
  destruct (r_cell g r Hg Hr) as [C|(j & Hj & Cj)].
  - rewrite (I2 C), Rmult_1_l. apply mix; [assumption|apply B; lia|apply B; lia].
  - rewrite (I1 j Hj Cj). unfold bilinear.
    assert (0 <= (r - node_r g j) / gdr g <= 1)
      by (apply frac_range; [assumption|rewrite <- node_r_S; assumption]).
    apply mix; [assumption| |]; apply mix; try assumption; apply B; lia.
Qed.

Lemma interpolates_bounds_odd g f z r v M : proper g -> covered g z r ->
  interpolates g true f z r v ->
  (forall i j, (0 <= i < gnz g)%Z -> (0 <= j < gnr g)%Z -> Rabs (f i j) <= M) ->
  Rabs v <= M.
Proof.
  intros Hg [Hz Hr] I B. destruct (z_cell g z Hg Hz) as (i & Hi & Ci).
  destruct (I i Hi Ci) as [I1 I2]. pose proof Hg as (Pz & Pr & Nz & Nr).
  assert (L : 0 <= (z - node_z g i) / gdz g <= 1)
    by (apply frac_range; [assumption|rewrite <- node_z_S; assumption]).
  destruct (r_cell g r Hg Hr) as [C|(j & Hj & Cj)].
  - rewrite (I2 C).
    assert (0 < node_r g 0) by (unfold node_r; nra).
    assert (Q : 0 <= r / node_r g 0 <= 1).
    { replace r with (r - 0) by ring. apply frac_range; lra. }
    set (A := (1 - _) * _ + _).
    assert (Rabs A <= M) by (apply mix_abs; [assumption|apply B; lia|apply B; lia]).
    replace (r / node_r g 0 * A) with ((1 - r / node_r g 0) * 0 + r / node_r g 0 * A) by ring.
    apply mix_abs; [assumption| |assumption]. rewrite Rabs_R0. pose proof (Rabs_pos A). lra.
  - rewrite (I1 j Hj Cj). unfold bilinear.
    assert (0 <= (r - node_r g j) / gdr g <= 1)
      by (apply frac_range; [assumption|rewrite <- node_r_S; assumption]).
    apply mix_abs; [assumption| |]; apply mix_abs; try assumption; apply B; lia.
Qed.

(** Exact for a + b z + c r + d z r, beyond the first radial point. *)
Lemma interpolates_exact g odd f z r v a b c d : proper g ->
  covered g z r -> node_r g 0 <= r -> interpolates g odd f z r v ->
  (forall i j, (0 <= i < gnz g)%Z -> (0 <= j < gnr g)%Z ->
     f i j = a + b * node_z g i + c * node_r g j + d * node_z g i * node_r g j) ->
  v = a + b * z + c * r + d * z * r.
Proof.
  intros Hg [Hz Hr] Hr0 I B. destruct (z_cell g z Hg Hz) as (i & Hi & Ci).
  destruct (I i Hi Ci) as [I1 I2]. pose proof Hg as (Pz & Pr & Nz & Nr).
  assert (exists j, (0 <= j < gnr g - 1)%Z /\ node_r g j <= r <= node_r g (j + 1))
    as (j & Hj & Cj).
  { destruct (r_cell g r Hg Hr) as [C|C]; [|exact C].
    exists 0%Z. split; [lia|]. rewrite node_r_S. lra. }
  rewrite (I1 j Hj Cj). unfold bilinear.
  rewrite !B by lia. rewrite !node_z_S, !node_r_S. field. lra.
Qed.

Lemma interpolates_node g odd f i j v : proper g -> (0 <= i < gnz g)%Z -> (0 <= j < gnr g)%Z ->
  interpolates g odd f (node_z g i) (node_r g j) v -> v = f i j.
Proof.
  intros (Pz & Pr & Nz & Nr) Hi Hj I.
  assert (exists i', (0 <= i' < gnz g - 1)%Z /\ (i = i' \/ i = i' + 1)%Z) as (i' & Hi' & Ei).
  { destruct (Z.eq_dec i (gnz g - 1)); [exists (i - 1)%Z|exists i]; lia. }
  assert (exists j', (0 <= j' < gnr g - 1)%Z /\ (j = j' \/ j = j' + 1)%Z) as (j' & Hj' & Ej).
  { destruct (Z.eq_dec j (gnr g - 1)); [exists (j - 1)%Z|exists j]; lia. }
  assert (Ci : node_z g i' <= node_z g i <= node_z g (i' + 1))
    by (rewrite node_z_S; destruct Ei as [->| ->]; rewrite ?node_z_S; lra).
  assert (Cj : node_r g j' <= node_r g j <= node_r g (j' + 1))
    by (rewrite node_r_S; destruct Ej as [->| ->]; rewrite ?node_r_S; lra).
  destruct (I i' Hi' Ci) as [I1 _]. rewrite (I1 j' Hj' Cj). unfold bilinear.
  destruct Ei as [->| ->], Ej as [->| ->]; rewrite ?node_z_S, ?node_r_S; field; lra.
Qed.

(** ** Lipschitz continuity *)
Lemma lipschitz_chain F x0 h K n : 0 < h -> 0 <= K ->
  (forall i, (0 <= i < Z.of_nat n)%Z -> forall a b,
     x0 + IZR i * h <= a <= x0 + IZR (i + 1) * h ->
     x0 + IZR i * h <= b <= x0 + IZR (i + 1) * h -> Rabs (F a - F b) <= K * Rabs (a - b)) ->
  forall a b, x0 <= a <= x0 + INR n * h -> x0 <= b <= x0 + INR n * h ->
    Rabs (F a - F b) <= K * Rabs (a - b).
Proof.
  intros Hh HK. induction n as [|n IH]; intros H.
  - intros a b Ha Hb. cbn in Ha, Hb. replace a with b by lra.
    rewrite !Rminus_diag_eq, Rabs_R0 by reflexivity. lra.
  - set (m := x0 + INR n * h).
    assert (Step : forall a b, a <= b -> x0 <= a <= x0 + INR (S n) * h ->
              x0 <= b <= x0 + INR (S n) * h -> Rabs (F a - F b) <= K * Rabs (a - b)).
    { assert (IH' : forall a b, x0 <= a <= m -> x0 <= b <= m ->
                Rabs (F a - F b) <= K * Rabs (a - b)).
      { apply IH. intros i Hi. apply H. lia. }
      assert (L : forall a b, m <= a <= x0 + INR (S n) * h -> m <= b <= x0 + INR (S n) * h ->
                Rabs (F a - F b) <= K * Rabs (a - b)).
      { intros a b Ha Hb. apply (H (Z.of_nat n)); [lia| |];
          rewrite plus_IZR, <- INR_IZR_INZ; rewrite S_INR in *; unfold m in *; lra. }
      intros a b Hab Ha Hb. unfold m in *.
      destruct (Rle_dec b (x0 + INR n * h)); [apply IH'; lra|].
      destruct (Rle_dec (x0 + INR n * h) a); [apply L; lra|].
      pose proof (IH' a (x0 + INR n * h)) as H1. pose proof (L (x0 + INR n * h) b) as H2.
      replace (F a - F b) with ((F a - F (x0 + INR n * h)) + (F (x0 + INR n * h) - F b)) by ring.
      eapply Rle_trans; [apply Rabs_triang|].
      assert (E : Rabs (a - b) = Rabs (a - (x0 + INR n * h)) + Rabs ((x0 + INR n * h) - b)).
      { rewrite !Rabs_left1 by lra. ring. }
      rewrite E. 
      assert (0 <= INR n * h) by (apply Rmult_le_pos; [apply pos_INR|lra]).
      rewrite Rmult_plus_distr_l. apply Rplus_le_compat; [apply H1|apply H2]; lra. }
    intros a b Ha Hb. destruct (Rle_dec a b); [apply Step; assumption|].
    rewrite Rabs_minus_sym, (Rabs_minus_sym a b). apply Step; lra.
Qed.

Lemma mix_diff M l l' a b : Rabs a <= M -> Rabs b <= M ->
  Rabs (((1 - l) * a + l * b) - ((1 - l') * a + l' * b)) <= 2 * M * Rabs (l - l').
Proof.
  intros A B. replace (((1 - l) * a + l * b) - ((1 - l') * a + l' * b))
    with ((b - a) * (l - l')) by ring.
  rewrite Rabs_mult. apply Rmult_le_compat_r; [apply Rabs_pos|].
  unfold Rminus. eapply Rle_trans; [apply Rabs_triang|]. rewrite Rabs_Ropp. lra.
Qed.
Lemma Rabs_div_pos a d : 0 < d -> Rabs (a / d) = Rabs a / d.
Proof. intros H. unfold Rdiv. rewrite Rabs_mult, Rabs_inv, (Rabs_pos_eq d); lra. Qed.

Lemma lipschitz g odd f (V : R -> R -> R) M : proper g ->
  (forall z r, covered g z r -> interpolates g odd f z r (V z r)) ->
  (forall i j, (0 <= i < gnz g)%Z -> (0 <= j < gnr g)%Z -> Rabs (f i j) <= M) ->
  forall z r z' r', covered g z r -> covered g z' r' ->
    Rabs (V z r - V z' r') <= 2 * M * (Rabs (z - z') / gdz g + Rabs (r - r') / gdr g).
Proof.
  intros Hg HI B z r z' r' C C'. pose proof Hg as (Pz & Pr & Nz & Nr).
  assert (HM : 0 <= M) by (eapply Rle_trans; [apply Rabs_pos|apply (B 0%Z 0%Z); lia]).
  assert (N0 : 0 < node_r g 0) by (unfold node_r; nra).
  (* along z *)
  assert (Lz : Rabs (V z r - V z' r) <= 2 * M / gdz g * Rabs (z - z')).
  { assert (Hr : 0 <= r <= node_r g (gnr g - 1)) by apply C.
    assert (Ez : node_z g (gnz g - 1) = gz0 g + INR (Z.to_nat (gnz g - 1)) * gdz g)
      by (unfold node_z; rewrite INR_IZR_INZ, Z2Nat.id by lia; reflexivity).
    apply (lipschitz_chain (fun s => V s r) (gz0 g) (gdz g) _ (Z.to_nat (gnz g - 1))).
    - assumption.
    - apply Rmult_le_pos; [lra|]. left. apply Rinv_0_lt_compat. assumption.
    - intros i Hi a b Ha Hb. rewrite Z2Nat.id in Hi by lia.
      change (gz0 g + IZR i * gdz g) with (node_z g i) in *.
      change (gz0 g + IZR (i + 1) * gdz g) with (node_z g (i + 1)) in *.
      assert (Cv : forall s, node_z g i <= s <= node_z g (i + 1) -> covered g s r).
      { intros s Hs. split; [|assumption]. unfold node_z in *.
        assert (0 <= IZR i) by (apply IZR_le; lia).
        assert (IZR (i + 1) <= IZR (gnz g - 1)) by (apply IZR_le; lia). nra. }
      destruct (HI a r (Cv a Ha) i Hi Ha) as [A1 A2].
      destruct (HI b r (Cv b Hb) i Hi Hb) as [B1 B2].
      assert (D : Rabs ((a - node_z g i) / gdz g - (b - node_z g i) / gdz g)
                  = Rabs (a - b) / gdz g).
      { rewrite <- Rabs_div_pos by assumption. f_equal. field. lra. }
      replace (2 * M / gdz g * Rabs (a - b))
        with (2 * M * Rabs ((a - node_z g i) / gdz g - (b - node_z g i) / gdz g))
        by (rewrite D; field; lra).
      destruct (r_cell g r Hg Hr) as [Cr|(j & Hj & Cj)].
      + rewrite (A2 Cr), (B2 Cr), <- Rmult_minus_distr_l, Rabs_mult.
        assert (Q : Rabs (if odd then r / node_r g 0 else 1) <= 1).
        { destruct odd; [|rewrite Rabs_R1; lra].
          assert (0 <= (r - 0) / node_r g 0 <= 1) by (apply frac_range; lra).
          rewrite Rminus_0_r in *. rewrite Rabs_pos_eq; lra. }
        rewrite <- (Rmult_1_l (2 * M * _)).
        apply Rmult_le_compat; try apply Rabs_pos; [assumption|].
        apply mix_diff; apply B; lia.
      + rewrite (A1 j Hj Cj), (B1 j Hj Cj). unfold bilinear.
        assert (0 <= (r - node_r g j) / gdr g <= 1)
          by (apply frac_range; [assumption|rewrite <- node_r_S; assumption]).
        apply mix_diff; apply mix_abs; try assumption; apply B; lia.
    - rewrite <- Ez. destruct C as [C _]. assert (node_z g 0 = gz0 g) by (unfold node_z; ring). lra.
    - rewrite <- Ez. destruct C' as [C' _]. assert (node_z g 0 = gz0 g) by (unfold node_z; ring). lra. }
  (* along r *)
  assert (Lr : Rabs (V z' r - V z' r') <= 2 * M / gdr g * Rabs (r - r')).
  { destruct C as [_ Hr]. destruct C' as [Hz Hr'].
    destruct (z_cell g z' Hg Hz) as (i & Hi & Ci).
    assert (L : 0 <= (z' - node_z g i) / gdz g <= 1)
      by (apply frac_range; [assumption|rewrite <- node_z_S; assumption]).
    assert (K0 : 0 <= 2 * M / gdr g)
      by (apply Rmult_le_pos; [lra|left; apply Rinv_0_lt_compat; assumption]).
    assert (Cv : forall s, 0 <= s <= node_r g (gnr g - 1) -> covered g z' s)
      by (intros s Hs; split; assumption).
    (* beyond the first point *)
    assert (Lo : forall a b, node_r g 0 <= a <= node_r g (gnr g - 1) ->
               node_r g 0 <= b <= node_r g (gnr g - 1) ->
               Rabs (V z' a - V z' b) <= 2 * M / gdr g * Rabs (a - b)).
    { assert (Er : node_r g (gnr g - 1) = node_r g 0 + INR (Z.to_nat (gnr g - 1)) * gdr g)
        by (unfold node_r; rewrite INR_IZR_INZ, Z2Nat.id by lia; ring).
      rewrite Er. apply lipschitz_chain; try assumption.
      intros j Hj a b Ha Hb. rewrite Z2Nat.id in Hj by lia.
      replace (node_r g 0 + IZR j * gdr g) with (node_r g j) in * by (unfold node_r; ring).
      replace (node_r g 0 + IZR (j + 1) * gdr g) with (node_r g (j + 1)) in *
        by (unfold node_r; ring).
      assert (Cs : forall s, node_r g j <= s <= node_r g (j + 1) ->
                 0 <= s <= node_r g (gnr g - 1)).
      { intros s Hs. unfold node_r in *.
        assert (0 <= IZR j) by (apply IZR_le; lia).
        assert (IZR (j + 1) <= IZR (gnr g - 1)) by (apply IZR_le; lia). nra. }
      destruct (HI z' a (Cv a (Cs a Ha)) i Hi Ci) as [A1 _].
      destruct (HI z' b (Cv b (Cs b Hb)) i Hi Ci) as [B1 _].
      rewrite (A1 j Hj Ha), (B1 j Hj Hb).
      assert (D : Rabs ((a - node_r g j) / gdr g - (b - node_r g j) / gdr g)
                  = Rabs (a - b) / gdr g).
      { rewrite <- Rabs_div_pos by assumption. f_equal. field. lra. }
      replace (2 * M / gdr g * Rabs (a - b))
        with (2 * M * Rabs ((a - node_r g j) / gdr g - (b - node_r g j) / gdr g))
        by (rewrite D; field; lra).
      unfold bilinear. set (la := (z' - _) / _) in *. set (ma := (a - _) / _). set (mb := (b - _) / _).
      match goal with |- Rabs (?X - ?Y) <= _ =>
        replace (X - Y) with
          (((1 - ma) * ((1 - la) * f i j + la * f (i + 1)%Z j)
            + ma * ((1 - la) * f i (j + 1)%Z + la * f (i + 1)%Z (j + 1)%Z))
           - ((1 - mb) * ((1 - la) * f i j + la * f (i + 1)%Z j)
            + mb * ((1 - la) * f i (j + 1)%Z + la * f (i + 1)%Z (j + 1)%Z))) by ring end.
      apply mix_diff; apply mix_abs; try assumption; apply B; lia. }
    (* up to the first point *)
    assert (N01 : node_r g 0 <= node_r g (gnr g - 1)).
    { unfold node_r. assert (IZR 0 <= IZR (gnr g - 1)) by (apply IZR_le; lia). nra. }
    assert (Li : forall a b, 0 <= a <= node_r g 0 -> 0 <= b <= node_r g 0 ->
               Rabs (V z' a - V z' b) <= 2 * M / gdr g * Rabs (a - b)).
    { intros a b Ha Hb.
      destruct (HI z' a (Cv a ltac:(lra)) i Hi Ci) as [_ A2].
      destruct (HI z' b (Cv b ltac:(lra)) i Hi Ci) as [_ B2].
      rewrite (A2 Ha), (B2 Hb), <- Rmult_minus_distr_r, Rabs_mult.
      set (F := (1 - _) * f i _ + _).
      assert (BF : Rabs F <= M) by (apply mix_abs; [assumption| |]; apply B; lia).
      destruct odd.
      - replace (a / node_r g 0 - b / node_r g 0) with ((a - b) / node_r g 0) by (field; lra).
        rewrite Rabs_div_pos by assumption. unfold node_r.
        replace (Rabs (a - b) / ((0 + / 2) * gdr g) * Rabs F)
          with (2 * Rabs F / gdr g * Rabs (a - b)) by (field; lra).
        apply Rmult_le_compat_r; [apply Rabs_pos|].
        apply Rmult_le_compat_r; [left; apply Rinv_0_lt_compat; assumption|]. lra.
      - rewrite Rminus_diag_eq, Rabs_R0, Rmult_0_l by reflexivity.
        apply Rmult_le_pos; [assumption|apply Rabs_pos]. }
    assert (St : forall a b, a <= b -> 0 <= a <= node_r g (gnr g - 1) ->
               0 <= b <= node_r g (gnr g - 1) ->
               Rabs (V z' a - V z' b) <= 2 * M / gdr g * Rabs (a - b)).
    { intros a b Hab Ha Hb. destruct (Rle_dec b (node_r g 0)); [apply Li; lra|].
      destruct (Rle_dec (node_r g 0) a); [apply Lo; lra|].
      replace (V z' a - V z' b)
        with ((V z' a - V z' (node_r g 0)) + (V z' (node_r g 0) - V z' b)) by ring.
      eapply Rle_trans; [apply Rabs_triang|].
      assert (E : Rabs (a - b) = Rabs (a - node_r g 0) + Rabs (node_r g 0 - b))
        by (rewrite !Rabs_left1 by lra; ring).
      rewrite E, Rmult_plus_distr_l.
      apply Rplus_le_compat; [apply Li|apply Lo]; lra. }
    destruct (Rle_dec r r'); [apply St; assumption|].
    rewrite Rabs_minus_sym, (Rabs_minus_sym r r'). apply St; lra. }
  replace (V z r - V z' r') with ((V z r - V z' r) + (V z' r - V z' r')) by ring.
  eapply Rle_trans; [apply Rabs_triang|].
  replace (2 * M * (Rabs (z - z') / gdz g + Rabs (r - r') / gdr g))
    with (2 * M / gdz g * Rabs (z - z') + 2 * M / gdr g * Rabs (r - r')) by (field; lra).
  lra.
Qed.

(** ** Regridding *)
Lemma regrid_core g a z r : proper g -> rows a = gnz g -> cols a = gnr g ->
  node_z g 0 <= z <= node_z g (gnz g - 1) -> r < IZR (gnr g) * gdr g + gdr g / 2 ->
  exists v, interpolate_rz1 a (gz0 g) (gdr g / 2) (gdz g) (gdr g) z r = Ok v /\
            continues g (cell a) z r v.
Proof.
  intros Hg Ha Hb Hz Hr. pose proof Hg as (Pz & Pr & Nz & Nr).
  set (u := (z - gz0 g) / gdz g). set (w := (r - gdr g / 2) / gdr g).
  assert (Eu : z = gz0 g + u * gdz g) by (unfold u; field; lra).
  assert (Ew : r = (w + / 2) * gdr g) by (unfold w; field; lra).
  assert (Hu : 0 <= u <= IZR (gnz g) - 1).
  { unfold node_z in Hz. rewrite minus_IZR in Hz. rewrite Eu in Hz.
    split; apply Rmult_le_reg_r with (gdz g); lra. }
  assert (Hw : w < IZR (gnr g)).
  { rewrite Ew in Hr. apply Rmult_lt_reg_r with (gdr g); lra. }
  assert (U0 : (0 <= Int_part u)%Z) by (apply int_part_ge; lra).
  assert (U1 : (Int_part u <= gnz g - 1)%Z) by (apply int_part_le; rewrite minus_IZR; lra).
  assert (W1 : (Int_part w <= gnr g - 1)%Z) by (apply int_part_le; rewrite minus_IZR; lra).
  unfold interpolate_rz1. fold u w. rewrite !Ha, !Hb.
  rewrite !rd2_ok by lia. cbn [bind].
  set (jl := Z.max (Int_part w) 0). set (il := Int_part u).
  (* the values used for the upper radial cell *)
  set (up := fun i : Z => if Z.eqb jl (Z.min (jl + 1) (gnr g - 1))
             then cell a i (Z.min (jl + 1) (gnr g - 1))
                  + (cell a i (Z.min (jl + 1) (gnr g - 1))
                     - cell a i (Z.min (jl + 1) (gnr g - 1) - 1)%Z)
             else cell a i (Z.min (jl + 1) (gnr g - 1))).
  match goal with |- exists v, ?X = _ /\ _ =>
    assert (E : X = Ok (
      (IZR (jl + 1) - w) * ((IZR (il + 1) - u) * cell a il jl
                      + (u - IZR il) * cell a (Z.min (il + 1) (gnz g - 1)) jl)
      + (1 - (IZR (jl + 1) - w)) * ((IZR (il + 1) - u) * up il
                      + (u - IZR il) * up (Z.min (il + 1) (gnz g - 1))))) end.
  { unfold up, jl, il. destruct (Z.eqb _ _); reflexivity. }
  rewrite E. clear E. eexists. split; [reflexivity|].
  intros i j Hi Hj Ci Cj1 Cj2.
  assert (El : (z - node_z g i) / gdz g = u - IZR i) by (unfold u, node_z; field; lra).
  assert (Em : (r - node_r g j) / gdr g = w - IZR j) by (unfold w, node_r; field; lra).
  rewrite El, Em. clear El Em.
  assert (Hui : IZR i <= u <= IZR i + 1).
  { unfold node_z in Ci. rewrite plus_IZR in Ci. rewrite Eu in Ci.
    split; apply Rmult_le_reg_r with (gdz g); lra. }
  assert (W2 : IZR j <= w \/ j = 0%Z).
  { destruct Cj1 as [H|H]; [left|right; assumption]. unfold node_r in H. rewrite Ew in H.
    apply Rmult_le_reg_r with (gdr g); lra. }
  assert (W3 : w <= IZR j + 1 \/ j = (gnr g - 2)%Z).
  { destruct Cj2 as [H|H]; [left|right; assumption]. unfold node_r in H.
    rewrite plus_IZR, Ew in H. apply Rmult_le_reg_r with (gdr g); lra. }
  (* along z *)
  assert (Ez : forall F : Z -> R, (IZR (il + 1) - u) * F il
                 + (u - IZR il) * F (Z.min (il + 1) (gnz g - 1))
               = (1 - (u - IZR i)) * F i + (u - IZR i) * F (i + 1)%Z).
  { intros F. destruct (closed_cell u i Hui) as [E|[E E']]; unfold il; rewrite E.
    - rewrite Z.min_l by lia. rewrite plus_IZR. ring.
    - rewrite E', !plus_IZR. ring. }
  rewrite (Ez (fun k => cell a k jl)), (Ez up).
  (* along r *)
  assert (Er : forall k, (IZR (jl + 1) - w) * cell a k jl + (1 - (IZR (jl + 1) - w)) * up k
               = (1 - (w - IZR j)) * cell a k j + (w - IZR j) * cell a k (j + 1)%Z).
  { intros k. unfold up.
    assert (J : jl = j \/ (jl = (j + 1)%Z /\ (w = IZR j + 1 \/ j = (gnr g - 2)%Z))).
    { unfold jl. destruct W2 as [W2| ->].
      - assert (j <= Int_part w)%Z by (apply int_part_ge; assumption).
        destruct W3 as [W3| ->].
        + destruct (closed_cell w j (conj W2 W3)) as [E|[E E']]; [left; lia|right].
          split; [lia|left; assumption].
        + lia.
      - destruct W3 as [W3|E0].
        + destruct (Rle_dec 0 w) as [W0|W0].
          * destruct (closed_cell w 0 (conj W0 W3)) as [E|[E E']]; [left; lia|right].
            split; [lia|left; assumption].
          * left. assert (Int_part w <= -1)%Z by (apply int_part_le; lra). lia.
        + lia. }
    destruct J as [E | [E J]]; rewrite !E.
    - rewrite Z.min_l by lia.
      replace (Z.eqb j (j + 1)) with false by (symmetry; apply Z.eqb_neq; lia).
      rewrite plus_IZR. ring.
    - destruct (Z.eq_dec j (gnr g - 2)) as [Ej|Ej].
      + rewrite Z.min_r by lia.
        replace (j + 1)%Z with (gnr g - 1)%Z by lia. rewrite Z.eqb_refl.
        replace (gnr g - 1 - 1)%Z with j by lia.
        rewrite Ej, !minus_IZR, plus_IZR, minus_IZR. ring.
      + destruct J as [J|J]; [|lia]. rewrite Z.min_l by lia.
        replace (Z.eqb (j + 1) (j + 1 + 1)) with false by (symmetry; apply Z.eqb_neq; lia).
        rewrite J, !plus_IZR. ring. }
  transitivity ((1 - (u - IZR i)) *
      ((IZR (jl + 1) - w) * cell a i jl + (1 - (IZR (jl + 1) - w)) * up i)
      + (u - IZR i) * ((IZR (jl + 1) - w) * cell a (i + 1) jl
                       + (1 - (IZR (jl + 1) - w)) * up (i + 1)%Z)); [ring|].
  rewrite !Er. unfold bilinear. reflexivity.
Qed.

Lemma continues_cell g r : proper g ->
  exists j, (0 <= j < gnr g - 1)%Z /\ (node_r g j <= r \/ j = 0%Z) /\
            (r <= node_r g (j + 1) \/ j = (gnr g - 2)%Z).
Proof.
  intros Hg. pose proof Hg as (Pz & Pr & Nz & Nr).
  destruct (Rle_dec r (node_r g 0)) as [H|H].
  { exists 0%Z. split; [lia|]. split; [right; reflexivity|]. left.
    rewrite node_r_S. lra. }
  destruct (Rle_dec r (node_r g (gnr g - 1))) as [H'|H'].
  - assert (0 <= r) by (assert (0 < node_r g 0) by (unfold node_r; nra); lra).
    destruct (r_cell g r Hg (conj H0 H')) as [C|(j & Hj & Cj)].
    + exists 0%Z. split; [lia|]. split; [right; reflexivity|]. left. rewrite node_r_S. lra.
    + exists j. split; [lia|]. split; left; lra.
  - exists (gnr g - 2)%Z. split; [lia|]. split; [left|right; reflexivity].
    assert (node_r g (gnr g - 1) = node_r g (gnr g - 2) + gdr g)
      by (rewrite <- node_r_S; f_equal; lia). lra.
Qed.

Lemma continues_exact g f z r v a b c d : proper g ->
  node_z g 0 <= z <= node_z g (gnz g - 1) -> continues g f z r v ->
  (forall i j, (0 <= i < gnz g)%Z -> (0 <= j < gnr g)%Z ->
     f i j = a + b * node_z g i + c * node_r g j + d * node_z g i * node_r g j) ->
  v = a + b * z + c * r + d * z * r.
Proof.
  intros Hg Hz I B. destruct (z_cell g z Hg Hz) as (i & Hi & Ci).
  pose proof Hg as (Pz & Pr & Nz & Nr).
  destruct (continues_cell g r Hg) as (j & Hj & J1 & J2).
  rewrite (I i j Hi Hj Ci J1 J2). unfold bilinear.
  rewrite !B by lia. rewrite !node_z_S, !node_r_S. field. lra.
Qed.
Lemma continues_node g f i j v : proper g -> (0 <= i < gnz g)%Z -> (0 <= j < gnr g)%Z ->
  continues g f (node_z g i) (node_r g j) v -> v = f i j.
Proof.
  intros Hg Hi Hj H. apply (interpolates_node g true); try assumption.
  intros k Hk Ck lam. split.
  - intros j' Hj' Cj'. apply H; try assumption; left; apply Cj'.
  - intros [_ H0]. pose proof Hg as (Pz & Pr & Nz & Nr).
    assert (j = 0)%Z.
    { unfold node_r in H0. assert (IZR j <= 0).
      { apply Rmult_le_reg_r with (gdr g); lra. }
      apply le_IZR in H1. lia. }
    subst j. assert (node_r g 0 <> 0) by (unfold node_r; nra).
    rewrite (H k 0%Z Hk ltac:(lia) Ck (or_intror eq_refl)) by (left; rewrite node_r_S; lra).
    unfold bilinear. fold lam.
    replace ((node_r g 0 - node_r g 0) / gdr g) with 0 by (field; lra). field. assumption.
Qed.

Lemma in_indices n i : In i (indices n) -> (0 <= i < n)%Z.
Proof.
  unfold indices. intros H. apply in_map_iff in H. destruct H as (k & <- & H).
  apply in_seq in H. lia.
Qed.

Definition regridded (a : arr2) (g : gridspec) (z r : R) : R :=
  match interpolate_rz1 a (gz0 g) (gdr g / 2) (gdz g) (gdr g) z r with
  | Ok v => v | Fault _ => 0 end.

Lemma laser_grid_proper ximin ximax rmax nz nr : ximin < ximax -> 0 < rmax ->
  (2 <= nz)%Z -> (2 <= nr)%Z -> proper (laser_grid ximin ximax rmax nz nr).
Proof.
  intros H1 H2 H3 H4. pose proof (IZR_le _ _ H3). pose proof (IZR_le _ _ H4).
  unfold proper, laser_grid; cbn. repeat split; try assumption; apply Rdiv_lt_0_compat; lra.
Qed.

Lemma laser_grid_r_range ximin ximax rmax nz nr j : 0 < rmax -> (1 <= nr)%Z ->
  (0 <= j < nr)%Z ->
  0 < node_r (laser_grid ximin ximax rmax nz nr) j < rmax.
Proof.
  intros H1 H2 Hj. unfold node_r, laser_grid; cbn.
  assert (0 < IZR nr) by (apply IZR_lt; lia).
  assert (0 <= IZR j) by (apply IZR_le; lia).
  assert (IZR j <= IZR nr - 1) by (rewrite <- minus_IZR; apply IZR_le; lia).
  assert (0 < rmax / IZR nr) by (apply Rdiv_lt_0_compat; lra).
  assert (rmax = IZR nr * (rmax / IZR nr)) by (field; lra). nra.
Qed.
Lemma laser_grid_z_range ximin ximax rmax nz nr i : ximin < ximax -> (2 <= nz)%Z ->
  (0 <= i < nz)%Z ->
  ximin <= node_z (laser_grid ximin ximax rmax nz nr) i <= ximax.
Proof.
  intros H1 H2 Hj. unfold node_z, laser_grid; cbn.
  assert (1 < IZR nz) by (apply IZR_lt; lia).
  assert (0 <= IZR i) by (apply IZR_le; lia).
  assert (IZR i <= IZR nz - 1) by (rewrite <- minus_IZR; apply IZR_le; lia).
  set (d := (ximax - ximin) / (IZR nz - 1)).
  assert (0 < d) by (apply Rdiv_lt_0_compat; lra).
  assert (ximax = ximin + (IZR nz - 1) * d) by (unfold d; field; lra). nra.
Qed.

Lemma regrid_lemma a ximin ximax rmax nz nr nz' nr' : ximin < ximax -> 0 < rmax ->
  (2 <= nz)%Z -> (2 <= nr)%Z -> (2 <= nz')%Z -> (2 <= nr')%Z -> rows a = nz -> cols a = nr ->
  let g := laser_grid ximin ximax rmax nz nr in
  let g' := laser_grid ximin ximax rmax nz' nr' in
  (forall z r, ximin <= z <= ximax -> 0 <= r <= rmax ->
     continues g (cell a) z r (regridded a g z r)) /\
  regrid a ximin ximax rmax nz nr nz' nr' =
    Ok (map (fun i => map (fun j => regridded a g (node_z g' i) (node_r g' j)) (indices nr'))
            (indices nz')).
Proof.
  intros H1 H2 H3 H4 H5 H6 Ha Hb g g'.
  assert (Hg : proper g) by (apply laser_grid_proper; assumption).
  assert (Nz : 1 < IZR nz) by (apply IZR_lt; lia).
  assert (Nr : 1 < IZR nr) by (apply IZR_lt; lia).
  assert (Core : forall z r, ximin <= z <= ximax -> 0 <= r <= rmax ->
     interpolate_rz1 a (gz0 g) (gdr g / 2) (gdz g) (gdr g) z r = Ok (regridded a g z r) /\
     continues g (cell a) z r (regridded a g z r)).
  { intros z r Hz Hr. destruct (regrid_core g a z r Hg Ha Hb) as (v & E & C).
    - unfold node_z, g, laser_grid; cbn. rewrite minus_IZR. 
      replace (ximin + (IZR nz - 1) * ((ximax - ximin) / (IZR nz - 1))) with ximax by (field; lra).
      lra.
    - destruct Hg as (_ & Pr & _). unfold g, laser_grid in *; cbn [gdr gnr] in *.
      replace (IZR nr * (rmax / IZR nr)) with rmax by (field; lra). lra.
    - unfold regridded. rewrite E. split; [reflexivity|assumption]. }
  split; [intros z r Hz Hr; apply Core; assumption|].
  unfold regrid, interpolate_rz_field.
  rewrite (traverse_map _ (fun z => map (fun r => regridded a g z r)
             (map (grid_r rmax nr') (indices nr')))).
  2:{ intros z Hz. apply traverse_map. intros r Hr.
      apply in_map_iff in Hz. destruct Hz as (i & <- & Hi). apply in_indices in Hi.
      apply in_map_iff in Hr. destruct Hr as (j & <- & Hj). apply in_indices in Hj.
      change (interpolate_rz1 a (gz0 g) (gdr g / 2) (gdz g) (gdr g) (grid_z ximin ximax nz' i)
                (grid_r rmax nr' j) =
              Ok (regridded a g (grid_z ximin ximax nz' i) (grid_r rmax nr' j))).
      apply Core.
      - apply (laser_grid_z_range ximin ximax rmax nz' nr' i); assumption.
      - assert (0 < node_r g' j < rmax) by (apply laser_grid_r_range; [assumption|lia|assumption]).
        assert (grid_r rmax nr' j = node_r g' j) as ->; [|lra].
        unfold grid_r, linspace, grid_dr, node_r, g', laser_grid; cbn.
        assert (1 < IZR nr') by (apply IZR_lt; lia). field. lra. }
  f_equal. rewrite map_map. apply map_ext_in. intros i Hi. rewrite map_map.
  apply map_ext_in. intros j Hj. f_equal.
  unfold grid_r, linspace, grid_dr, node_r, g', laser_grid; cbn.
  assert (1 < IZR nr') by (apply IZR_lt; lia). field. lra.
Qed.

(** ** Consequences for gathered values *)
Lemma interpolates_unique g odd f z r v v' : proper g -> covered g z r ->
  interpolates g odd f z r v -> interpolates g odd f z r v' -> v = v'.
Proof.
  intros Hg [Hz Hr] I I'. destruct (z_cell g z Hg Hz) as (i & Hi & Ci).
  destruct (I i Hi Ci) as [I1 I2]. destruct (I' i Hi Ci) as [I1' I2'].
  destruct (r_cell g r Hg Hr) as [C|(j & Hj & Cj)].
  - rewrite (I2 C), (I2' C). reflexivity.
  - rewrite (I1 j Hj Cj), (I1' j Hj Cj). reflexivity.
Qed.

Lemma radius_sq p : radius p * radius p = fst (fst p) * fst (fst p) + snd (fst p) * snd (fst p).
Proof. destruct p as [[a b] z]; cbn. rewrite sqrt_sqrt; nra. Qed.

Lemma cyl_components p er ez_ bt : 0 < radius p ->
  let v := axisymmetric er ez_ bt p in
  e_radial p v = er /\ e_azimuthal p v = 0 /\ b_radial p v = 0 /\ b_azimuthal p v = bt /\
  ez v = ez_ /\ bz v = 0.
Proof.
  intros Hp v. pose proof (radius_sq p) as E. unfold v, axisymmetric, e_radial, e_azimuthal,
    b_radial, b_azimuthal. destruct p as [[a b] z]. cbn [ex ey ez bx by_ bz fst snd] in *.
  set (r := radius (a, b, z)) in *.
  repeat split; try (field; lra).
  - transitivity (er * ((a * a + b * b) / (r * r))); [field; lra|]. rewrite <- E. field. lra.
  - transitivity (bt * ((a * a + b * b) / (r * r))); [field; lra|]. rewrite <- E. field. lra.
Qed.

Lemma gets_value w p : well_formed w -> 0 < radius p -> gets w p (value_of w p).
Proof.
  intros Hw Hp. unfold gets. rewrite (proj1 (gather_lemma w Hw)).
  - cbn [map2]. rewrite em_plus_0. reflexivity.
  - intros q [<-|[]]. assumption.
Qed.
Lemma gets_unique w p v v' : gets w p v -> gets w p v' -> v = v'.
Proof. unfold gets. intros H H'. rewrite H in H'. injection H'. auto. Qed.
Lemma gets_pos w p v : gets w p v -> 0 < radius p.
Proof.
  unfold gets, w_gather, gather_main_fields_cyl_linear. cbn [combine traverse fst snd].
  destruct p as [[a b] z]. unfold gather_main1. rewrite (radius_eq a b z).
  destruct (Req_EM_T _ 0); [discriminate|]. intros _.
  pose proof (radius_nonneg (a, b, z)). lra.
Qed.
Lemma gets_inside w p v : well_formed w -> gets w p v ->
  covered (grid_of w) (lon p) (radius p) ->
  interpolates (grid_of w) true (inner (e_r w)) (lon p) (radius p) (e_radial p v) /\
  interpolates (grid_of w) false (inner (e_z w)) (lon p) (radius p) (ez v) /\
  interpolates (grid_of w) true (inner (b_t w)) (lon p) (radius p) (b_azimuthal p v) /\
  e_azimuthal p v = 0 /\ b_radial p v = 0 /\ bz v = 0.
Proof.
  intros Hw Hv Hc. pose proof (gets_pos w p v Hv) as Hp.
  rewrite (gets_unique w p v _ Hv (gets_value w p Hw Hp)).
  destruct (proj2 (proj2 (gather_lemma w Hw)) p Hp Hc) as (er & e & bt & I1 & I2 & I3 & ->).
  destruct (cyl_components p er e bt Hp) as (-> & -> & -> & -> & -> & ->). auto 6.
Qed.

(** The interpolated value as a function of the position. *)
Definition interp_value (g : gridspec) (odd : bool) (a : arr2) (z r : R) : R :=
  let p := locate (args_of g) z r in
  match interpolate4 a p (if odd then if below p then -1 else 1 else 1) with
  | Ok v => v | Fault _ => 0 end.
Lemma interp_value_spec g odd a z r : proper g -> guards g a -> covered g z r ->
  interpolates g odd (inner a) z r (interp_value g odd a z r).
Proof.
  intros Hg [Ha Hb] Hc. destruct (core g a z r Hg Hc Ha Hb odd) as (v & E & I).
  unfold interp_value. rewrite E. assumption.
Qed.
Lemma continuous_lemma g odd a M z r z' r' v v' : proper g -> guards g a ->
  covered g z r -> covered g z' r' -> values_bounded g (inner a) M ->
  interpolates g odd (inner a) z r v -> interpolates g odd (inner a) z' r' v' ->
  Rabs (v - v') <= 2 * M * (Rabs (z - z') / gdz g + Rabs (r - r') / gdr g).
Proof.
  intros Hg Ha Hc Hc' HM I I'.
  rewrite (interpolates_unique _ _ _ _ _ _ _ Hg Hc I (interp_value_spec g odd a z r Hg Ha Hc)).
  rewrite (interpolates_unique _ _ _ _ _ _ _ Hg Hc' I' (interp_value_spec g odd a z' r' Hg Ha Hc')).
  apply (lipschitz g odd (inner a)); try assumption.
  intros. apply interp_value_spec; assumption.
Qed.

(** ** The other two gathering functions *)
Lemma gather_field_lemma g a l : proper g -> guards g a ->
  exists V, gather_field_cyl_linear a (args_of g) l = Ok (map V l) /\
    forall p, (covered g (lon p) (radius p) ->
                 interpolates g false (inner a) (lon p) (radius p) (V p)) /\
              (~ covered g (lon p) (radius p) -> V p = 0).
Proof.
  intros Hg Ha.
  exists (fun p => if within (args_of g) (lon p) (radius p)
                   then interp_value g false a (lon p) (radius p) else 0).
  split.
  - apply traverse_map. intros [[b c] z] _. unfold gather_field1. rewrite (radius_eq b c z).
    cbn [lon snd]. destruct (within _ _ _) eqn:E; [|reflexivity].
    apply within_true in E; [|apply radius_nonneg].
    destruct Ha as [A1 A2]. destruct (core g a _ _ Hg E A1 A2 false) as (v & Ev & _).
    cbn [lon snd] in *. unfold interp_value. rewrite Ev. reflexivity.
  - intros p. split; intros H.
    + pose proof H as H'. apply within_true in H'; [|apply radius_nonneg]. rewrite H'.
      apply interp_value_spec; assumption.
    + apply within_false in H; [|apply radius_nonneg]. rewrite H. reflexivity.
Qed.

Lemma gather_sources_lemma g a1 a2 a3 z l old : proper g ->
  guards g a1 -> guards g a2 -> guards g a3 -> (forall r, In r l -> 0 <= r) ->
  exists V1 V2 V3,
    gather_sources_qs_baxevanis a1 a2 a3 (args_of g) z l old =
      Ok (map2 (fun r o => if within (args_of g) z r then (V1 r, V2 r, V3 r) else o) l old) /\
    forall r, covered g z r ->
      interpolates g false (inner a1) z r (V1 r) /\
      interpolates g true (inner a2) z r (V2 r) /\
      interpolates g true (inner a3) z r (V3 r).
Proof.
  intros Hg H1 H2 H3 Hl.
  exists (interp_value g false a1 z), (interp_value g true a2 z), (interp_value g true a3 z).
  split.
  - unfold gather_sources_qs_baxevanis. rewrite map2_combine. apply traverse_map.
    intros [r o] Hin. cbn [fst snd]. apply in_combine_l in Hin. apply Hl in Hin.
    unfold gather_sources1. destruct (within _ _ _) eqn:E; [|reflexivity].
    apply within_true in E; [|assumption].
    destruct H1 as [A1 A2]. destruct H2 as [A3 A4]. destruct H3 as [A5 A6].
    destruct (core g a1 _ _ Hg E A1 A2 false) as (v1 & E1 & _).
    destruct (core g a2 _ _ Hg E A3 A4 true) as (v2 & E2 & _).
    destruct (core g a3 _ _ Hg E A5 A6 true) as (v3 & E3 & _).
    unfold interp_value. rewrite E1, E2, E3. reflexivity.
  - intros r Hc. repeat split; apply interp_value_spec; assumption.
Qed.

Lemma on_axis_lemma w ps b p : well_formed w -> length ps = length b -> In p ps ->
  radius p = 0 -> w_gather w ps b = Fault ZeroDivision.
Proof.
  intros Hw. unfold w_gather, gather_main_fields_cyl_linear. revert b.
  induction ps as [|q ps IH]; intros [|f b] Hl Hin H0; try discriminate; [destruct Hin|].
  cbn [combine traverse fst snd].
  destruct (Req_EM_T (radius q) 0) as [E|E].
  - destruct q as [[x0 y0] z0]. unfold gather_main1. rewrite (radius_eq x0 y0 z0).
    destruct (Req_EM_T _ 0); [reflexivity|contradiction].
  - assert (0 < radius q) by (pose proof (radius_nonneg q); lra).
    assert (exists v, gather_main1 (e_r w) (e_z w) (b_t w) (w_geom w) q f = Ok v) as [v ->].
    { destruct (within (w_geom w) (lon q) (radius q)) eqn:W; rewrite w_geom_eq in W by assumption.
      - apply within_true in W; [|lra].
        destruct (proj2 (gather_main_one w q Hw H) W) as (? & ? & ? & _ & _ & _ & Ev).
        rewrite Ev. eauto.
      - apply within_false in W; [|lra]. rewrite (proj1 (gather_main_one w q Hw H) W). eauto. }
    cbn [bind]. destruct Hin as [->|Hin]; [contradiction|].
    rewrite IH; [reflexivity|auto|assumption|assumption].
Qed.

Lemma axis_slope g f z r r' v v' : proper g -> covered g z r -> covered g z r' ->
  r <= node_r g 0 -> r' <= node_r g 0 ->
  interpolates g true f z r v -> interpolates g true f z r' v' -> v * r' = v' * r.
Proof.
  intros Hg C C' H H' I I'. destruct C as [Hz Hr]. destruct C' as [_ Hr'].
  destruct (z_cell g z Hg Hz) as (i & Hi & Ci).
  rewrite (proj2 (I i Hi Ci) ltac:(lra)), (proj2 (I' i Hi Ci) ltac:(lra)). unfold Rdiv. ring.
Qed.
