(** C26, C27, C62: interpolation of gridded fields. *)
From Coq Require Import Reals ZArith List Lra Lia.
From Verif Require Import Model_Push Model_Interp Spec_Interp Proofs_Interp.
Import ListNotations.
Open Scope R_scope.

(** C26.  Gathering from a wakefield never reads outside its arrays, never fails
    for particles off axis, and adds to each particle's entry a value that depends
    only on its position. *)
Theorem C26_gathering_adds w : well_formed w ->
  exists G : pos -> em,
    (forall ps b, (forall p, In p ps -> 0 < radius p) ->
       w_gather w ps b = Ok (map2 (fun p f => em_plus f (G p)) ps b)) /\
    (forall p, 0 < radius p -> gets w p (G p)).
Proof.
  intros Hw. exists (value_of w). split; [exact (proj1 (gather_lemma w Hw))|].
  intros p Hp. exact (gets_value w p Hw Hp).
Qed.

(** Outside the grid the value is exactly zero. *)
Theorem C26_outside w p v : well_formed w -> gets w p v ->
  ~ covered (grid_of w) (lon p) (radius p) -> v = em0.
Proof.
  intros Hw Hv Hc. pose proof (gets_pos w p v Hv) as Hp.
  rewrite (gets_unique w p v _ Hv (gets_value w p Hw Hp)).
  exact (proj1 (proj2 (gather_lemma w Hw)) p Hp Hc).
Qed.

(** Inside, E_z, E_r and B_theta are the interpolations of the grid values (guard
    cells do not enter); the other components are zero. *)
Theorem C26_inside w p v : well_formed w -> gets w p v ->
  covered (grid_of w) (lon p) (radius p) ->
  interpolates (grid_of w) true (inner (e_r w)) (lon p) (radius p) (e_radial p v) /\
  interpolates (grid_of w) false (inner (e_z w)) (lon p) (radius p) (ez v) /\
  interpolates (grid_of w) true (inner (b_t w)) (lon p) (radius p) (b_azimuthal p v) /\
  e_azimuthal p v = 0 /\ b_radial p v = 0 /\ bz v = 0.
Proof. exact (gets_inside w p v). Qed.

(** On a grid point: its value. *)
Theorem C26_grid_point w p v i j : well_formed w -> gets w p v ->
  (0 <= i < w_nxi w)%Z -> (0 <= j < w_nr w)%Z ->
  lon p = node_z (grid_of w) i -> radius p = node_r (grid_of w) j ->
  e_radial p v = inner (e_r w) i j /\ ez v = inner (e_z w) i j /\
  b_azimuthal p v = inner (b_t w) i j.
Proof.
  intros Hw Hv Hi Hj Ez Er. pose proof (proper_grid w Hw) as Hg.
  assert (Hc : covered (grid_of w) (lon p) (radius p)).
  { destruct Hg as (Pz & Pr & Nz & Nr). rewrite Ez, Er. unfold covered, node_z, node_r.
    change (gnz (grid_of w)) with (w_nxi w). change (gnr (grid_of w)) with (w_nr w).
    assert (0 <= IZR i <= IZR (w_nxi w - 1)) by (split; apply IZR_le; lia).
    assert (0 <= IZR j <= IZR (w_nr w - 1)) by (split; apply IZR_le; lia).
    split; split; nra. }
  destruct (gets_inside w p v Hw Hv Hc) as (I1 & I2 & I3 & _). rewrite Ez, Er in *.
  repeat split; eapply (interpolates_node (grid_of w)); eassumption.
Qed.

(** Exact for values a + b xi + c r + d xi r (beyond the first radial point). *)
Theorem C26_exact w p v a b c d : well_formed w -> gets w p v ->
  covered (grid_of w) (lon p) (radius p) -> node_r (grid_of w) 0 <= radius p ->
  let V := a + b * lon p + c * radius p + d * lon p * radius p in
  (bilinear_values (grid_of w) (inner (e_r w)) a b c d -> e_radial p v = V) /\
  (bilinear_values (grid_of w) (inner (e_z w)) a b c d -> ez v = V) /\
  (bilinear_values (grid_of w) (inner (b_t w)) a b c d -> b_azimuthal p v = V).
Proof.
  intros Hw Hv Hc Hr V. pose proof (proper_grid w Hw) as Hg.
  destruct (gets_inside w p v Hw Hv Hc) as (I1 & I2 & I3 & _).
  split; [|split]; intros B.
  - exact (interpolates_exact _ _ _ _ _ _ a b c d Hg Hc Hr I1 B).
  - exact (interpolates_exact _ _ _ _ _ _ a b c d Hg Hc Hr I2 B).
  - exact (interpolates_exact _ _ _ _ _ _ a b c d Hg Hc Hr I3 B).
Qed.

(** Never outside the range of the grid values. *)
Theorem C26_between w p v m M : well_formed w -> gets w p v ->
  covered (grid_of w) (lon p) (radius p) ->
  (values_within (grid_of w) (inner (e_z w)) m M -> m <= ez v <= M) /\
  (values_bounded (grid_of w) (inner (e_r w)) M -> Rabs (e_radial p v) <= M) /\
  (values_bounded (grid_of w) (inner (b_t w)) M -> Rabs (b_azimuthal p v) <= M).
Proof.
  intros Hw Hv Hc. pose proof (proper_grid w Hw) as Hg.
  destruct (gets_inside w p v Hw Hv Hc) as (I1 & I2 & I3 & _). split; [|split]; intros B.
  - exact (interpolates_bounds _ _ _ _ _ m M Hg Hc I2 B).
  - exact (interpolates_bounds_odd _ _ _ _ _ M Hg Hc I1 B).
  - exact (interpolates_bounds_odd _ _ _ _ _ M Hg Hc I3 B).
Qed.

(** Continuous (Lipschitz) over the whole grid, across cells and up to the axis. *)
Theorem C26_continuous w p p' v v' M : well_formed w -> gets w p v -> gets w p' v' ->
  covered (grid_of w) (lon p) (radius p) -> covered (grid_of w) (lon p') (radius p') ->
  let D := 2 * M * (Rabs (lon p - lon p') / gdz (grid_of w)
                    + Rabs (radius p - radius p') / gdr (grid_of w)) in
  (values_bounded (grid_of w) (inner (e_r w)) M -> Rabs (e_radial p v - e_radial p' v') <= D) /\
  (values_bounded (grid_of w) (inner (e_z w)) M -> Rabs (ez v - ez v') <= D) /\
  (values_bounded (grid_of w) (inner (b_t w)) M ->
     Rabs (b_azimuthal p v - b_azimuthal p' v') <= D).
Proof.
  intros Hw Hv Hv' Hc Hc' D. pose proof (proper_grid w Hw) as Hg.
  pose proof Hw as (_ & _ & _ & _ & A1 & A2 & A3).
  destruct (gets_inside w p v Hw Hv Hc) as (I1 & I2 & I3 & _).
  destruct (gets_inside w p' v' Hw Hv' Hc') as (J1 & J2 & J3 & _).
  split; [|split]; intros B.
  - exact (continuous_lemma _ _ _ M _ _ _ _ _ _ Hg A1 Hc Hc' B I1 J1).
  - exact (continuous_lemma _ _ _ M _ _ _ _ _ _ Hg A2 Hc Hc' B I2 J2).
  - exact (continuous_lemma _ _ _ M _ _ _ _ _ _ Hg A3 Hc Hc' B I3 J3).
Qed.

(** Close to the axis the transverse fields are proportional to the distance from
    it, at equal xi. *)
Theorem C26_towards_axis w p p' v v' : well_formed w -> gets w p v -> gets w p' v' ->
  covered (grid_of w) (lon p) (radius p) -> covered (grid_of w) (lon p') (radius p') ->
  lon p = lon p' -> radius p <= node_r (grid_of w) 0 -> radius p' <= node_r (grid_of w) 0 ->
  e_radial p v * radius p' = e_radial p' v' * radius p /\
  b_azimuthal p v * radius p' = b_azimuthal p' v' * radius p.
Proof.
  intros Hw Hv Hv' Hc Hc' E H H'. pose proof (proper_grid w Hw) as Hg.
  destruct (gets_inside w p v Hw Hv Hc) as (I1 & _ & I3 & _).
  destruct (gets_inside w p' v' Hw Hv' Hc') as (J1 & _ & J3 & _).
  rewrite E in *. split; eapply axis_slope; eauto.
Qed.

(** A particle exactly on axis, even outside the grid, makes the call fail. *)
Theorem C26_on_axis_refuted w ps b p : well_formed w -> length ps = length b ->
  In p ps -> radius p = 0 -> w_gather w ps b = Fault ZeroDivision.
Proof. exact (on_axis_lemma w ps b p). Qed.

(** Gathering a scalar (laser envelope in the cold fluid model). *)
Theorem C26_scalar g a l : proper g -> guards g a ->
  exists V, gather_field_cyl_linear a (args_of g) l = Ok (map V l) /\
    forall p, (covered g (lon p) (radius p) ->
                 interpolates g false (inner a) (lon p) (radius p) (V p)) /\
              (~ covered g (lon p) (radius p) -> V p = 0).
Proof. exact (gather_field_lemma g a l). Qed.

(** C62.  Source fields at the plasma particles: within the grid they are those of
    the present position, for any number of particles and whatever the arrays held
    before ... *)
Theorem C62_sources_inside g a1 a2 a3 z l old : proper g ->
  guards g a1 -> guards g a2 -> guards g a3 -> (forall r, In r l -> covered g z r) ->
  length l = length old ->
  exists V1 V2 V3,
    gather_sources_qs_baxevanis a1 a2 a3 (args_of g) z l old =
      Ok (map (fun r => (V1 r, V2 r, V3 r)) l) /\
    forall r, In r l ->
      interpolates g false (inner a1) z r (V1 r) /\
      interpolates g true (inner a2) z r (V2 r) /\
      interpolates g true (inner a3) z r (V3 r).
Proof.
  intros Hg H1 H2 H3 Hl Hlen.
  destruct (gather_sources_lemma g a1 a2 a3 z l old Hg H1 H2 H3) as (V1 & V2 & V3 & E & H).
  { intros r Hr. apply Hl in Hr. apply Hr. }
  exists V1, V2, V3. split; [|intros r Hr; apply H, Hl, Hr].
  rewrite E. f_equal. clear - Hl Hlen. revert old Hlen.
  induction l as [|r l IH]; intros [|o old] Hlen; try discriminate; [reflexivity|].
  cbn [map2 map]. f_equal.
  - rewrite (proj2 (within_true g z r (proj1 (proj2 (Hl r (or_introl eq_refl)))))); [reflexivity|].
    apply Hl. left. reflexivity.
  - apply IH; [intros; apply Hl; right; assumption|]. injection Hlen. auto.
Qed.
(** ... but a plasma particle beyond the last radial point keeps whatever sources
    were gathered before, so they do not only depend on its position. *)
Theorem C62_sources_of_present_position_refuted g a1 a2 a3 z r o :
  0 <= r -> node_r g (gnr g - 1) < r ->
  gather_sources_qs_baxevanis a1 a2 a3 (args_of g) z [r] [o] = Ok [o].
Proof.
  intros H0 H. unfold gather_sources_qs_baxevanis, gather_sources1. cbn [combine traverse fst snd].
  rewrite (proj2 (within_false g z r H0)); [reflexivity|]. intros [_ [_ C]]. lra.
Qed.

(** C27.  Regridding: the new values are those of the piecewise bilinear function
    through the old ones. *)
Theorem C27_regrid a ximin ximax rmax nz nr nz' nr' : ximin < ximax -> 0 < rmax ->
  (2 <= nz)%Z -> (2 <= nr)%Z -> (2 <= nz')%Z -> (2 <= nr')%Z -> rows a = nz -> cols a = nr ->
  let g := laser_grid ximin ximax rmax nz nr in
  let g' := laser_grid ximin ximax rmax nz' nr' in
  exists V : R -> R -> R,
    (forall z r, ximin <= z <= ximax -> 0 <= r <= rmax -> continues g (cell a) z r (V z r)) /\
    regrid a ximin ximax rmax nz nr nz' nr' =
      Ok (map (fun i => map (fun j => V (node_z g' i) (node_r g' j)) (indices nr'))
              (indices nz')).
Proof.
  intros H1 H2 H3 H4 H5 H6 Ha Hb g g'.
  exists (regridded a g). exact (regrid_lemma a _ _ _ _ _ _ _ H1 H2 H3 H4 H5 H6 Ha Hb).
Qed.

(** Exact for a + b z + c r + d z r, up to the axis and to r_max. *)
Theorem C27_exact a ximin ximax rmax nz nr nz' nr' c0 cz cr czr : ximin < ximax -> 0 < rmax ->
  (2 <= nz)%Z -> (2 <= nr)%Z -> (2 <= nz')%Z -> (2 <= nr')%Z -> rows a = nz -> cols a = nr ->
  let g := laser_grid ximin ximax rmax nz nr in
  let g' := laser_grid ximin ximax rmax nz' nr' in
  bilinear_values g (cell a) c0 cz cr czr ->
  regrid a ximin ximax rmax nz nr nz' nr' =
    Ok (map (fun i => map (fun j => c0 + cz * node_z g' i + cr * node_r g' j
                                    + czr * node_z g' i * node_r g' j) (indices nr'))
            (indices nz')).
Proof.
  intros H1 H2 H3 H4 H5 H6 Ha Hb g g' B.
  destruct (regrid_lemma a ximin ximax rmax nz nr nz' nr' H1 H2 H3 H4 H5 H6 Ha Hb) as [C E].
  rewrite E. f_equal. apply map_ext_in. intros i Hi. apply in_indices in Hi.
  apply map_ext_in. intros j Hj. apply in_indices in Hj.
  pose proof (laser_grid_z_range ximin ximax rmax nz' nr' i H1 H5 Hi) as Rz.
  assert (Rr : 0 < node_r (laser_grid ximin ximax rmax nz' nr') j < rmax)
    by (apply laser_grid_r_range; [assumption|lia|assumption]).
  eapply (continues_exact g (cell a)); [apply laser_grid_proper; assumption| |apply C; [assumption|lra]|assumption].
  assert (1 < IZR nz) by (apply IZR_lt; lia).
  assert (node_z g 0 = ximin) as -> by (unfold node_z, g, laser_grid; cbn; ring).
  assert (node_z g (gnz g - 1) = ximax) as ->; [|assumption].
  unfold node_z, g, laser_grid; cbn [gz0 gdz gnz]. rewrite minus_IZR. field. lra.
Qed.

(** The same grid: the same array. *)
Theorem C27_same_grid a ximin ximax rmax nz nr : ximin < ximax -> 0 < rmax ->
  (2 <= nz)%Z -> (2 <= nr)%Z -> rows a = nz -> cols a = nr ->
  regrid a ximin ximax rmax nz nr nz nr =
    Ok (map (fun i => map (fun j => cell a i j) (indices nr)) (indices nz)).
Proof.
  intros H1 H2 H3 H4 Ha Hb.
  destruct (regrid_lemma a ximin ximax rmax nz nr nz nr H1 H2 H3 H4 H3 H4 Ha Hb) as [C E].
  rewrite E. f_equal. apply map_ext_in. intros i Hi. apply in_indices in Hi.
  apply map_ext_in. intros j Hj. apply in_indices in Hj.
  pose proof (laser_grid_z_range ximin ximax rmax nz nr i H1 H3 Hi) as Rz.
  assert (Rr : 0 < node_r (laser_grid ximin ximax rmax nz nr) j < rmax)
    by (apply laser_grid_r_range; [assumption|lia|assumption]).
  eapply (continues_node (laser_grid ximin ximax rmax nz nr));
    [apply laser_grid_proper; assumption|assumption|assumption|apply C; [assumption|lra]].
Qed.

(** ** The hypotheses can be met *)
Definition ex_w : rz :=
  let f i j := IZR (i + j) in mkrz 2 0 1 2 2 (guarded 2 2 f) (guarded 2 2 f) (guarded 2 2 f).
Example ex_C26_wf : well_formed ex_w.
Proof. unfold well_formed, allocated; cbn. repeat split; try lra; lia. Qed.
Lemma ex_radius : radius (1, 0, 1 / 2) = 1.
Proof. cbn. replace (1 * 1 + 0 * 0) with 1 by ring. apply sqrt_1. Qed.
Example ex_C26_covered : covered (grid_of ex_w) (lon (1, 0, 1 / 2)) (radius (1, 0, 1 / 2)).
Proof. rewrite ex_radius. unfold covered, node_z, node_r; cbn. lra. Qed.
Example ex_C26 : exists v, gets ex_w (1, 0, 1 / 2) v /\ ez v = 5.
Proof.
  exists (value_of ex_w (1, 0, 1 / 2)).
  assert (H : gets ex_w (1, 0, 1 / 2) (value_of ex_w (1, 0, 1 / 2)))
    by (apply gets_value; [exact ex_C26_wf|rewrite ex_radius; lra]).
  split; [exact H|].
  destruct (gets_inside _ _ _ ex_C26_wf H ex_C26_covered) as (_ & I & _).
  rewrite ex_radius in I.
  destruct (I 0%Z) as [J _]; [cbn; lia|unfold node_z; cbn; lra|].
  rewrite (J 0%Z); [|cbn; lia|unfold node_r; cbn; lra].
  unfold bilinear, inner, node_z, node_r; cbn. lra.
Qed.
Example ex_C27 : regrid (mka 2 2 (fun i j => IZR (10 * i + j))) 0 1 2 2 2 2 2
                 = Ok [[0; 1]; [10; 11]].
Proof. rewrite C27_same_grid by (try lra; try lia; reflexivity). reflexivity. Qed.

Print Assumptions C26_gathering_adds.
Print Assumptions C26_outside.
Print Assumptions C26_inside.
Print Assumptions C26_grid_point.
Print Assumptions C26_exact.
Print Assumptions C26_between.
Print Assumptions C26_continuous.
Print Assumptions C26_towards_axis.
Print Assumptions C26_on_axis_refuted.
Print Assumptions C26_scalar.
Print Assumptions C62_sources_inside.
Print Assumptions C62_sources_of_present_position_refuted.
Print Assumptions C27_regrid.
Print Assumptions C27_exact.
Print Assumptions C27_same_grid.
