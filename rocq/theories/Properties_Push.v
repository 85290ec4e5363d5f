(** Properties C19-C25 and C55-C57: particle pushers and gathered fields. *)
From Coq Require Import Reals List Permutation Lia Lra.
From Verif Require Import Model_Push Spec_Push Proofs_Push.
Import ListNotations.
Open Scope R_scope.

(** ** C19 *)
(** However many Boris pushes, of whatever lengths, in fields without electric
    part: the modulus of each particle's momentum is what it was. *)
Theorem C19_boris_magnetic_fields_do_no_work :
  forall q m fields G t dts l b,
  gathers fields G -> (forall r s, e_field (G r s) = (0, 0, 0)) ->
  length l = length b ->
  map pmod (fst (boris_steps q m fields t dts (l, b))) = map pmod l.
Proof. intros. eapply boris_steps_modulus; eassumption. Qed.

(** ** C20 *)
(** One push without fields. *)
Theorem C20_boris_free_push :
  forall q m t dt l b, length l = length b ->
  fst (apply_boris_pusher q m [] t dt l b) =
  map (fun p => let g := sqrt (1 + (px p ^ 2 + py p ^ 2 + pz p ^ 2)) in
         mkp (x p + c_SI * px p / g * dt) (y p + c_SI * py p / g * dt)
             (xi p + c_SI * (pz p / g - 1) * dt) (px p) (py p) (pz p)) l.
Proof.
  intros q m t dt l b H.
  destruct (boris_map q m [] (fun _ _ => em0) t dt l b gathers_nil H) as [-> _].
  apply map_ext. intros p. rewrite boris1_free. unfold drift, velocity, gamma, momentum, scal.
  replace (1 + (px p * px p + py p * py p + pz p * pz p)) with
    (1 + (px p ^ 2 + py p ^ 2 + pz p ^ 2)) by ring.
  cbv zeta. apply part_eq; cbn [x y xi px py pz]; unfold Rdiv; ring.
Qed.
(** The way a flight is cut into steps does not matter. *)
Theorem C20_boris_free_steps_add_up :
  forall q m t dts t' dt l b b', length l = length b -> length l = length b' ->
  dt = total dts ->
  fst (boris_steps q m [] t dts (l, b)) = fst (apply_boris_pusher q m [] t' dt l b').
Proof.
  intros q m t dts t' dt l b b' H H' E. rewrite boris_steps_free by exact H.
  destruct (boris_map q m [] (fun _ _ => em0) t' dt l b' gathers_nil H') as [-> _].
  subst dt. apply map_ext. intros p. symmetry. apply boris1_free.
Qed.

(** ** C21 *)
Theorem C21_boris_time_reversal :
  forall q m fields G t t' dt l b b',
  gathers fields G -> (forall r s s', G r s = G r s') ->
  length l = length b -> length l = length b' ->
  fst (apply_boris_pusher q m fields t' (- dt)
         (fst (apply_boris_pusher q m fields t dt l b)) b') = l.
Proof. exact boris_rev. Qed.
(** Different bunches stay different. *)
Theorem C21_boris_injective :
  forall q m fields G t dt l1 l2 b1 b2,
  gathers fields G -> (forall r s s', G r s = G r s') ->
  length l1 = length b1 -> length l2 = length b2 ->
  fst (apply_boris_pusher q m fields t dt l1 b1) =
  fst (apply_boris_pusher q m fields t dt l2 b2) -> l1 = l2.
Proof.
  intros q m fields G t dt l1 l2 b1 b2 HG HS H1 H2 E.
  assert (L : length l1 = length l2).
  { destruct (boris_map q m fields G t dt l1 b1 HG H1) as [E1 _].
    destruct (boris_map q m fields G t dt l2 b2 HG H2) as [E2 _].
    rewrite E1, E2 in E. apply (f_equal (@length _)) in E.
    rewrite !map_length in E. exact E. }
  rewrite <- (boris_rev q m fields G t t dt l1 b1 b1 HG HS H1 H1).
  rewrite <- (boris_rev q m fields G t t dt l2 b2 b2 HG HS H2 H2).
  rewrite E.
  destruct (boris_map q m fields G t dt l2 b2 HG H2) as [E2 _].
  rewrite E2.
  match goal with |- fst (apply_boris_pusher _ _ _ _ _ ?l3 _) = _ =>
    destruct (boris_map q m fields G t (- dt) l3 b1 HG) as [-> _];
    [rewrite map_length; lia|];
    destruct (boris_map q m fields G t (- dt) l3 b2 HG) as [-> _];
    [rewrite map_length; lia|] end.
  reflexivity.
Qed.

(** ** C22 *)
Theorem C22_boris_electric_kick :
  forall q m fields G t dt l b,
  gathers fields G -> (forall r s, b_field (G r s) = (0, 0, 0)) ->
  length l = length b ->
  map momentum (fst (apply_boris_pusher q m fields t dt l b)) =
  map (fun p => vadd3 (momentum p)
         (scal (q / (m * c_SI) * dt)
            (e_field (G (pos_of (drift (dt / 2) p)) (t + dt / 2))))) l.
Proof.
  intros q m fields G t dt l b HG HB Hl.
  destruct (boris_map q m fields G t dt l b HG Hl) as [-> _]. rewrite map_map.
  apply map_ext. intros p. apply boris1_kick. exact HB.
Qed.

(** ** C57 *)
(** The new momentum p' of every particle solves the centred difference equation
    (p' - p) / dt = q/(m c) (E + v x B) with v = c (p + p')/2 / g, the fields at
    the half-step position and time and g the Lorentz factor after half of the
    electric kick; the position moves for half a step with the old and for half a
    step with the new velocity. *)
Theorem C57_boris_is_the_centred_lorentz_force :
  forall q m fields G t dt l b,
  gathers fields G -> length l = length b ->
  let k := q / (m * c_SI) in
  Forall2 (fun p p' =>
      let f := G (pos_of (drift (dt / 2) p)) (t + dt / 2) in
      let '(u1, u2, u3) := vadd3 (momentum p) (scal (k * dt / 2) (e_field f)) in
      let g := sqrt (1 + (u1 * u1 + u2 * u2 + u3 * u3)) in
      let v := scal (c_SI / g) (scal (/ 2) (vadd3 (momentum p) (momentum p'))) in
      vadd3 (momentum p') (scal (-1) (momentum p)) =
        scal (k * dt) (vadd3 (e_field f) (cross v (b_field f))) /\
      (x p', y p', xi p') =
        vadd3 (x p, y p, xi p)
          (scal (dt / 2) (vadd3 (vadd3 (velocity p) (velocity p')) (0, 0, - 2 * c_SI))))
    l (fst (apply_boris_pusher q m fields t dt l b)).
Proof.
  intros q m fields G t dt l b HG Hl k.
  destruct (boris_map q m fields G t dt l b HG Hl) as [-> _]. fold k. clear Hl.
  apply forall2_map. intros p. cbv zeta.
  set (f := G (pos_of (drift (dt / 2) p)) (t + dt / 2)).
  pose proof (boris1_pos_field k G t dt p) as M. cbv zeta in M. fold f in M.
  destruct (vadd3 (momentum p) (scal (k * dt / 2) (e_field f))) as [[u1 u2] u3] eqn:U.
  split.
  - rewrite M.
    pose proof (boris_p_implicit (k * dt / 2) (e_field f) (b_field f) (momentum p)) as I.
    cbv zeta in I. rewrite U in I. unfold dot in I at 1.
    replace (2 * (k * dt / 2)) with (k * dt) in I by field. exact I.
  - unfold boris1. fold f. rewrite push_momentum1_vec.
    destruct (boris_p _ _ _ _) as [[a c] d].
    set (p2 := mkp _ _ _ a c d).
    rewrite drift_pos, drift_velocity.
    assert (E : (x p2, y p2, xi p2) =
      (x (drift (dt / 2) p), y (drift (dt / 2) p), xi (drift (dt / 2) p))) by reflexivity.
    rewrite E, drift_pos. clear.
    destruct (velocity p2) as [[w1 w2] w3], (velocity p) as [[v1 v2] v3].
    unfold vadd3, scal.
    apply vec_eq; field.
Qed.

(** ** C23 *)
Theorem C23_rk4_is_the_classical_method :
  forall q m fields G t dt l a,
  gathers fields G -> length l = length (r_fld a) ->
  fst (apply_rk4_pusher q m fields t dt l a) =
  map (classical_rk4 (lorentz q m G) t dt) l.
Proof. exact rk4_map. Qed.
Theorem C23_rk4_free_drift :
  forall q m t dt l a, length l = length (r_fld a) ->
  fst (apply_rk4_pusher q m [] t dt l a) = map (drift dt) l.
Proof.
  intros. rewrite (rk4_map q m [] (fun _ _ => em0)) by (auto; apply gathers_nil).
  apply map_ext. intros p. apply rk4_free.
Qed.

(** ** C24 *)
(** [P]: the push of a bunch with either pusher, as a function of its particles
    and of the old contents of its work arrays. *)
Definition independent (P : list part -> list em -> list part) : Prop :=
  forall l b, length l = length b ->
  (forall idx b', (forall i, In i idx -> (i < length l)%nat) -> length b' = length idx ->
     P (select idx l) b' = select idx (P l b)) /\
  (forall l2 b2 b3, length l2 = length b2 -> length b3 = (length l + length l2)%nat ->
     P (l ++ l2) b3 = P l b ++ P l2 b2) /\
  (forall l2 b2, Permutation l l2 -> length l2 = length b2 ->
     Permutation (P l b) (P l2 b2)).
Theorem C24_boris_particles_independent :
  forall q m fields G t dt, gathers fields G ->
  independent (fun l b => fst (apply_boris_pusher q m fields t dt l b)).
Proof.
  intros q m fields G t dt HG.
  intros l b Hb.
  eapply (pusher_select (fun l b => fst (apply_boris_pusher q m fields t dt l b))); [|exact Hb].
  intros l0 b0 H0. apply (boris_map q m fields G t dt l0 b0 HG H0).
Qed.
Theorem C24_rk4_particles_independent :
  forall q m fields G t dt co d k, gathers fields G ->
  independent (fun l b => fst (apply_rk4_pusher q m fields t dt l (mkrk co d k b))).
Proof.
  intros q m fields G t dt co d k HG.
  intros l b Hb.
  eapply (pusher_select (fun l b => fst (apply_rk4_pusher q m fields t dt l (mkrk co d k b))));
    [|exact Hb].
  intros l0 b0 H0. apply (rk4_map q m fields G t dt l0 (mkrk co d k b0) HG H0).
Qed.

(** ** C25 *)
Theorem C25_superposition :
  forall fields gs, Forall2 adds fields gs ->
  forall ps t b, length ps = length b ->
  gather_fields fields ps t b =
  map (fun p => em_sum (map (fun g => g p t) gs)) ps.
Proof. exact superposition_lemma. Qed.
Theorem C25_order_and_old_contents_do_not_matter :
  forall fields fields' gs, Forall2 adds fields gs -> Permutation fields fields' ->
  forall ps t b b', length ps = length b -> length ps = length b' ->
  gather_fields fields ps t b = gather_fields fields' ps t b'.
Proof.
  intros fields fields' gs H P ps t b b' Hb Hb'.
  destruct (forall2_perm _ _ _ _ H P) as (gs' & H' & P').
  rewrite (superposition_lemma _ _ H ps t b Hb), (superposition_lemma _ _ H' ps t b' Hb').
  apply map_ext. intros p. apply em_sum_perm, Permutation_map, P'.
Qed.
(** Magnets add to what is already there. *)
Theorem C25_quadrupole_adds : forall k,
  adds (quadrupole_field k) (fun p _ => mke 0 0 0 (- k * snd (fst p)) (- k * fst (fst p)) 0).
Proof. exact quadrupole_adds. Qed.
Theorem C25_azimuthal_field_adds : forall k,
  adds (linear_b_theta k) (fun p _ => mke 0 0 0 (- k * snd (fst p)) (k * fst (fst p)) 0).
Proof. exact linear_b_theta_adds. Qed.
(** One analytical field of any kind, listed first (as the plasma stage does with
    its wakefield), together with fields that add: still the sum. *)
Theorem C25_any_field_first :
  forall c fields gs, Forall2 adds fields gs ->
  exists g, gathers [analytical c] g /\
    gathers (analytical c :: fields)
      (fun p t => em_sum (g p t :: map (fun h => h p t) gs)).
Proof.
  intros c fields gs H. eexists. split; [apply gathers_analytical|].
  intros ps t b Hb. rewrite (gathers_first c fields gs H ps t b Hb).
  apply map_ext. intros p. reflexivity.
Qed.
(** The blowout wakefields assign: two of them do not add up, and the order
    of the list is visible. *)
Theorem C25_blowout_fields_refuted :
  exists d1 d2 ps t b, length ps = length b /\
  let f1 := focusing_blowout 1 1 1 d1 in
  let f2 := focusing_blowout 1 1 1 d2 in
  gather_fields [f1; f2] ps t b <> gather_fields [f2; f1] ps t b.
Proof.
  exists (fun _ => 1), (fun _ => 4), [(1, 0, 0)], 0, [em0]. split; [reflexivity|].
  cbv zeta. unfold gather_fields, focusing_blowout, analytical. simpl. intros H.
  injection H as H _.
  replace (4 * (1 * (1 * 1)) / (1 * 1)) with (2 * 2) in H by field.
  replace (1 * (1 * (1 * 1)) / (1 * 1)) with (1 * 1) in H by field.
  rewrite !sqrt_square in H by lra.
  assert (Hc := c_pos).
  replace (c_SI * (1 / (2 * 1 * c_SI) * (2 * (2 * 1))) * 1) with 2 in H by (field; lra).
  replace (c_SI * (1 / (2 * 1 * c_SI) * (1 * (1 * 1))) * 1) with (1 / 2) in H by (field; lra).
  lra.
Qed.

(** ** C55 *)
(** Force of a quadrupole: x and y are decoupled, linear, of opposite sign. *)
Theorem C55_quadrupole_force :
  forall q m k t p,
  exists G, gathers [quadrupole_field k] G /\
  let f := lorentz q m G t p in
  let '(vx, vy, vz) := velocity p in
  px f = q / (m * c_SI) * k * vz * x p /\
  py f = - (q / (m * c_SI) * k * vz * y p).
Proof.
  intros q m k t p. eexists. split.
  - apply superposition_lemma. constructor; [apply quadrupole_adds|constructor].
  - unfold lorentz. destruct (velocity p) as [[vx vy] vz].
    unfold pos_of, e_field, b_field, em_sum, cross, vadd3, scal. simpl.
    split; ring.
Qed.
(** A positive gradient focuses electrons in x and defocuses them in y. *)
Theorem C55_positive_gradient_focuses_electrons_in_x :
  forall q m k t p, q < 0 -> 0 < m -> 0 < k -> 0 < pz p ->
  exists G, gathers [quadrupole_field k] G /\
  (x p <> 0 -> px (lorentz q m G t p) * x p < 0) /\
  (y p <> 0 -> py (lorentz q m G t p) * y p > 0).
Proof.
  intros q m k t p Hq Hm Hk Hp.
  destruct (C55_quadrupole_force q m k t p) as (G & HG & HF). exists G. split; auto.
  cbv zeta in HF. destruct (velocity p) as [[vx vy] vz] eqn:V. destruct HF as [-> ->].
  unfold velocity, momentum, scal in V. injection V as _ _ Hv.
  assert (Hc := c_pos). assert (Hg := gamma_pos p).
  assert (Hz : 0 < vz).
  { subst vz. apply Rmult_lt_0_compat; auto. apply Rdiv_lt_0_compat; auto. }
  assert (Hmc : 0 < m * c_SI) by (apply Rmult_lt_0_compat; auto).
  assert (Hn : 0 < (- q) / (m * c_SI) * k * vz).
  { repeat apply Rmult_lt_0_compat; auto; try lra. apply Rinv_0_lt_compat; auto. }
  replace (- q / (m * c_SI)) with (- (q / (m * c_SI))) in Hn by (field; lra).
  set (z := q / (m * c_SI)) in *. clearbody z.
  split; intros Hx.
  - assert (0 < x p * x p) by (apply Rsqr_pos_lt in Hx; exact Hx).
    assert (0 < (- z * k * vz) * (x p * x p)) by (apply Rmult_lt_0_compat; auto). lra.
  - assert (0 < y p * y p) by (apply Rsqr_pos_lt in Hx; exact Hx).
    assert (0 < (- z * k * vz) * (y p * y p)) by (apply Rmult_lt_0_compat; auto). lra.
Qed.
(** The field of an active plasma lens is azimuthal, grows linearly with r, and
    a positive strength focuses electrons in both planes alike. *)
Theorem C55_plasma_lens_field :
  forall s, exists G, gathers [apl_field s] G /\
  (forall t p, let f := G (pos_of p) t in
     r_b_r f p = 0 /\ r_b_theta f p = - s * (x p * x p + y p * y p) /\
     e_field f = (0, 0, 0) /\ bz f = 0) /\
  (forall q m t p, q < 0 -> 0 < m -> 0 < s -> 0 < pz p ->
     exists K, 0 < K /\ px (lorentz q m G t p) = - K * x p /\
                        py (lorentz q m G t p) = - K * y p).
Proof.
  intros s. eexists. split.
  { apply superposition_lemma. constructor; [apply linear_b_theta_adds|constructor]. }
  split.
  - intros t p. unfold pos_of, e_field, em_sum, r_b_r, r_b_theta. simpl.
    split; [ring|]. split; [ring|]. split; [apply vec_eq; ring|ring].
  - intros q m t p Hq Hm Hs Hp.
    destruct (velocity p) as [[vx vy] vz] eqn:V.
    pose proof V as V'. unfold velocity, momentum, scal in V'. injection V' as _ _ Hv.
    assert (Hc := c_pos). assert (Hg := gamma_pos p).
    assert (Hz : 0 < vz).
    { subst vz. apply Rmult_lt_0_compat; auto. apply Rdiv_lt_0_compat; auto. }
    assert (Hmc : 0 < m * c_SI) by (apply Rmult_lt_0_compat; auto).
    exists (- (q / (m * c_SI)) * s * vz). split.
    + replace (- (q / (m * c_SI))) with ((- q) / (m * c_SI)) by (field; lra).
      repeat apply Rmult_lt_0_compat; auto; try lra. apply Rinv_0_lt_compat; auto.
    + unfold lorentz. rewrite V. unfold pos_of, e_field, b_field, em_sum, cross, vadd3, scal.
      simpl. split; ring.
Qed.

(** ** C56 *)
(** The focusing field is that of a uniform ion column of the local density:
    E_r = n e r / (2 eps0), with the density taken at the particle. *)
Theorem C56_ion_column :
  forall e m_e eps0 density, 0 < e -> 0 < m_e -> 0 < eps0 -> (forall z, 0 <= density z) ->
  gathers [focusing_blowout e m_e eps0 density]
    (fun r t => let '(x0, y0, xi0) := r in
       let n := density (t * c_SI + xi0) in
       mke (n * e / (2 * eps0) * x0) (n * e / (2 * eps0) * y0) 0 0 0 0).
Proof.
  intros e m_e eps0 density He Hm Hz Hd ps t b Hb.
  unfold focusing_blowout. rewrite (gathers_analytical _ ps t b Hb).
  apply map_ext. intros [[x0 y0] xi0]. cbn [c_ex c_ey c_ez c_bx c_by c_bz fst snd].
  unfold no_field. set (n := density (t * c_SI + xi0)).
  assert (Hc := c_pos).
  assert (S : sqrt (n * e ^ 2 / (m_e * eps0)) ^ 2 = n * e ^ 2 / (m_e * eps0)).
  { replace (sqrt (n * e ^ 2 / (m_e * eps0)) ^ 2) with
      (sqrt (n * e ^ 2 / (m_e * eps0)) * sqrt (n * e ^ 2 / (m_e * eps0))) by ring.
    apply sqrt_sqrt. unfold Rdiv. apply Rmult_le_pos.
    - apply Rmult_le_pos; [apply Hd|]. apply pow_le. lra.
    - apply Rlt_le, Rinv_0_lt_compat, Rmult_lt_0_compat; auto. }
  rewrite S. apply em_eq; cbn [ex ey ez bx by_ bz]; try reflexivity; field; lra.
Qed.
(** The user's accelerating field: at time 0 the value [lon_field] at [xi_fields]
    with the given slope along xi; later the same field, slipped back by
    (c - v_g) t.  The transverse field is [c foc_strength r]. *)
Theorem C56_custom_blowout :
  forall density vg e0 slope foc xi0,
  gathers [custom_blowout density vg e0 slope foc xi0]
    (fun r t => let '(x1, y1, xi1) := r in
       let slipped := xi1 + (c_SI - vg (density (t * c_SI)) * c_SI) * t in
       mke (c_SI * foc * x1) (c_SI * foc * y1) (e0 + slope * (slipped - xi0)) 0 0 0).
Proof.
  intros density vg e0 slope foc xi0 ps t b Hb.
  unfold custom_blowout. rewrite (gathers_analytical _ ps t b Hb).
  apply map_ext. intros [[x1 y1] xi1]. cbn [c_ex c_ey c_ez c_bx c_by c_bz fst snd].
  unfold no_field. apply em_eq; cbn [ex ey ez bx by_ bz]; try reflexivity; ring.
Qed.
(** Simple blowout: the accelerating field changes along xi exactly as the
    focusing field does along x (half of the ion background each), and vanishes
    half a plasma wavelength behind the driver: [l_c + field_offset] at time 0,
    falling behind the speed of light frame by (c - v_g) t. *)
Theorem C56_simple_blowout :
  forall e m_e density w_p vg l_c off, 0 < e ->
  exists G, gathers [simple_blowout e m_e density w_p vg l_c off] G /\
  forall x1 y1 xi1 t,
    let f := G (x1, y1, xi1) t in
    let s := m_e * w_p (density (t * c_SI)) ^ 2 / (2 * e) in
    ex f = s * x1 /\ ey f = s * y1 /\ b_field f = (0, 0, 0) /\
    (forall xi2, ez f - ez (G (x1, y1, xi2) t) = s * (xi1 - xi2)) /\
    (w_p (density (t * c_SI)) <> 0 ->
     ez (G (x1, y1, l_c + off - (c_SI - vg (density (t * c_SI)) * c_SI) * t
                    - PI * c_SI / w_p (density (t * c_SI))) t) = 0).
Proof.
  intros e m_e density w_p vg l_c off He. eexists. split.
  { unfold simple_blowout. apply gathers_analytical. }
  intros x1 y1 xi1 t. assert (Hc := c_pos).
  cbn [c_ex c_ey c_ez c_bx c_by c_bz fst snd ex ey ez bx by_ bz b_field]. unfold no_field.
  split; [field; lra|]. split; [field; lra|]. split; [reflexivity|].
  split.
  - intros xi2.
    match goal with |- ?a * (_ + ?o) - _ = _ =>
      transitivity (a * (xi1 - xi2)); [generalize o; intros; ring|field; lra] end.
  - intros Hw. field. repeat split; try lra; exact Hw.
Qed.

(** ** Non-vacuity *)
Definition two : list part := [mkp 1 2 0 3 0 4; mkp (-1) 0 5 0 1 100].
Example ex_fields : gathers [quadrupole_field 100; linear_b_theta 7]
  (fun p _ => mke 0 0 0 (- 100 * snd (fst p) + - 7 * snd (fst p))
                        (- 100 * fst (fst p) + 7 * fst (fst p)) 0).
Proof.
  intros ps t b Hb.
  rewrite (superposition_lemma [quadrupole_field 100; linear_b_theta 7]
    [(fun p _ => mke 0 0 0 (- 100 * snd (fst p)) (- 100 * fst (fst p)) 0);
     (fun p _ => mke 0 0 0 (- 7 * snd (fst p)) (7 * fst (fst p)) 0)]).
  - apply map_ext. intros p. unfold em_sum. simpl. apply em_eq; simpl; ring.
  - constructor; [apply quadrupole_adds|]. constructor; [apply linear_b_theta_adds|constructor].
  - exact Hb.
Qed.
(** The two magnets above satisfy the hypotheses of C19 and C21, and they do
    change the momenta. *)
Example ex_C19 : forall r s, e_field
  ((fun (p : pos) (_ : R) => mke 0 0 0 (- 100 * snd (fst p) + - 7 * snd (fst p))
                        (- 100 * fst (fst p) + 7 * fst (fst p)) 0) r s) = (0, 0, 0).
Proof. reflexivity. Qed.
Example ex_buffers : length two = length [em0; mke 1 2 3 4 5 6].
Proof. reflexivity. Qed.
Example ex_C22 : gathers [focusing_blowout 1 1 1 (fun _ => 1)]
  (fun r _ => let '(x0, y0, _) := r in
     mke (1 * 1 / (2 * 1) * x0) (1 * 1 / (2 * 1) * y0) 0 0 0 0) .
Proof.
  intros ps t b Hb. rewrite (C56_ion_column 1 1 1 (fun _ => 1)) by (auto; intros; lra).
  reflexivity.
Qed.
Example ex_C25 : Forall2 adds [quadrupole_field 100; linear_b_theta 7]
  [(fun p _ => mke 0 0 0 (- 100 * snd (fst p)) (- 100 * fst (fst p)) 0);
   (fun p _ => mke 0 0 0 (- 7 * snd (fst p)) (7 * fst (fst p)) 0)].
Proof. constructor; [apply quadrupole_adds|]. constructor; [apply linear_b_theta_adds|constructor]. Qed.
Example ex_C55 : (-1 < 0) /\ 0 < 1 /\ 0 < 100 /\ 0 < pz (mkp 1 1 0 0 0 5).
Proof. simpl. lra. Qed.

Print Assumptions C19_boris_magnetic_fields_do_no_work.
Print Assumptions C20_boris_free_push.
Print Assumptions C20_boris_free_steps_add_up.
Print Assumptions C21_boris_time_reversal.
Print Assumptions C21_boris_injective.
Print Assumptions C22_boris_electric_kick.
Print Assumptions C57_boris_is_the_centred_lorentz_force.
Print Assumptions C23_rk4_is_the_classical_method.
Print Assumptions C23_rk4_free_drift.
Print Assumptions C24_boris_particles_independent.
Print Assumptions C24_rk4_particles_independent.
Print Assumptions C25_superposition.
Print Assumptions C25_order_and_old_contents_do_not_matter.
Print Assumptions C25_quadrupole_adds.
Print Assumptions C25_azimuthal_field_adds.
Print Assumptions C25_any_field_first.
Print Assumptions C25_blowout_fields_refuted.
Print Assumptions C55_quadrupole_force.
Print Assumptions C55_positive_gradient_focuses_electrons_in_x.
Print Assumptions C55_plasma_lens_field.
Print Assumptions C56_ion_column.
Print Assumptions C56_custom_blowout.
Print Assumptions C56_simple_blowout.
