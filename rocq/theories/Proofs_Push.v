(** Lemmas about the pushers. *)
From Coq Require Import Reals List Permutation Lia Lra Psatz.
From Verif Require Import Model_Push Spec_Push.
Import ListNotations.
Open Scope R_scope.

Lemma map2_length {A B C} (f : A -> B -> C) a : forall b,
  length a = length b -> length (map2 f a b) = length a.
Proof. induction a; intros [|v b] H; simpl in *; try lia; auto. Qed.
Lemma map2_map_r {A B C D} (f : A -> B -> C) (g : D -> B) a : forall b,
  map2 f a (map g b) = map2 (fun u v => f u (g v)) a b.
Proof. induction a; intros [|v b]; simpl; auto. rewrite IHa. reflexivity. Qed.
Lemma map2_map_l {A B C D} (f : A -> B -> C) (g : D -> A) a : forall b,
  map2 f (map g a) b = map2 (fun u v => f (g u) v) a b.
Proof. induction a; intros [|v b]; simpl; auto. rewrite IHa. reflexivity. Qed.
Lemma map2_diag {A C} (f : A -> A -> C) a : map2 f a a = map (fun u => f u u) a.
Proof. induction a; simpl; auto. rewrite IHa. reflexivity. Qed.
Lemma map2_ext {A B C} (f g : A -> B -> C) a : (forall u v, f u v = g u v) ->
  forall b, map2 f a b = map2 g a b.
Proof. intros H. induction a; intros [|v b]; simpl; auto. rewrite IHa, H. reflexivity. Qed.

Lemma part_eq p q : x p = x q -> y p = y q -> xi p = xi q -> px p = px q ->
  py p = py q -> pz p = pz q -> p = q.
Proof. destruct p, q; simpl; intros; subst; reflexivity. Qed.
Lemma em_eq f g : ex f = ex g -> ey f = ey g -> ez f = ez g -> bx f = bx g ->
  by_ f = by_ g -> bz f = bz g -> f = g.
Proof. destruct f, g; simpl; intros; subst; reflexivity. Qed.

Lemma c_pos : 0 < c_SI.
Proof. unfold c_SI; lra. Qed.
Lemma sq_pos3 a b c : 0 < 1 + (a * a + b * b + c * c).
Proof. nra. Qed.
Lemma gamma_pos p : 0 < gamma p.
Proof. apply sqrt_lt_R0, sq_pos3. Qed.

(** ** Rotation step of the Boris scheme *)
Definition rot (t v : vec) : vec :=
  let '(t1, t2, t3) := t in
  let s := 2 / (1 + (t1 * t1 + t2 * t2 + t3 * t3)) in
  vadd3 v (cross (vadd3 v (cross v t)) (scal s t)).
Definition dot (a b : vec) : R :=
  let '(a1, a2, a3) := a in let '(b1, b2, b3) := b in a1 * b1 + a2 * b2 + a3 * b3.

Lemma vec_eq (a1 a2 a3 b1 b2 b3 : R) : a1 = b1 -> a2 = b2 -> a3 = b3 ->
  (a1, a2, a3) = (b1, b2, b3).
Proof. intros; subst; reflexivity. Qed.

Lemma rot_norm t v : dot (rot t v) (rot t v) = dot v v.
Proof.
  destruct t as [[t1 t2] t3], v as [[v1 v2] v3]. unfold rot, dot, cross, vadd3, scal.
  assert (H := sq_pos3 t1 t2 t3). field. lra.
Qed.
Lemma rot_inv t v : rot (scal (-1) t) (rot t v) = v.
Proof.
  destruct t as [[t1 t2] t3], v as [[v1 v2] v3]. unfold rot, dot, cross, vadd3, scal.
  assert (H := sq_pos3 t1 t2 t3).
  assert (H2 : 1 + (-1 * t1 * (-1 * t1) + -1 * t2 * (-1 * t2) + -1 * t3 * (-1 * t3)) =
               1 + (t1 * t1 + t2 * t2 + t3 * t3)) by ring.
  rewrite H2. apply vec_eq; field; lra.
Qed.
Lemma rot_zero v : rot (0, 0, 0) v = v.
Proof.
  destruct v as [[v1 v2] v3]. unfold rot, cross, vadd3, scal. apply vec_eq; field.
Qed.

(** Momentum after [push_momentum1] in vector form. *)
Definition boris_p (k : R) (e b v : vec) : vec :=
  let v1 := vadd3 v (scal k e) in
  let g := c_SI / sqrt (1 + dot v1 v1) in
  vadd3 (rot (scal (k * g) b) v1) (scal k e).

Lemma push_momentum1_vec dt qm p f :
  push_momentum1 dt qm p f =
  let '(a, b, c) := boris_p (qm * dt / 2) (e_field f) (b_field f) (momentum p) in
  mkp (x p) (y p) (xi p) a b c.
Proof.
  destruct p, f. unfold push_momentum1, boris_p, momentum, e_field, b_field, rot, cross,
    vadd3, scal, dot. simpl.
  set (k := qm * dt / 2).
  replace (1 + ((px + k * ex) * (px + k * ex) + (py + k * ey) * (py + k * ey) +
             (pz + k * ez) * (pz + k * ez))) with
    (1 + ((px + k * ex) * ((px + k * ex) * 1) + (py + k * ey) * ((py + k * ey) * 1) +
         (pz + k * ez) * ((pz + k * ez) * 1))) by ring.
  set (g := c_SI / sqrt _).
  set (D := 1 + (k * g * bx * (k * g * bx) + k * g * by_ * (k * g * by_) + k * g * bz * (k * g * bz))).
  replace (1 + k * g * bx * (k * g * bx * 1) + k * g * by_ * (k * g * by_ * 1) +
           k * g * bz * (k * g * bz * 1)) with D by (unfold D; ring).
  apply part_eq; simpl; try reflexivity; unfold Rdiv; ring.
Qed.

Lemma boris_p_norm k b v : dot (boris_p k (0, 0, 0) b v) (boris_p k (0, 0, 0) b v) = dot v v.
Proof.
  unfold boris_p.
  assert (E : vadd3 v (scal k (0, 0, 0)) = v)
    by (destruct v as [[? ?] ?]; simpl; apply vec_eq; ring).
  rewrite E. set (w := rot _ _).
  assert (E2 : vadd3 w (scal k (0, 0, 0)) = w)
    by (destruct w as [[? ?] ?]; simpl; apply vec_eq; ring).
  rewrite E2. apply rot_norm.
Qed.

Lemma boris_p_noB k e v :
  boris_p k e (0, 0, 0) v = vadd3 v (scal (2 * k) e).
Proof.
  unfold boris_p.
  assert (E : forall g, scal g (0, 0, 0) = (0, 0, 0))
    by (intros; simpl; apply vec_eq; ring).
  rewrite E, rot_zero. destruct v as [[? ?] ?], e as [[? ?] ?]; simpl; apply vec_eq; ring.
Qed.

Lemma boris_p_rev k e b v : boris_p (- k) e b (boris_p k e b v) = v.
Proof.
  unfold boris_p.
  set (v1 := vadd3 v (scal k e)). set (g := c_SI / sqrt (1 + dot v1 v1)).
  set (w := rot (scal (k * g) b) v1).
  assert (E1 : vadd3 (vadd3 w (scal k e)) (scal (- k) e) = w).
  { destruct w as [[? ?] ?], e as [[? ?] ?]; simpl; apply vec_eq; ring. }
  rewrite E1.
  assert (E2 : dot w w = dot v1 v1) by apply rot_norm.
  rewrite E2. fold g.
  assert (E3 : scal (- k * g) b = scal (-1) (scal (k * g) b)).
  { destruct b as [[? ?] ?]; simpl; apply vec_eq; ring. }
  rewrite E3. unfold w at 1. rewrite rot_inv. unfold v1.
  destruct v as [[? ?] ?], e as [[? ?] ?]; simpl; apply vec_eq; ring.
Qed.

Lemma boris_p_zero k v : boris_p k (0, 0, 0) (0, 0, 0) v = v.
Proof.
  rewrite boris_p_noB. destruct v as [[? ?] ?]; simpl; apply vec_eq; ring.
Qed.

(** ** Half push of the position *)
Lemma half_push_vec dt p : half_position_push1 dt p = drift (dt / 2) p.
Proof.
  unfold half_position_push1, drift, velocity, gamma, momentum, scal.
  replace (1 + (px p * px p + py p * py p + pz p * pz p)) with
    (1 + (px p ^ 2 + py p ^ 2 + pz p ^ 2)) by ring.
  apply part_eq; simpl; try reflexivity; lra.
Qed.
Lemma drift_momentum dt p : momentum (drift dt p) = momentum p.
Proof. reflexivity. Qed.
Lemma drift_velocity dt p : velocity (drift dt p) = velocity p.
Proof. reflexivity. Qed.
Lemma drift_add a b p : drift a (drift b p) = drift (a + b) p.
Proof.
  unfold drift. change (velocity (let '(vx, vy, vz) := velocity p in _)) with (velocity p).
  destruct (velocity p) as [[vx vy] vz] eqn:E. apply part_eq; simpl; ring.
Qed.
Lemma drift_zero p : drift 0 p = p.
Proof.
  unfold drift. destruct (velocity p) as [[vx vy] vz]. apply part_eq; simpl; ring.
Qed.

(** One particle pushed with the Boris scheme in the field [G]. *)
Definition boris1 (qm : R) (G : pos -> R -> em) (t dt : R) (p : part) : part :=
  let p1 := drift (dt / 2) p in
  drift (dt / 2) (push_momentum1 dt qm p1 (G (pos_of p1) (t + dt / 2))).

Lemma boris_map q m fields G t dt l b : gathers fields G -> length l = length b ->
  fst (apply_boris_pusher q m fields t dt l b) = map (boris1 (q / (m * c_SI)) G t dt) l /\
  length (snd (apply_boris_pusher q m fields t dt l b)) = length l.
Proof.
  intros HG Hl. unfold apply_boris_pusher, half_position_push, push_momentum. simpl.
  rewrite HG by (rewrite !map_length; exact Hl).
  rewrite map_map, map2_map_r, map2_map_l. split.
  - rewrite map2_map_r, map2_diag, map_map. apply map_ext. intros p.
    unfold boris1. rewrite !half_push_vec. reflexivity.
  - rewrite !map_length. reflexivity.
Qed.

(** Per-particle facts. *)
Lemma boris1_pos_field qm G t dt p :
  let p1 := drift (dt / 2) p in
  let f := G (pos_of p1) (t + dt / 2) in
  momentum (boris1 qm G t dt p) =
  boris_p (qm * dt / 2) (e_field f) (b_field f) (momentum p).
Proof.
  simpl. unfold boris1. rewrite drift_momentum, push_momentum1_vec, drift_momentum.
  destruct (boris_p _ _ _ _) as [[a b] c]. reflexivity.
Qed.

Lemma pmod_dot p : pmod p = sqrt (dot (momentum p) (momentum p)).
Proof. reflexivity. Qed.

Lemma boris1_modulus qm G t dt p :
  (forall r s, e_field (G r s) = (0, 0, 0)) ->
  pmod (boris1 qm G t dt p) = pmod p.
Proof.
  intros H. rewrite !pmod_dot, boris1_pos_field, H, boris_p_norm. reflexivity.
Qed.

Lemma boris1_free qm t dt p : boris1 qm (fun _ _ => em0) t dt p = drift dt p.
Proof.
  unfold boris1. rewrite push_momentum1_vec. simpl e_field. simpl b_field.
  rewrite boris_p_zero.
  assert (E : (let '(a, b, c) := momentum (drift (dt / 2) p) in
    mkp (x (drift (dt / 2) p)) (y (drift (dt / 2) p)) (xi (drift (dt / 2) p)) a b c) =
    drift (dt / 2) p) by (destruct (drift (dt / 2) p); reflexivity).
  rewrite E, drift_add. f_equal. field.
Qed.

Lemma boris1_rev qm G t t' dt p : (forall r s s', G r s = G r s') ->
  boris1 qm G t' (- dt) (boris1 qm G t dt p) = p.
Proof.
  intros HG. unfold boris1.
  set (p1 := drift (dt / 2) p).
  set (f := G (pos_of p1) (t + dt / 2)).
  set (p2 := push_momentum1 dt qm p1 f).
  replace (- dt / 2) with (- (dt / 2)) by field.
  assert (E1 : drift (- (dt / 2)) (drift (dt / 2) p2) = p2).
  { rewrite drift_add. replace (- (dt / 2) + dt / 2) with 0 by ring. apply drift_zero. }
  rewrite E1.
  assert (Ep : pos_of p2 = pos_of p1).
  { unfold p2. rewrite push_momentum1_vec. destruct (boris_p _ _ _ _) as [[? ?] ?]. reflexivity. }
  rewrite Ep, (HG _ _ (t + dt / 2)). fold f.
  assert (E2 : push_momentum1 (- dt) qm p2 f = p1).
  { rewrite push_momentum1_vec.
    assert (Em : momentum p2 = boris_p (qm * dt / 2) (e_field f) (b_field f) (momentum p1)).
    { unfold p2. rewrite push_momentum1_vec. destruct (boris_p _ _ _ _) as [[? ?] ?]. reflexivity. }
    rewrite Em. replace (qm * - dt / 2) with (- (qm * dt / 2)) by field.
    rewrite boris_p_rev.
    change (x p2) with (x p1). change (y p2) with (y p1). change (xi p2) with (xi p1).
    destruct p1; reflexivity. }
  rewrite E2. unfold p1. rewrite drift_add.
  replace (- (dt / 2) + dt / 2) with 0 by ring. apply drift_zero.
Qed.

Lemma boris1_kick qm G t dt p : (forall r s, b_field (G r s) = (0, 0, 0)) ->
  momentum (boris1 qm G t dt p) =
  vadd3 (momentum p) (scal (qm * dt) (e_field (G (pos_of (drift (dt / 2) p)) (t + dt / 2)))).
Proof.
  intros H. rewrite boris1_pos_field, H, boris_p_noB. f_equal. f_equal. field.
Qed.

(** ** RK4 *)
Lemma calculate_k_lorentz q m G t p :
  calculate_k1 (q / (m * c_SI)) p (G (pos_of p) t) = lorentz q m G t p.
Proof.
  unfold calculate_k1, lorentz, velocity, gamma, momentum, scal, cross, vadd3, e_field, b_field.
  replace (1 + (px p * px p + py p * py p + pz p * pz p)) with
    (1 + px p ^ 2 + py p ^ 2 + pz p ^ 2) by ring.
  set (g := c_SI / sqrt _). apply part_eq; simpl; ring.
Qed.

Section RK4.
  Variables (q m : R) (fields : list field) (G : pos -> R -> em) (t dt : R).
  Hypothesis HG : gathers fields G.
  Variable l : list part.
  Let qm := q / (m * c_SI).

  Lemma stage_k co t' b : length co = length b ->
    map2 (calculate_k1 qm) co (gather_fields fields (map pos_of co) t' b) =
    map (lorentz q m G t') co.
  Proof.
    intros Hb. rewrite HG by (rewrite map_length; exact Hb).
    rewrite map_map, map2_map_r, map2_diag. apply map_ext. intros p.
    apply calculate_k_lorentz.
  Qed.
  Lemma stage_len co t' b : length co = length b ->
    length (gather_fields fields (map pos_of co) t' b) = length co.
  Proof.
    intros Hb. rewrite HG by (rewrite map_length; exact Hb). rewrite !map_length.
    reflexivity.
  Qed.

  Definition at_stage (K D : part -> part) (a : rk_arrays) : Prop :=
    r_k a = map K l /\ r_push a = map D l /\ length (r_fld a) = length l.

  Lemma stage_0 a : length l = length (r_fld a) ->
    at_stage (lorentz q m G t) (fun u => lift1 (fun k => k * (1 / 6)) (lorentz q m G t u))
      (rk4_stage qm fields t dt l a 0).
  Proof.
    intros Hl. unfold at_stage, rk4_stage. cbn [r_k r_push r_fld].
    rewrite stage_k by exact Hl. unfold initialize_push. rewrite map_map.
    split; [reflexivity|]. split; [reflexivity|]. apply stage_len; exact Hl.
  Qed.

  Definition fac1 (i : nat) : R := match i with 3%nat => 1 | _ => 0.5 end.
  Definition fac2 (i : nat) : R := match i with 3%nat => 1 / 6 | _ => 2 / 6 end.
  Definition tim (i : nat) : R := match i with 3%nat => t + dt | _ => t + dt / 2 end.

  Lemma stage_S K D a i : at_stage K D a -> (i = 1 \/ i = 2 \/ i = 3)%nat ->
    at_stage (fun u => lorentz q m G (tim i) (lift2 (fun x0 kx => x0 + dt * kx * fac1 i) u (K u)))
      (fun u => lift2 (fun dx kx => dx + kx * fac2 i) (D u)
         (lorentz q m G (tim i) (lift2 (fun x0 kx => x0 + dt * kx * fac1 i) u (K u))))
      (rk4_stage qm fields t dt l a i).
  Proof.
    intros (H1 & H2 & H3) Hi.
    assert (E : rk4_stage qm fields t dt l a i =
      let co := update_coord l dt (r_k a) (fac1 i) in
      let f := gather_fields fields (map pos_of co) (tim i) (r_fld a) in
      let k := map2 (calculate_k1 qm) co f in
      mkrk co (update_push (r_push a) k (fac2 i)) k f).
    { destruct Hi as [->|[->| ->]]; reflexivity. }
    rewrite E. unfold at_stage. cbn [r_k r_push r_fld].
    unfold update_coord. rewrite H1, map2_map_r, map2_diag.
    rewrite stage_k by (rewrite map_length; lia).
    rewrite map_map. split; [reflexivity|]. split.
    - unfold update_push. rewrite H2, map2_map_l, map2_map_r, map2_diag. reflexivity.
    - rewrite stage_len; rewrite map_length; lia.
  Qed.
End RK4.

Lemma half_step p k dt :
  lift2 (fun x0 kx => x0 + dt * kx * 0.5) p k = padd p (pscal (dt / 2) k).
Proof.
  unfold lift2, padd, pscal. replace 0.5 with (/ 2) by lra.
  apply part_eq; simpl; field.
Qed.
Lemma full_step p k dt :
  lift2 (fun x0 kx => x0 + dt * kx * 1) p k = padd p (pscal dt k).
Proof. unfold lift2, padd, pscal. apply part_eq; simpl; ring. Qed.

Lemma rk4_map q m fields G t dt l a : gathers fields G -> length l = length (r_fld a) ->
  fst (apply_rk4_pusher q m fields t dt l a) =
  map (classical_rk4 (lorentz q m G) t dt) l.
Proof.
  intros HG Hl. unfold apply_rk4_pusher. cbn [fold_left fst].
  pose proof (stage_0 q m fields G t dt HG l a Hl) as S0.
  pose proof (stage_S q m fields G t dt HG l _ _ _ 1%nat S0 ltac:(auto)) as S1.
  pose proof (stage_S q m fields G t dt HG l _ _ _ 2%nat S1 ltac:(auto)) as S2.
  pose proof (stage_S q m fields G t dt HG l _ _ _ 3%nat S2 ltac:(auto)) as S3.
  destruct S3 as (_ & E & _). rewrite E. clear E S0 S1 S2.
  unfold apply_push. rewrite map2_map_r, map2_diag. apply map_ext. intros p.
  unfold classical_rk4. cbn [fac1 fac2 tim].
  set (k1 := lorentz q m G t p). rewrite (half_step p k1).
  set (k2 := lorentz q m G (t + dt / 2) (padd p (pscal (dt / 2) k1))).
  rewrite (half_step p k2).
  set (k3 := lorentz q m G (t + dt / 2) (padd p (pscal (dt / 2) k2))).
  rewrite (full_step p k3).
  set (k4 := lorentz q m G (t + dt) (padd p (pscal dt k3))).
  generalize k4 k3 k2 k1. clear. intros k4 k3 k2 k1.
  unfold lift1, lift2, padd, pscal. apply part_eq; simpl; field.
Qed.

Lemma lorentz_free q m t p : lorentz q m (fun _ _ => em0) t p =
  let '(vx, vy, vz) := velocity p in mkp vx vy (vz - c_SI) 0 0 0.
Proof.
  unfold lorentz. destruct (velocity p) as [[vx vy] vz].
  unfold e_field, b_field, em0, cross, vadd3, scal. apply part_eq; simpl; ring.
Qed.
Lemma velocity_ext p p' : momentum p = momentum p' -> velocity p = velocity p'.
Proof.
  unfold velocity, momentum, gamma. intros H. injection H as -> -> ->. reflexivity.
Qed.
Lemma rk4_free q m t dt p : classical_rk4 (lorentz q m (fun _ _ => em0)) t dt p = drift dt p.
Proof.
  set (v := velocity p).
  set (k := let '(vx, vy, vz) := v in mkp vx vy (vz - c_SI) 0 0 0).
  assert (H : forall s t', lorentz q m (fun _ _ => em0) t' (padd p (pscal s k)) = k).
  { intros s t'. rewrite lorentz_free. unfold k.
    assert (E : velocity (padd p (pscal s k)) = v).
    { apply velocity_ext. unfold k, momentum. destruct v as [[? ?] ?]. simpl.
      apply vec_eq; ring. }
    unfold k in E. rewrite E. reflexivity. }
  assert (H0 : lorentz q m (fun _ _ => em0) t p = k) by apply lorentz_free.
  unfold classical_rk4. rewrite H0. rewrite !H.
  unfold drift. fold v. unfold k. destruct v as [[vx vy] vz].
  apply part_eq; simpl; field.
Qed.

(** ** Gathering *)
Definition em_add (v w : em) : em :=
  mke (ex v + ex w) (ey v + ey w) (ez v + ez w) (bx v + bx w) (by_ v + by_ w) (bz v + bz w).

Lemma gather_adds fields gs : Forall2 adds fields gs -> forall ps t b v,
  length ps = length b -> b = map v ps ->
  fold_left (fun b f => f ps t b) fields b =
  map (fun p => em_add (v p) (em_sum (map (fun g => g p t) gs))) ps.
Proof.
  induction 1 as [|f g fs gs Hf Hr IH]; intros ps t b v Hb Ev; simpl.
  - subst b. apply map_ext. intros p. unfold em_add, em_sum. apply em_eq; simpl; ring.
  - rewrite (Hf ps t b Hb). subst b. rewrite map2_map_r, map2_diag.
    rewrite (IH ps t _ (fun p => em_add (v p) (g p t))).
    + apply map_ext. intros p. unfold em_add, em_sum. apply em_eq; simpl; ring.
    + rewrite map_length. reflexivity.
    + reflexivity.
Qed.

Lemma reset_map {A} (ps : list A) b : length ps = length b ->
  reset_particle_fields b = map (fun _ => em0) ps.
Proof.
  revert b. induction ps as [|p ps IH]; intros [|v b] H; simpl in *; try lia; auto.
  f_equal. apply IH. lia.
Qed.

Lemma superposition_lemma fields gs : Forall2 adds fields gs ->
  gathers fields (fun p t => em_sum (map (fun g => g p t) gs)).
Proof.
  intros H ps t b Hb. unfold gather_fields.
  rewrite (gather_adds fields gs H ps t _ (fun _ => em0)).
  - apply map_ext. intros p. unfold em_add. apply em_eq; simpl; ring.
  - unfold reset_particle_fields. rewrite map_length. exact Hb.
  - apply reset_map. exact Hb.
Qed.

Lemma gathers_nil : gathers [] (fun _ _ => em0).
Proof. intros ps t b Hb. unfold gather_fields. simpl. apply reset_map. exact Hb. Qed.

(** A lone analytical field is gathered as written, also if it assigns. *)
Lemma gathers_analytical c :
  gathers [analytical c] (fun p t =>
    mke (c_ex c p t 0) (c_ey c p t 0) (c_ez c p t 0)
        (c_bx c p t 0) (c_by c p t 0) (c_bz c p t 0)).
Proof.
  intros ps t b Hb. unfold gather_fields. simpl. rewrite (reset_map ps b Hb).
  unfold analytical. rewrite map2_map_r, map2_diag. reflexivity.
Qed.

Lemma gathers_first c fields gs : Forall2 adds fields gs ->
  gathers (analytical c :: fields) (fun p t =>
    em_add (mke (c_ex c p t 0) (c_ey c p t 0) (c_ez c p t 0)
        (c_bx c p t 0) (c_by c p t 0) (c_bz c p t 0))
      (em_sum (map (fun g => g p t) gs))).
Proof.
  intros H ps t b Hb. unfold gather_fields. simpl.
  rewrite (reset_map ps b Hb).
  unfold analytical. rewrite map2_map_r, map2_diag.
  erewrite (gather_adds fields gs H ps t).
  2:{ rewrite map_length. reflexivity. }
  2:{ reflexivity. }
  reflexivity.
Qed.

Lemma quadrupole_adds k : adds (quadrupole_field k)
  (fun p _ => mke 0 0 0 (- k * snd (fst p)) (- k * fst (fst p)) 0).
Proof.
  intros ps t b _. unfold quadrupole_field, analytical. apply map2_ext.
  intros p v. unfold no_field. apply em_eq; simpl; ring.
Qed.
Lemma linear_b_theta_adds k : adds (linear_b_theta k)
  (fun p _ => mke 0 0 0 (- k * snd (fst p)) (k * fst (fst p)) 0).
Proof.
  intros ps t b _. unfold linear_b_theta, analytical. apply map2_ext.
  intros p v. unfold no_field. apply em_eq; simpl; ring.
Qed.

(** ** Selections *)
Lemma select_map (f : part -> part) idx l :
  (forall i, In i idx -> (i < length l)%nat) ->
  map f (select idx l) = select idx (map f l).
Proof.
  intros H. unfold select. rewrite map_map. apply map_ext_in. intros i Hi.
  specialize (H i Hi). rewrite (nth_indep (map f l) _ (f (mkp 0 0 0 0 0 0)))
    by (rewrite map_length; exact H).
  rewrite map_nth. reflexivity.
Qed.

(** ** Several pushes *)
Lemma boris_steps_free q m dts : forall t l b, length l = length b ->
  fst (boris_steps q m [] t dts (l, b)) = map (drift (total dts)) l.
Proof.
  induction dts as [|dt r IH]; intros t l b Hb; simpl.
  - rewrite <- (map_id l) at 1. apply map_ext. intros p. symmetry. apply drift_zero.
  - destruct (boris_map q m [] (fun _ _ => em0) t dt l b gathers_nil Hb) as [H1 H2].
    destruct (apply_boris_pusher q m [] t dt l b) as [l' b'] eqn:E. simpl in H1, H2.
    rewrite IH.
    + subst l'. rewrite map_map. apply map_ext. intros p.
      rewrite boris1_free, drift_add. f_equal. unfold total. simpl. ring.
    + subst l'. rewrite map_length. lia.
Qed.

Lemma boris_steps_modulus q m fields G : gathers fields G ->
  (forall r s, e_field (G r s) = (0, 0, 0)) -> forall dts t l b, length l = length b ->
  map pmod (fst (boris_steps q m fields t dts (l, b))) = map pmod l.
Proof.
  intros HG HE. induction dts as [|dt r IH]; intros t l b Hb; simpl; auto.
  destruct (boris_map q m fields G t dt l b HG Hb) as [H1 H2].
  destruct (apply_boris_pusher q m fields t dt l b) as [l' b'] eqn:E. simpl in H1, H2.
  rewrite IH.
  - subst l'. rewrite map_map. apply map_ext. intros p. apply boris1_modulus. exact HE.
  - subst l'. rewrite map_length. lia.
Qed.

Lemma boris_rev q m fields G t t' dt l b b' : gathers fields G ->
  (forall r s s', G r s = G r s') -> length l = length b -> length l = length b' ->
  fst (apply_boris_pusher q m fields t' (- dt)
         (fst (apply_boris_pusher q m fields t dt l b)) b') = l.
Proof.
  intros HG HS Hb Hb'.
  destruct (boris_map q m fields G t dt l b HG Hb) as [-> _].
  match goal with |- fst (apply_boris_pusher _ _ _ _ _ ?l2 _) = _ =>
    destruct (boris_map q m fields G t' (- dt) l2 b' HG) as [-> _] end.
  - rewrite map_length. exact Hb'.
  - rewrite map_map. rewrite <- (map_id l) at 2. apply map_ext. intros p.
    apply boris1_rev. exact HS.
Qed.

Lemma boris_p_implicit k e b v :
  let v' := boris_p k e b v in
  let g := sqrt (1 + dot (vadd3 v (scal k e)) (vadd3 v (scal k e))) in
  vadd3 v' (scal (-1) v) =
  scal (2 * k) (vadd3 e (cross (scal (c_SI / g) (scal (/ 2) (vadd3 v v'))) b)).
Proof.
  intros v' g. unfold v', boris_p. fold g.
  set (h := c_SI / g). clearbody h. clear.
  destruct v as [[v1 v2] v3], e as [[e1 e2] e3], b as [[b1 b2] b3].
  unfold rot, cross, vadd3, scal.
  assert (H := sq_pos3 (k * h * b1) (k * h * b2) (k * h * b3)).
  apply vec_eq; field; lra.
Qed.

Lemma pusher_select (P : list part -> list em -> list part) (f : part -> part) :
  (forall l b, length l = length b -> P l b = map f l) ->
  forall l b, length l = length b ->
  (forall idx b', (forall i, In i idx -> (i < length l)%nat) -> length b' = length idx ->
     P (select idx l) b' = select idx (P l b)) /\
  (forall l2 b2 b3, length l2 = length b2 -> length b3 = (length l + length l2)%nat ->
     P (l ++ l2) b3 = P l b ++ P l2 b2) /\
  (forall l2 b2, Permutation l l2 -> length l2 = length b2 -> Permutation (P l b) (P l2 b2)).
Proof.
  intros H l b Hb. split; [|split].
  - intros idx b' Hi Hl. rewrite (H l b Hb), H.
    + apply select_map. exact Hi.
    + unfold select. rewrite map_length. lia.
  - intros l2 b2 b3 H2 H3. rewrite (H l b Hb), (H l2 b2 H2), H.
    + apply map_app.
    + rewrite app_length. lia.
  - intros l2 b2 Hp H2. rewrite (H l b Hb), (H l2 b2 H2). apply Permutation_map. exact Hp.
Qed.

Lemma em_sum_perm l l' : Permutation l l' -> em_sum l = em_sum l'.
Proof.
  intros H. unfold em_sum.
  assert (P : forall c : em -> R, fold_right Rplus 0 (map c l) = fold_right Rplus 0 (map c l')).
  { intros c. induction H; simpl; try lra. }
  rewrite !P. reflexivity.
Qed.

Lemma forall2_perm {A B} (R : A -> B -> Prop) l1 l2 m1 : Forall2 R l1 m1 ->
  Permutation l1 l2 -> exists m2, Forall2 R l2 m2 /\ Permutation m1 m2.
Proof.
  intros H P. revert m1 H. induction P; intros m1 H.
  - inversion H; subst. exists []. auto.
  - inversion H as [|u v ls ms Huv Hls]; subst. destruct (IHP _ Hls) as (m2 & ? & ?).
    exists (v :: m2). auto.
  - inversion H as [|u v ls ms Huv Hls]; subst.
    inversion Hls as [|u2 v2 ls2 ms2 Huv2 Hls2]; subst. eexists. split.
    + constructor; [eassumption|]. constructor; eassumption.
    + constructor.
  - destruct (IHP1 _ H) as (m2 & ? & ?). destruct (IHP2 _ H0) as (m3 & ? & ?).
    exists m3. split; auto. eapply Permutation_trans; eassumption.
Qed.

Lemma forall2_map {A B} (P : A -> B -> Prop) (f : A -> B) l :
  (forall p, P p (f p)) -> Forall2 P l (map f l).
Proof. intros H. induction l; simpl; constructor; auto. Qed.

Lemma drift_pos dt p : (x (drift dt p), y (drift dt p), xi (drift dt p)) =
  vadd3 (x p, y p, xi p) (scal dt (vadd3 (velocity p) (0, 0, - c_SI))).
Proof.
  unfold drift. destruct (velocity p) as [[a b] c]. unfold vadd3, scal.
  cbn [x y xi]. apply vec_eq; ring.
Qed.
