(** Model of the particle pushers and of the gathering of fields:
    wake_t/particles/push/boris_pusher.py, wake_t/particles/push/runge_kutta_4.py,
    wake_t/fields/gather.py, wake_t/fields/analytical_field.py and the analytical fields of
    wake_t/physics_models. Arithmetic is exact (reals).  The parallel loops over particles
    are maps: each iteration writes only its own entry.  Simplification: the six coordinate
    arrays of a bunch (and likewise the work arrays) are one list of records. *)
From Coq Require Import Reals List.
Import ListNotations.
Open Scope R_scope.

(** boris_pusher.py:7, 54: scipy.constants.c *)
Definition c_SI : R := 299792458.

(** boris_pusher.py:33-34: position, momentum of a macroparticle, [m] and units of m c *)
Record part := mkp { x : R; y : R; xi : R; px : R; py : R; pz : R }.
(** boris_pusher.py:31: gathered fields: entry of the arrays ex, ey, ez, bx, by, bz *)
Record em := mke { ex : R; ey : R; ez : R; bx : R; by_ : R; bz : R }.
(** gather.py:63-68: all fields zero *)
Definition em0 : em := mke 0 0 0 0 0 0.
(** boris_pusher.py:36: where a field is gathered *)
Definition pos := (R * R * R)%type.
(** boris_pusher.py:36: arguments bunch.x, bunch.y, bunch.xi *)
Definition pos_of (p : part) : pos := (x p, y p, xi p).

(** boris_pusher.py:66: loop over the entries of two arrays of equal size *)
Fixpoint map2 {A B C} (f : A -> B -> C) (a : list A) (b : list B) : list C :=
  match a, b with
  | u :: a', v :: b' => f u v :: map2 f a' b'
  | _, _ => []
  end.

(** fields/base.py:19-57 [Field.gather], a field: it receives the
    positions, the time and the six arrays, and modifies the arrays. *)
Definition field := list pos -> R -> list em -> list em.

(** gather.py:59-68 [reset_particle_fields]. *)
Definition reset_particle_fields (b : list em) : list em := map (fun _ => em0) b.

(** gather.py:11-56 [gather_fields]. *)
Definition gather_fields (fields : list field) (ps : list pos) (t : R) (b : list em)
    : list em :=
  fold_left (fun b f => f ps t b) fields (reset_particle_fields b).

(** boris_pusher.py:46-59 [apply_half_position_push], body of the loop. *)
Definition half_position_push1 (dt : R) (p : part) : part :=
  let c_over_gamma_i := c_SI / sqrt (1 + (px p ^ 2 + py p ^ 2 + pz p ^ 2)) in
  mkp (x p + 0.5 * px p * dt * c_over_gamma_i)
      (y p + 0.5 * py p * dt * c_over_gamma_i)
      (xi p + 0.5 * (pz p * c_over_gamma_i - c_SI) * dt)
      (px p) (py p) (pz p).
(** boris_pusher.py:46-59 [apply_half_position_push] *)
Definition half_position_push (dt : R) (l : list part) : list part :=
  map (half_position_push1 dt) l.

(** boris_pusher.py:62-99 [push_momentum], body of the loop. *)
Definition push_momentum1 (dt q_over_mc : R) (p : part) (f : em) : part :=
  let k := q_over_mc * dt / 2 in
  let p_minus_x := px p + k * ex f in
  let p_minus_y := py p + k * ey f in
  let p_minus_z := pz p + k * ez f in
  let c_over_gamma_med :=
    c_SI / sqrt (1 + (p_minus_x ^ 2 + p_minus_y ^ 2 + p_minus_z ^ 2)) in
  let t_x := k * c_over_gamma_med * bx f in
  let t_y := k * c_over_gamma_med * by_ f in
  let t_z := k * c_over_gamma_med * bz f in
  let cons_s := 2 / (1 + t_x ^ 2 + t_y ^ 2 + t_z ^ 2) in
  let s_x := cons_s * t_x in
  let s_y := cons_s * t_y in
  let s_z := cons_s * t_z in
  let p_xc1 := p_minus_x + p_minus_y * t_z - p_minus_z * t_y in
  let p_yc1 := p_minus_y + p_minus_z * t_x - p_minus_x * t_z in
  let p_zc1 := p_minus_z + p_minus_x * t_y - p_minus_y * t_x in
  mkp (x p) (y p) (xi p)
      (p_minus_x + p_yc1 * s_z - p_zc1 * s_y + k * ex f)
      (p_minus_y + p_zc1 * s_x - p_xc1 * s_z + k * ey f)
      (p_minus_z + p_xc1 * s_y - p_yc1 * s_x + k * ez f).
(** boris_pusher.py:62-99 [push_momentum] *)
Definition push_momentum (dt q_over_mc : R) (l : list part) (b : list em) : list part :=
  map2 (push_momentum1 dt q_over_mc) l b.

(** boris_pusher.py:14-43 [apply_boris_pusher].  [b]: the field arrays of the
    bunch, with whatever an earlier push left in them. *)
Definition apply_boris_pusher (q_species m_species : R) (fields : list field)
    (t dt : R) (l : list part) (b : list em) : list part * list em :=
  let q_over_mc := q_species / (m_species * c_SI) in
  let l1 := half_position_push dt l in
  let b1 := gather_fields fields (map pos_of l1) (t + dt / 2) b in
  let l2 := push_momentum dt q_over_mc l1 b1 in
  (half_position_push dt l2, b1).

(** runge_kutta_4.py:151-175 [calculate_k], body of the loop: the k arrays. *)
Definition calculate_k1 (q_over_mc : R) (p : part) (f : em) : part :=
  let c_over_gamma_i := c_SI / sqrt (1 + px p ^ 2 + py p ^ 2 + pz p ^ 2) in
  let vx_i := px p * c_over_gamma_i in
  let vy_i := py p * c_over_gamma_i in
  let vz_i := pz p * c_over_gamma_i in
  mkp vx_i vy_i (vz_i - c_SI)
      (q_over_mc * (ex f + vy_i * bz f - vz_i * by_ f))
      (q_over_mc * (ey f - vx_i * bz f + vz_i * bx f))
      (q_over_mc * (ez f + vx_i * by_ f - vy_i * bx f)).

(** runge_kutta_4.py:90-95, 105-110, 113-118: one of the functions applied to the six
    coordinates *)
Definition lift2 (f : R -> R -> R) (p q : part) : part :=
  mkp (f (x p) (x q)) (f (y p) (y q)) (f (xi p) (xi q))
      (f (px p) (px q)) (f (py p) (py q)) (f (pz p) (pz q)).
(** runge_kutta_4.py:82-87: one of the functions applied to the six coordinates *)
Definition lift1 (f : R -> R) (p : part) : part :=
  mkp (f (x p)) (f (y p)) (f (xi p)) (f (px p)) (f (py p)) (f (pz p)).

(** runge_kutta_4.py:127-130, 90-95 [update_coord] on the six arrays at once *)
Definition update_coord (x_0 : list part) (dt : R) (k : list part) (fac : R) : list part :=
  map2 (lift2 (fun x0 kx => x0 + dt * kx * fac)) x_0 k.
(** runge_kutta_4.py:133-136, 82-87 *)
Definition initialize_push (k : list part) (fac : R) : list part :=
  map (lift1 (fun kx => kx * fac)) k.
(** runge_kutta_4.py:139-142, 105-110 *)
Definition update_push (d k : list part) (fac : R) : list part :=
  map2 (lift2 (fun dx kx => dx + kx * fac)) d k.
(** runge_kutta_4.py:145-148, 113-118 *)
Definition apply_push (l : list part) (dt : R) (d : list part) : list part :=
  map2 (lift2 (fun x dx => x + dt * dx)) l d.

(** runge_kutta_4.py:48-50: the preallocated arrays: coordinates, accumulated push, k and fields
    *)
Record rk_arrays := mkrk { r_coord : list part; r_push : list part; r_k : list part;
                           r_fld : list em }.

(** runge_kutta_4.py:56-110, one pass [i] of the loop. *)
Definition rk4_stage (q_over_mc : R) (fields : list field) (t dt : R)
    (l : list part) (a : rk_arrays) (i : nat) : rk_arrays :=
  let '(fac1, fac2, t_i) :=
    match i with
    | 0%nat => (1, 1 / 6, t)
    | 3%nat => (1, 1 / 6, t + dt)
    | _ => (0.5, 2 / 6, t + dt / 2)
    end in
  match i with
  | 0%nat =>
      let f := gather_fields fields (map pos_of l) t_i (r_fld a) in
      let k := map2 (calculate_k1 q_over_mc) l f in
      mkrk (r_coord a) (initialize_push k fac2) k f
  | _ =>
      let co := update_coord l dt (r_k a) fac1 in
      let f := gather_fields fields (map pos_of co) t_i (r_fld a) in
      let k := map2 (calculate_k1 q_over_mc) co f in
      mkrk co (update_push (r_push a) k fac2) k f
  end.

(** runge_kutta_4.py:11-118 [apply_rk4_pusher]. *)
Definition apply_rk4_pusher (q_species m_species : R) (fields : list field)
    (t dt : R) (l : list part) (a : rk_arrays) : list part * rk_arrays :=
  let q_over_mc := q_species / (m_species * c_SI) in
  let a' := fold_left (rk4_stage q_over_mc fields t dt l) [0; 1; 2; 3]%nat a in
  (apply_push l dt (r_push a'), a').

(** ** Analytical fields *)

(** analytical_field.py:80-85: each component function receives positions, time
    and one array; components that are not given leave their array alone.
    Simplification: component functions are loops whose iteration [i] reads the
    positions [i] and rewrites entry [i] of its own array, as in the library. *)
Record components := mkcomp {
  c_ex : pos -> R -> R -> R; c_ey : pos -> R -> R -> R; c_ez : pos -> R -> R -> R;
  c_bx : pos -> R -> R -> R; c_by : pos -> R -> R -> R; c_bz : pos -> R -> R -> R }.
(** analytical_field.py:76-78 *)
Definition no_field : pos -> R -> R -> R := fun _ _ v => v.
(** analytical_field.py:97-104 [_gather] *)
Definition analytical (c : components) : field :=
  fun ps t b =>
    map2 (fun p f => mke (c_ex c p t (ex f)) (c_ey c p t (ey f)) (c_ez c p t (ez f))
                         (c_bx c p t (bx f)) (c_by c p t (by_ f)) (c_bz c p t (bz f)))
         ps b.

(** physics_models/em_fields/quadrupole.py:7-41 [QuadrupoleField]. *)
Definition quadrupole_field (foc_gradient : R) : field :=
  let k := - foc_gradient in
  analytical (mkcomp no_field no_field no_field
    (fun p _ b => b + k * snd (fst p)) (fun p _ b => b + k * fst (fst p)) no_field).

(** physics_models/em_fields/linear_b_theta.py:7-43 [LinearBThetaField]. *)
Definition linear_b_theta (k : R) : field :=
  analytical (mkcomp no_field no_field no_field
    (fun p _ b => b - k * snd (fst p)) (fun p _ b => b + k * fst (fst p)) no_field).

(** beamline_elements/active_plasma_lens.py:111: field of the lens. *)
Definition apl_field (foc_strength : R) : field := linear_b_theta (- foc_strength).

(** physics_models/plasma_wakefields/focusing_blowout.py:8-27 [FocusingBlowoutField].  [e],
    [m_e], [eps0]: scipy.constants. *)
Definition focusing_blowout (e m_e eps0 : R) (density : R -> R) : field :=
  let k p t := let z := t * c_SI + snd p in
               let w_p := sqrt (density z * e ^ 2 / (m_e * eps0)) in
               m_e / (2 * e * c_SI) * w_p ^ 2 in
  analytical (mkcomp (fun p t _ => c_SI * k p t * fst (fst p))
                     (fun p t _ => c_SI * k p t * snd (fst p))
                     no_field no_field no_field no_field).

(** physics_models/plasma_wakefields/custom_blowout.py:28-64 [CustomBlowoutWakefield].
    [vg]: [laser.get_group_velocity]. *)
Definition custom_blowout (density : R -> R) (vg : R -> R)
    (lon_field lon_field_slope foc_strength xi_fields : R) : field :=
  let xi_off t := - xi_fields + (1 - vg (density (t * c_SI))) * c_SI * t in
  analytical (mkcomp (fun p t _ => c_SI * foc_strength * fst (fst p))
                     (fun p t _ => c_SI * foc_strength * snd (fst p))
                     (fun p t _ => lon_field + lon_field_slope * (snd p + xi_off t))
                     no_field no_field no_field).

(** physics_models/plasma_wakefields/simple_blowout.py:9-51 [SimpleBlowoutWakefield].
    [w_p]: aptools plasma_frequency of n_p. *)
Definition simple_blowout (e m_e : R) (density : R -> R) (w_p : R -> R) (vg : R -> R)
    (l_c field_offset : R) : field :=
  let n_p t := density (t * c_SI) in
  let g_x t := w_p (n_p t) ^ 2 / 2 * m_e / (e * c_SI) in
  let e_z_p t := w_p (n_p t) ^ 2 / 2 * m_e / e in
  let l_p t := 2 * PI * c_SI / w_p (n_p t) in
  let xi_off t := l_p t / 2 - l_c - field_offset + (1 - vg (n_p t)) * c_SI * t in
  analytical (mkcomp (fun p t _ => c_SI * g_x t * fst (fst p))
                     (fun p t _ => c_SI * g_x t * snd (fst p))
                     (fun p t _ => e_z_p t * (snd p + xi_off t))
                     no_field no_field no_field).
