(** Model of the loops that numba runs on several threads ([prange] in functions compiled
    with [njit_parallel], utilities/numba.py:37-39): particles/push/boris_pusher.py,
    push/runge_kutta_4.py, particles/interpolation.py, fields/gather.py and the components
    of fields/analytical_field.py. Single reads and writes of array entries are atomic and
    happen one after the other in any order the threads may take; [a[i] += v] is a read
    followed by a write.  Threads wait for each other at the end of a loop.  Local
    arithmetic is exact (reals).  The field arrays on the grid and the constants, which no
    loop writes, are parameters.  [initialize_coord] (runge_kutta_4.py:121-124) is never
    called. *)
From Coq Require Import Reals List Bool Arith.
From Verif Require Import Model_Push Model_Interp.
Import ListNotations.
Open Scope R_scope.

(** particle_bunch.py:323-361: coordinates of the particles *)
Inductive axis := AX | AY | AXI | APX | APY | APZ.
(** particle_bunch.py:323-361: components of the fields *)
Inductive comp := EX | EY | EZ | BX | BY | BZ.
(** particle_bunch.py:323-361: the arrays of a bunch and the preallocated ones, all distinct *)
Inductive name :=
| Bunch (a : axis)   (** bunch.x, ... *)
| Field (c : comp)   (** ex, ... *)
| Temp (a : axis)    (** x, ... of get_rk4_arrays *)
| Push (a : axis)    (** dx, ... *)
| Kay (a : axis).    (** k_x, ... *)
(** particle_bunch.py:323-361: which arrays are the same *)
Definition name_eq (a b : name) : {a = b} + {a <> b}.
Proof. decide equality; decide equality. Defined.
(** particle_bunch.py:323-361: content of the arrays *)
Definition mem := name -> nat -> R.
(** boris_pusher.py:57-59, 97-99 [a[i] = v] *)
Definition store (m : mem) (a : name) (i : nat) (v : R) : mem :=
  fun b j => if name_eq a b then (if Nat.eqb i j then v else m b j) else m b j.

(** ** Programs and threads *)
(** utilities/numba.py:37-39: what one iteration of a compiled loop still has to do *)
Inductive prog := Done | Rd (a : name) (i : nat) (k : R -> prog) | Wr (a : name) (i : nat) (v : R) (k : prog).
(** utilities/numba.py:37-39: iteration [i] of a [prange] loop *)
Definition loop_body := nat -> prog.
(** utilities/numba.py:37-39: a thread: what remains of the current iteration, and its further
    iterations *)
Definition thread := (prog * list nat)%type.
(** utilities/numba.py:37-39: one step of one of the threads *)
Inductive step (body : loop_body) : list thread * mem -> list thread * mem -> Prop :=
| s_read l1 l2 a i k r m : step body (l1 ++ (Rd a i k, r) :: l2, m) (l1 ++ (k (m a i), r) :: l2, m)
| s_write l1 l2 a i v k r m : step body (l1 ++ (Wr a i v k, r) :: l2, m) (l1 ++ (k, r) :: l2, store m a i v)
| s_next l1 l2 j r m : step body (l1 ++ (Done, j :: r) :: l2, m) (l1 ++ (body j, r) :: l2, m).
(** utilities/numba.py:37-39: any number of steps, in any order the threads take *)
Inductive steps (body : loop_body) : nat -> list thread * mem -> list thread * mem -> Prop :=
| ss_none c : steps body 0 c c
| ss_more n c c' c'' : step body c c' -> steps body n c' c'' -> steps body (S n) c c''.
(** utilities/numba.py:37-39: the iterations each thread gets *)
Definition start (chunks : list (list nat)) : list thread := map (fun c => (Done, c)) chunks.
(** utilities/numba.py:37-39: the thread has done its iterations *)
Definition finished (t : thread) : Prop := t = (Done, []).

(** ** The loops *)
(** boris_pusher.py:57-59, runge_kutta_4.py:142, 148 [a[i] += v] *)
Definition add (a : name) (i : nat) (v : R) (k : prog) : prog := Rd a i (fun w => Wr a i (w + v) k).

(** runge_kutta_4.py:127-130 *)
Definition update_coord (x x_0 : name) (dt : R) (k_x : name) (fac : R) : loop_body :=
  fun i => Rd x_0 i (fun x0 => Rd k_x i (fun k => Wr x i (x0 + dt * k * fac) Done)).
(** runge_kutta_4.py:133-136 *)
Definition initialize_push (dx k_x : name) (fac : R) : loop_body :=
  fun i => Rd k_x i (fun k => Wr dx i (k * fac) Done).
(** runge_kutta_4.py:139-142 *)
Definition update_push (dx k_x : name) (fac : R) : loop_body :=
  fun i => Rd dx i (fun d => Rd k_x i (fun k => Wr dx i (d + k * fac) Done)).
(** runge_kutta_4.py:145-148 *)
Definition apply_push (x : name) (dt : R) (dx : name) : loop_body :=
  fun i => Rd x i (fun v => Rd dx i (fun d => Wr x i (v + dt * d) Done)).
(** runge_kutta_4.py:151-175; [p]: arrays of the momenta *)
Definition calculate_k (q_over_mc : R) (p : axis -> name) : loop_body :=
  fun i => Rd (p APX) i (fun px_i => Rd (p APY) i (fun py_i => Rd (p APZ) i (fun pz_i =>
    Rd (Field EX) i (fun ex_i => Rd (Field EY) i (fun ey_i => Rd (Field EZ) i (fun ez_i =>
    Rd (Field BX) i (fun bx_i => Rd (Field BY) i (fun by_i => Rd (Field BZ) i (fun bz_i =>
    let c_over_gamma_i := c_SI / sqrt (1 + px_i ^ 2 + py_i ^ 2 + pz_i ^ 2) in
    let vx_i := px_i * c_over_gamma_i in
    let vy_i := py_i * c_over_gamma_i in
    let vz_i := pz_i * c_over_gamma_i in
    Wr (Kay AX) i vx_i (Wr (Kay AY) i vy_i (Wr (Kay AXI) i (vz_i - c_SI)
    (Wr (Kay APX) i (q_over_mc * (ex_i + vy_i * bz_i - vz_i * by_i))
    (Wr (Kay APY) i (q_over_mc * (ey_i - vx_i * bz_i + vz_i * bx_i))
    (Wr (Kay APZ) i (q_over_mc * (ez_i + vx_i * by_i - vy_i * bx_i)) Done)))))))))))))).
(** boris_pusher.py:46-59 *)
Definition apply_half_position_push (dt : R) : loop_body :=
  fun i => Rd (Bunch APX) i (fun px_i => Rd (Bunch APY) i (fun py_i => Rd (Bunch APZ) i (fun pz_i =>
    let c_over_gamma_i := c_SI / sqrt (1 + (px_i ^ 2 + py_i ^ 2 + pz_i ^ 2)) in
    add (Bunch AX) i (0.5 * px_i * dt * c_over_gamma_i)
    (add (Bunch AY) i (0.5 * py_i * dt * c_over_gamma_i)
    (add (Bunch AXI) i (0.5 * (pz_i * c_over_gamma_i - c_SI) * dt) Done))))).
(** boris_pusher.py:62-99 *)
Definition push_momentum (dt q_over_mc : R) : loop_body :=
  let k := q_over_mc * dt / 2 in
  fun i => Rd (Bunch APX) i (fun px_i => Rd (Bunch APY) i (fun py_i => Rd (Bunch APZ) i (fun pz_i =>
    Rd (Field EX) i (fun ex_i => Rd (Field EY) i (fun ey_i => Rd (Field EZ) i (fun ez_i =>
    Rd (Field BX) i (fun bx_i => Rd (Field BY) i (fun by_i => Rd (Field BZ) i (fun bz_i =>
    let p_minus_x := px_i + k * ex_i in
    let p_minus_y := py_i + k * ey_i in
    let p_minus_z := pz_i + k * ez_i in
    let c_over_gamma_med := c_SI / sqrt (1 + (p_minus_x ^ 2 + p_minus_y ^ 2 + p_minus_z ^ 2)) in
    let t_x := k * c_over_gamma_med * bx_i in
    let t_y := k * c_over_gamma_med * by_i in
    let t_z := k * c_over_gamma_med * bz_i in
    let cons_s := 2 / (1 + t_x ^ 2 + t_y ^ 2 + t_z ^ 2) in
    let s_x := cons_s * t_x in
    let s_y := cons_s * t_y in
    let s_z := cons_s * t_z in
    let p_xc1 := p_minus_x + p_minus_y * t_z - p_minus_z * t_y in
    let p_yc1 := p_minus_y + p_minus_z * t_x - p_minus_x * t_z in
    let p_zc1 := p_minus_z + p_minus_x * t_y - p_minus_y * t_x in
    Wr (Bunch APX) i (p_minus_x + p_yc1 * s_z - p_zc1 * s_y + k * ex_i)
    (Wr (Bunch APY) i (p_minus_y + p_zc1 * s_x - p_xc1 * s_z + k * ey_i)
    (Wr (Bunch APZ) i (p_minus_z + p_xc1 * s_y - p_yc1 * s_x + k * ez_i) Done))))))))))).
(** gather.py:59-68 *)
Definition reset_particle_fields : loop_body :=
  fun i => Wr (Field EX) i 0 (Wr (Field EY) i 0 (Wr (Field EZ) i 0
    (Wr (Field BX) i 0 (Wr (Field BY) i 0 (Wr (Field BZ) i 0 Done))))).
(** analytical_field.py:80-85, 99-104: one component of an analytical field; [q]: arrays of the
    positions. Simplification as in Model_Push: iteration [i] reads the positions [i] and
    rewrites entry [i], as in all fields of the library; a component that is not given is a loop
    that changes nothing. *)
Definition component_loop (f : pos -> R -> R -> R) (t : R) (q : axis -> name) (c : comp) : loop_body :=
  fun i => Rd (q AX) i (fun x_i => Rd (q AY) i (fun y_i => Rd (q AXI) i (fun z_i =>
    Rd (Field c) i (fun v => Wr (Field c) i (f (x_i, y_i, z_i) t v) Done)))).
(** particles/interpolation.py:18-87; [out]: the array of zeros that the function allocates. *)
Definition gather_field_loop (fld : arr2) (g : geom) (q : axis -> name) (out : name) : loop_body :=
  fun i => Rd (q AX) i (fun x_i => Rd (q AY) i (fun y_i => Rd (q AXI) i (fun z_i =>
    let r_i := sqrt (x_i ^ 2 + y_i ^ 2) in
    if within g z_i r_i then
      match interpolate4 fld (locate g z_i r_i) 1 with
      | Ok v => Wr out i v Done
      | _ => Done
      end
    else Done))).
(** particles/interpolation.py:90-194; an iteration that raises stops there. *)
Definition gather_main_loop (er ez_ bt : arr2) (g : geom) (q : axis -> name) : loop_body :=
  fun i => Rd (q AX) i (fun x_i => Rd (q AY) i (fun y_i => Rd (q AXI) i (fun z_i =>
    let r_i := sqrt (x_i ^ 2 + y_i ^ 2) in
    if Req_EM_T r_i 0 then Done else
    let inv_r_i := 1 / r_i in
    if within g z_i r_i then
      let p := locate g z_i r_i in
      let wr_corr := if below p then -1 else 1 in
      match interpolate4 er p wr_corr, interpolate4 bt p wr_corr, interpolate4 ez_ p 1 with
      | Ok er_i, Ok bt_i, Ok ez_i =>
          add (Field EX) i (er_i * x_i * inv_r_i)
          (add (Field EY) i (er_i * y_i * inv_r_i)
          (add (Field EZ) i ez_i
          (add (Field BX) i (- bt_i * y_i * inv_r_i)
          (add (Field BY) i (bt_i * x_i * inv_r_i) Done))))
      | _, _, _ => Done
      end
    else Done))).

(** ** The pushers as sequences of loops *)
(** analytical_field.py:97-104, rz_wakefield.py:149-155: a field, as far as gathering is
    concerned *)
Inductive source := Analytical (c : components) | Grid (er ez_ bt : arr2) (g : geom).
(** analytical_field.py:97-104, rz_wakefield.py:149-155 *)
Definition gather_loops (q : axis -> name) (t : R) (s : source) : list loop_body :=
  match s with
  | Analytical c => [component_loop (c_ex c) t q EX; component_loop (c_ey c) t q EY; component_loop (c_ez c) t q EZ;
                     component_loop (c_bx c) t q BX; component_loop (c_by c) t q BY; component_loop (c_bz c) t q BZ]
  | Grid er ez_ bt g => [gather_main_loop er ez_ bt g q]
  end.
(** gather.py:11-56 *)
Definition gather_all (q : axis -> name) (t : R) (fields : list source) : list loop_body :=
  reset_particle_fields :: flat_map (gather_loops q t) fields.
(** boris_pusher.py:14-43 *)
Definition boris_loops (q_species m_species : R) (fields : list source) (t dt : R) : list loop_body :=
  let q_over_mc := q_species / (m_species * c_SI) in
  [apply_half_position_push dt] ++ gather_all Bunch (t + dt / 2) fields ++
  [push_momentum dt q_over_mc; apply_half_position_push dt].
(** runge_kutta_4.py:82-87: the six coordinates *)
Definition axes6 : list axis := [AX; AY; AXI; APX; APY; APZ].
(** runge_kutta_4.py:56-110: one pass of the loop *)
Definition rk4_stage_loops (q_over_mc : R) (fields : list source) (t dt : R) (i : nat) : list loop_body :=
  let '(fac1, fac2, t_i) :=
    match i with
    | 0%nat => (1, 1 / 6, t)
    | 3%nat => (1, 1 / 6, t + dt)
    | _ => (0.5, 2 / 6, t + dt / 2)
    end in
  match i with
  | 0%nat => gather_all Bunch t_i fields ++ [calculate_k q_over_mc Bunch] ++
             map (fun a => initialize_push (Push a) (Kay a) fac2) axes6
  | _ => map (fun a => update_coord (Temp a) (Bunch a) dt (Kay a) fac1) axes6 ++
         gather_all Temp t_i fields ++ [calculate_k q_over_mc Temp] ++
         map (fun a => update_push (Push a) (Kay a) fac2) axes6
  end.
(** runge_kutta_4.py:11-118 [apply_rk4_pusher] *)
Definition rk4_loops (q_species m_species : R) (fields : list source) (t dt : R) : list loop_body :=
  let q_over_mc := q_species / (m_species * c_SI) in
  flat_map (rk4_stage_loops q_over_mc fields t dt) [0; 1; 2; 3]%nat ++
  map (fun a => apply_push (Bunch a) dt (Push a)) axes6.

(** particles/deposition.py:62-66, 86: a loop over one cell that all iterations change, as the
    deposition of charge (compiled with [njit_serial], so that its [prange] is an ordinary loop)
    *)
Definition accumulate (a : name) (v : nat -> R) : loop_body := fun i => add a 0 (v i) Done.
