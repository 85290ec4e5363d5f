(** Vocabulary for the properties of the pushers. *)
From Coq Require Import Reals List Permutation.
From Verif Require Import Model_Push.
Import ListNotations.
Open Scope R_scope.

Definition vec := (R * R * R)%type.
Definition cross (a b : vec) : vec :=
  let '(a1, a2, a3) := a in let '(b1, b2, b3) := b in
  (a2 * b3 - a3 * b2, a3 * b1 - a1 * b3, a1 * b2 - a2 * b1).
Definition vadd3 (a b : vec) : vec :=
  let '(a1, a2, a3) := a in let '(b1, b2, b3) := b in (a1 + b1, a2 + b2, a3 + b3).
Definition scal (k : R) (a : vec) : vec :=
  let '(a1, a2, a3) := a in (k * a1, k * a2, k * a3).
Definition momentum (p : part) : vec := (px p, py p, pz p).
Definition e_field (f : em) : vec := (ex f, ey f, ez f).
Definition b_field (f : em) : vec := (bx f, by_ f, bz f).

(** Modulus of the momentum, Lorentz factor, velocity. *)
Definition pmod (p : part) : R := sqrt (px p * px p + py p * py p + pz p * pz p).
Definition gamma (p : part) : R := sqrt (1 + (px p * px p + py p * py p + pz p * pz p)).
Definition velocity (p : part) : vec := scal (c_SI / gamma p) (momentum p).

(** Straight flight for a time [dt] in the frame that moves with c along z. *)
Definition drift (dt : R) (p : part) : part :=
  let '(vx, vy, vz) := velocity p in
  mkp (x p + vx * dt) (y p + vy * dt) (xi p + (vz - c_SI) * dt) (px p) (py p) (pz p).

(** Equations of motion in the field [G] (position and time to E, B):
    d(x, y, xi)/dt = v - c e_z,  dp/dt = q/(m c) (E + v x B). *)
Definition lorentz (q m : R) (G : pos -> R -> em) (t : R) (p : part) : part :=
  let f := G (pos_of p) t in
  let '(vx, vy, vz) := velocity p in
  let '(fx, fy, fz) :=
    scal (q / (m * c_SI)) (vadd3 (e_field f) (cross (velocity p) (b_field f))) in
  mkp vx vy (vz - c_SI) fx fy fz.

(** Vector space structure on the six coordinates. *)
Definition padd (p q : part) : part :=
  mkp (x p + x q) (y p + y q) (xi p + xi q) (px p + px q) (py p + py q) (pz p + pz q).
Definition pscal (k : R) (p : part) : part :=
  mkp (k * x p) (k * y p) (k * xi p) (k * px p) (k * py p) (k * pz p).

(** The classical Runge-Kutta method of order 4 for dy/dt = f t y. *)
Definition classical_rk4 (f : R -> part -> part) (t dt : R) (y0 : part) : part :=
  let k1 := f t y0 in
  let k2 := f (t + dt / 2) (padd y0 (pscal (dt / 2) k1)) in
  let k3 := f (t + dt / 2) (padd y0 (pscal (dt / 2) k2)) in
  let k4 := f (t + dt) (padd y0 (pscal dt k3)) in
  padd y0 (pscal (dt / 6) (padd k1 (padd (pscal 2 k2) (padd (pscal 2 k3) k4)))).

(** The fields of the list, gathered together, have the value [G] at every
    position and time, whatever the arrays contained before. *)
Definition gathers (fields : list field) (G : pos -> R -> em) : Prop :=
  forall ps t b, length ps = length b ->
    gather_fields fields ps t b = map (fun p => G p t) ps.

(** [f] adds the value [g] to the arrays. *)
Definition adds (f : field) (g : pos -> R -> em) : Prop :=
  forall ps t b, length ps = length b ->
    f ps t b = map2 (fun p v =>
      mke (ex v + ex (g p t)) (ey v + ey (g p t)) (ez v + ez (g p t))
          (bx v + bx (g p t)) (by_ v + by_ (g p t)) (bz v + bz (g p t))) ps b.

(** Sum of field values. *)
Definition em_sum (l : list em) : em :=
  let s c := fold_right Rplus 0 (map c l) in
  mke (s ex) (s ey) (s ez) (s bx) (s by_) (s bz).

(** The particles with the given indices. *)
Definition select (idx : list nat) (l : list part) : list part :=
  map (fun i => nth i l (mkp 0 0 0 0 0 0)) idx.

(** Successive pushes with the steps [dts], each reusing the arrays left by the
    previous one and starting at the time where that one ended. *)
Fixpoint boris_steps (q m : R) (fields : list field) (t : R) (dts : list R)
    (s : list part * list em) : list part * list em :=
  match dts with
  | [] => s
  | dt :: r => boris_steps q m fields (t + dt) r
                 (apply_boris_pusher q m fields t dt (fst s) (snd s))
  end.
Definition total (l : list R) : R := fold_right Rplus 0 l.

(** Radial and azimuthal component of the transverse magnetic field times r. *)
Definition r_b_r (f : em) (p : part) : R := x p * bx f + y p * by_ f.
Definition r_b_theta (f : em) (p : part) : R := x p * by_ f - y p * bx f.
