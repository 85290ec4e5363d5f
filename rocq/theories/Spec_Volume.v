(** Vocabulary for the conservation of phase-space volume. *)
From Coq Require Import Reals List.
Import ListNotations.
From Verif Require Import Model_Push Spec_Push Spec_Conv.
Open Scope R_scope.

(** Determinant of [n] rows of [n] numbers, by expansion along the first row. *)
Fixpoint without (k : nat) (l : list R) : list R :=
  match l, k with
  | [], _ => []
  | _ :: r, O => r
  | a :: r, S k' => a :: without k' r
  end.
Fixpoint expand (minor : nat -> R) (k : nat) (row : list R) : R :=
  match row with
  | [] => 0
  | a :: r => a * minor k - expand minor (S k) r
  end.
Fixpoint determinant (n : nat) (rows : list (list R)) : R :=
  match n, rows with
  | S n', r :: rest => expand (fun k => determinant n' (map (without k) rest)) 0 r
  | _, _ => 1
  end.

(** The six numbers [j] are the gradient at [p] of a function of the coordinates of a particle: near [p]
    the function is linear up to a remainder that is small compared with the distance. *)
Definition scalar (j p p' : part) : R :=
  x j * (x p' - x p) + y j * (y p' - y p) + xi j * (xi p' - xi p) +
  px j * (px p' - px p) + py j * (py p' - py p) + pz j * (pz p' - pz p).
Definition gradient (phi : part -> R) (p j : part) : Prop :=
  forall eps, 0 < eps -> exists d, 0 < d /\ forall p', pdist p' p <= d ->
    Rabs (phi p' - phi p - scalar j p p') <= eps * pdist p' p.

(** Matrix of the derivatives of a map of phase space: the gradients of its six coordinates. *)
Definition jacobian (F : part -> part) (p : part) (J : list part) : Prop :=
  Forall2 (fun u j => gradient (fun p' => u (F p')) p j) [x; y; xi; px; py; pz] J.
Definition row (j : part) : list R := [x j; y j; xi j; px j; py j; pz j].
Definition det (J : list part) : R := determinant 6 (map row J).

(** The map can be differentiated everywhere, and volumes are neither compressed nor dilated. *)
Definition conserves_volume (F : part -> part) : Prop :=
  forall p, (exists J, jacobian F p J) /\ forall J, jacobian F p J -> det J = 1.

(** At time [s] the fields have a gradient everywhere. *)
Definition differentiable (G : pos -> R -> em) (s : R) : Prop :=
  forall r e, In e [ex; ey; ez; bx; by_; bz] -> exists d, forall eps, 0 < eps -> exists a, 0 < a /\
    forall r', rdist r' r <= a -> Rabs (e (G r' s) - e (G r s) - inner d r r') <= eps * rdist r' r.

(** A push of the Boris pusher: the fields, the time at which it starts and the time step.  Pushes one
    after the other, each starting from the particles and field arrays the previous one left. *)
Record boris_push := mkpush { p_fields : list field; p_time : R; p_dt : R }.
Fixpoint push_all (q m : R) (l : list boris_push) (s : list part * list em) : list part * list em :=
  match l with
  | [] => s
  | a :: r => push_all q m r (apply_boris_pusher q m (p_fields a) (p_time a) (p_dt a) (fst s) (snd s))
  end.

(** A magnetic field of 1 T along z, given as an analytical field. *)
Definition uniform_bz : field := analytical (mkcomp no_field no_field no_field no_field no_field (fun _ _ b => b + 1)).
