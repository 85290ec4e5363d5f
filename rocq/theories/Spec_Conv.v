(** Vocabulary for the convergence of tracking: motion in given fields. *)
From Coq Require Import Reals QArith List.
Import ListNotations.
From Coquelicot Require Import Coquelicot.
From Verif Require Model_Tracker.
From Verif Require Import Model_Push Spec_Push.
Open Scope R_scope.

(** Distances: sums over the components. *)
Definition pdist (p q : part) : R :=
  Rabs (x p - x q) + Rabs (y p - y q) + Rabs (xi p - xi q) +
  Rabs (px p - px q) + Rabs (py p - py q) + Rabs (pz p - pz q).
Definition rdist (r s : pos) : R :=
  Rabs (fst (fst r) - fst (fst s)) + Rabs (snd (fst r) - snd (fst s)) + Rabs (snd r - snd s).
Definition em_dist (f g : em) : R :=
  Rabs (ex f - ex g) + Rabs (ey f - ey g) + Rabs (ez f - ez g) +
  Rabs (bx f - bx g) + Rabs (by_ f - by_ g) + Rabs (bz f - bz g).

(** Positions whose coordinates are at most [w]. *)
Definition within (w : R) (r : pos) : Prop :=
  Rabs (fst (fst r)) <= w /\ Rabs (snd (fst r)) <= w /\ Rabs (snd r) <= w.

(** In the box of half width [w] and until time [T], the fields vary at a bounded rate with position and
    time. *)
Definition regular (w T : R) (G : pos -> R -> em) : Prop :=
  exists L, 0 <= L /\ forall r r' t t', within w r -> within w r' -> 0 <= t <= T -> 0 <= t' <= T ->
    em_dist (G r t) (G r' t') <= L * (rdist r r' + Rabs (t - t')).

(** There, the fields halfway between two places and times differ from the mean of the fields by at most
    a constant times the square of the distance. *)
Definition middle (r r' : pos) : pos :=
  ((fst (fst r) + fst (fst r')) / 2, (snd (fst r) + snd (fst r')) / 2, (snd r + snd r') / 2).
Definition mean (f g : em) : em :=
  mke ((ex f + ex g) / 2) ((ey f + ey g) / 2) ((ez f + ez g) / 2)
      ((bx f + bx g) / 2) ((by_ f + by_ g) / 2) ((bz f + bz g) / 2).
Definition smooth (w T : R) (G : pos -> R -> em) : Prop :=
  exists L, 0 <= L /\ forall r r' t t', within w r -> within w r' -> 0 <= t <= T -> 0 <= t' <= T ->
    em_dist (G (middle r r') ((t + t') / 2)) (mean (G r t) (G r' t')) <= L * (rdist r r' + Rabs (t - t')) ^ 2.

(** There, the fields have a gradient in position that varies at a bounded rate: the fields at a second
    place are those at the first one plus the gradient times the displacement, up to a constant times the
    square of the distance. *)
Definition inner (d r r' : pos) : R :=
  fst (fst d) * (fst (fst r') - fst (fst r)) + snd (fst d) * (snd (fst r') - snd (fst r)) + snd d * (snd r' - snd r).
Definition gradients (w T : R) (G : pos -> R -> em) : Prop :=
  exists L, 0 <= L /\ forall e, In e [ex; ey; ez; bx; by_; bz] -> exists D : pos -> R -> pos,
    forall r r' t t', within w r -> within w r' -> 0 <= t <= T -> 0 <= t' <= T ->
    rdist (D r t) (D r' t') <= L * (rdist r r' + Rabs (t - t')) /\
    Rabs (e (G r' t) - e (G r t) - inner (D r t) r r') <= L * rdist r r' ^ 2.

(** [g] has [n] derivatives from 0 to [T], the last of them bounded. *)
Fixpoint derivable_times (n : nat) (T : R) (g : R -> R) : Prop :=
  match n with
  | O => exists M, forall s, 0 <= s <= T -> Rabs (g s) <= M
  | S n' => exists g', (forall s, 0 <= s <= T -> is_derive g s (g' s)) /\ derivable_times n' T g'
  end.

(** [Y] is a motion of a particle of charge [q] and mass [m] in the fields [G] from 0 to [T]: it obeys
    the equations of motion of Spec_Push. *)
Definition motion (q m : R) (G : pos -> R -> em) (T : R) (Y : R -> part) : Prop :=
  forall t, 0 <= t <= T ->
  is_derive (fun s => x (Y s)) t (x (lorentz q m G t (Y t))) /\
  is_derive (fun s => y (Y s)) t (y (lorentz q m G t (Y t))) /\
  is_derive (fun s => xi (Y s)) t (xi (lorentz q m G t (Y t))) /\
  is_derive (fun s => px (Y s)) t (px (lorentz q m G t (Y t))) /\
  is_derive (fun s => py (Y s)) t (py (lorentz q m G t (Y t))) /\
  is_derive (fun s => pz (Y s)) t (pz (lorentz q m G t (Y t))).

(** In every box and until every time the fields are regular, smooth and have gradients, and the
    coordinates of every motion in the box can be differentiated as often as one likes. *)
Definition well_behaved (G : pos -> R -> em) : Prop :=
  forall w T, regular w T G /\ smooth w T G /\ gradients w T G /\
  forall q m Y, motion q m G T Y -> (forall t, 0 <= t <= T -> within w (pos_of (Y t))) ->
  forall n u, In u [x; y; xi; px; py; pz] -> derivable_times n T (fun s => u (Y s)).

(** The bunch number [i] is pushed in steps of at most [d]: its time step is fixed and at most [d], or it
    is adapted and the adapted step never exceeds [d]. *)
Definition steps_at_most {B} (auto_dt : B -> Q) (c : Model_Tracker.config) (i : nat) (d : Q) : Prop :=
  match nth_error (Model_Tracker.c_dtb c) i with
  | Some (Some d') => (d' <= d)%Q
  | Some None => forall b, (auto_dt b <= d)%Q
  | None => False
  end.
