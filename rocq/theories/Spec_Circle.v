(** Vocabulary for property C119. *)
From Coq Require Import Reals List.
From Verif Require Import Model_Push Spec_Push Model_Bunch Spec_Bunch.
Import ListNotations.
Open Scope R_scope.

(** The same electric and magnetic field everywhere and always. *)
Definition uniform (G : pos -> R -> em) (E B : vec) : Prop :=
  forall r t, e_field (G r t) = E /\ b_field (G r t) = B.

Definition vsub (a b : vec) : vec := vadd3 a (scal (-1) b).
Definition sq (a : vec) : R := let '(a1, a2, a3) := a in a1 * a1 + a2 * a2 + a3 * a3.
Definition norm (a : vec) : R := sqrt (sq a).
(** Part of a vector along B, times |B|. *)
Definition along (a B : vec) : R :=
  let '(a1, a2, a3) := a in let '(b1, b2, b3) := B in a1 * b1 + a2 * b2 + a3 * b3.
(** Length of the part of a vector perpendicular to B. *)
Definition perpendicular (a B : vec) : R := norm (cross a B) / norm B.

(** Position in the laboratory: the co-moving frame of the bunch has travelled over its propagation distance. *)
Definition lab (hb : heap * bunch) (p : part) : vec := (x p, y p, xi p + prop_distance (snd hb)).

(** The vector [p] turned by the angle [a] about the direction of B, in the sense in which a positive charge
    turns. *)
Definition turned (a : R) (B p : vec) : vec :=
  let n := scal (/ norm B) B in
  vadd3 (scal (cos a) p) (vadd3 (scal (sin a) (cross p n)) (scal ((1 - cos a) * along p n) n)).
(** Cyclotron frequency q B / (gamma m). *)
Definition frequency (q m : R) (B : vec) (p : part) : R := q * norm B / (gamma p * m).
