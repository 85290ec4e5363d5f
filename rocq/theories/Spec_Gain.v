(** Vocabulary for property C122. *)
From Coq Require Import Reals List.
From Verif Require Import Model_Push Spec_Push Model_Bunch Model_Run Spec_Circle.
Open Scope R_scope.

(** A particle that starts as [p] can be at [r] after the time [s] without being faster than light ([r] in the frame
    that moves with c). *)
Definition can_reach (p : part) (r : pos) (s : R) : Prop :=
  let '(x', y', xi') := r in norm (x' - x p, y' - y p, xi' - xi p + c_SI * s) <= c_SI * s.
(** Wherever the particles of the bunch can be in the time T, the electric field is at most [E]. *)
Definition field_limit (G : pos -> R -> em) (hb : heap * bunch) (T E : R) : Prop :=
  forall p r s, In p (particles (fst hb) (snd hb)) -> 0 <= s <= T -> can_reach p r s -> norm (e_field (G r s)) <= E.
(** The momentum (in units of mc) and the Lorentz factor of every particle have changed by at most [d]. *)
Definition changed_at_most (d : R) (hb hb' : heap * bunch) : Prop :=
  Forall2 (fun p p' => Rabs (pmod p' - pmod p) <= d /\ Rabs (gamma p' - gamma p) <= d)
    (particles (fst hb) (snd hb)) (particles (fst hb') (snd hb')).
