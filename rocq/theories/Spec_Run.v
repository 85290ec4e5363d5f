(** Vocabulary for comparing two tracking runs. *)
From Coq Require Import Reals QArith List Bool Arith.
From Verif Require Import Model_Push Model_Bunch Spec_Bunch Model_Tracker.
Import ListNotations.
Open Scope Q_scope.

(** The same element with a different list of bunch steps ([None]: 'auto'). *)
Definition with_steps (steps : list (option Q)) (c : config) : config :=
  {| c_tfinal := c_tfinal c; c_dtb := steps; c_fields := c_fields c;
     c_ndiags := c_ndiags c; c_push_before := c_push_before c |}.

(** The same element asked for another number of outputs. *)
Definition with_outputs (n : nat) (c : config) : config :=
  {| c_tfinal := c_tfinal c; c_dtb := c_dtb c; c_fields := c_fields c;
     c_ndiags := n; c_push_before := c_push_before c |}.

(** The numerical fields of the element do not depend on the bunches (or there
    are none). *)
Definition ignores_bunches {B F} (update : nat -> F -> list B -> F) (c : config) : Prop :=
  forall j f l l', (j < length (c_fields c))%nat -> update j f l = update j f l'.

(** ** Tracking of particle bunches *)

(** A bunch as the constructor leaves it, or as any earlier push leaves it; with an
    injection position it needs at least one particle. *)
Definition ready (hb : heap * bunch) : Prop :=
  valid (fst hb) (snd hb) /\ fits (fst hb) (snd hb) /\
  (z_injection (snd hb) = None \/ particles (fst hb) (snd hb) <> []).

(** Particles, weights and propagation distance of a bunch. *)
Definition seen (hb : heap * bunch) : list part * list R * R :=
  (contents (fst hb) (snd hb), prop_distance (snd hb)).
