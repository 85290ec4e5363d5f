(** Vocabulary for tracking in steps that fit the outputs, and for elements divided in two. *)
From Coq Require Import Reals QArith Qreals String List Bool Arith ZArith.
From Verif Require Import Model_Push Spec_Push Model_Bunch Model_Tracker Spec_Tracker Model_Run.
Import ListNotations.
Open Scope Q_scope.

(** [n] times [d]. *)
Definition times (n : nat) (d : Q) : Q := inject_Z (Z.of_nat n) * d.

(** The pushes that take time. *)
Definition real_pushes (l : list (Q * Q)) : list (Q * Q) :=
  filter (fun p => negb (Qeq_bool (snd p) 0)) l.

(** Without a tracker: [bunch.evolve] called [n] times, at 0, d, 2 d, ... for [d]. *)
Fixpoint by_hand (pusher : string) (fields : list field) (d : Q) (n : nat) (b : tracked) : tracked :=
  match n with
  | O => b
  | S n' => evolve_tracked pusher fields (by_hand pusher fields d n' b) (times n' d) d
  end.

(** Bunch [i] of the element is pushed in fixed steps [d], and [k] of them fit between two
    outputs. *)
Definition steps_fit (c : config) (i : nat) (d : Q) (k : nat) : Prop :=
  c_push_before c = true /\ nth_error (c_dtb c) i = Some (Some d) /\
  c_tfinal c / inject_Z (Z.of_nat (c_ndiags c)) == times k d.

(** Fields that do not change with time. *)
Definition static (fields : list field) : Prop :=
  exists G, gathers fields G /\ forall r t t', G r t = G r t'.
