(** Vocabulary for the same beam given as other bunches. *)
From Coq Require Import Reals List Arith Permutation.
From Verif Require Import Model_Push Model_Bunch Spec_Bunch Model_Tracker Model_Run Model_Sim Spec_Sim.
Import ListNotations.
Open Scope R_scope.

(** Another order of [n] bunches: at place [i] comes the bunch that was at place [p i]. *)
Definition reordering (n : nat) (p : nat -> nat) : Prop :=
  (forall i, (i < n)%nat -> (p i < n)%nat) /\
  (forall i j, (i < n)%nat -> (j < n)%nat -> p i = p j -> i = j).

(** Bunches [picks] taken from bunches of the given sizes: number of the bunch and numbers of the
    particles taken from it.  Something (maybe no particle) is taken from every bunch, and every
    particle is taken exactly once. *)
Definition divides (sizes : list nat) (picks : list (nat * list nat)) : Prop :=
  (forall k, (k < length sizes)%nat -> In k (map fst picks)) /\
  Permutation (flat_map (fun q => map (pair (fst q)) (snd q)) picks)
              (flat_map (fun k => map (pair k) (seq 0 (nth k sizes 0%nat))) (seq 0 (length sizes))).

Definition no_part : part := mkp 0 0 0 0 0 0.
(** The second bunch consists of the particles of the first with the numbers [js]; neither waits for
    an injection. *)
Definition taken (js : list nat) (b b' : tracked) : Prop :=
  sound b /\ sound b' /\
  prop_distance (snd b') = prop_distance (snd b) /\
  q_species (snd b') = q_species (snd b) /\ m_species (snd b') = m_species (snd b) /\
  z_injection (snd b) = None /\ z_injection (snd b') = None /\
  (forall j, In j js -> (j < length (parts b))%nat) /\
  parts b' = map (fun j => nth j (parts b) no_part) js /\
  weights b' = map (fun j => nth j (weights b) 0) js.

(** No exception in the run that ended in this state. *)
Definition nothing_raised (s : state (option tracked) (option (list efield))) : Prop :=
  (forall b, In b (bs s) -> b <> None) /\ fs s <> None /\
  (forall o b, In o (out s) -> In b o -> b <> None).

(** An element without wakefields on a grid. *)
Definition only_analytic (fields : list efield) : Prop := forall f, In f fields -> exists c, f = Analytic c.
