(** Vocabulary for the properties of laser pulses read from files. *)
From Coq Require Import Reals List.
From Coquelicot Require Import Complex.
From Verif Require Import Model_Push Model_Laser Model_Lasy.
Import ListNotations.
Open Scope R_scope.

(** lasy evaluates the profile [a] (r, t) on a regular grid that contains both corners. *)
Definition on_grid {prof} (vector_potential : prof -> R * R -> R * R -> nat * nat -> nat -> nat -> nat -> C)
    (a : prof -> R -> R -> C) : Prop :=
  forall p r0 t0 r1 t1 nr nt i j, (2 <= nr)%nat -> (2 <= nt)%nat -> (i < nr)%nat -> (j < nt)%nat ->
    vector_potential p (r0, t0) (r1, t1) (nr, nt) 0%nat i j =
    a p (r0 + INR i * ((r1 - r0) / (INR nr - 1))) (t0 + INR j * ((t1 - t0) / (INR nt - 1))).

(** The grids of the laser solver. *)
Definition valid_grid (sp : sparams) : Prop :=
  sp_zmin sp < sp_zmax sp /\ 0 < sp_rmax sp /\ (2 <= sp_nz sp)%nat /\ (2 <= sp_nr sp)%nat.
(** The positions of its nodes. *)
Definition xi_at (sp : sparams) (i : nat) : R :=
  sp_zmin sp + INR i * ((sp_zmax sp - sp_zmin sp) / (INR (sp_nz sp) - 1)).
Definition r_at (sp : sparams) (k : nat) : R := (INR k + / 2) * (sp_rmax sp / INR (sp_nr sp)).
(** The same grid further ahead by d. *)
Definition moved_grid (d : R) (sp : sparams) : sparams :=
  mksp (sp_zmin sp + d) (sp_zmax sp + d) (sp_rmax sp) (sp_nz sp) (sp_nr sp) (sp_nt sp) (sp_dt sp)
    (sp_use_phase sp).
