(** Vocabulary for runs with and without a bunch. *)
From Coq Require Import Reals List.
From Verif Require Import Model_Bunch Model_Run Model_Sim Spec_Sim.
Import ListNotations.
Open Scope R_scope.

(** The list without its element [i]. *)
Definition without {A} (i : nat) (l : list A) : list A := firstn i l ++ skipn (S i) l.
(** No macroparticle carries charge: weight zero, or a species without charge. *)
Definition neutral (hb : tracked) : Prop := forall w, In w (weights hb) -> w * q_species (snd hb) = 0.
