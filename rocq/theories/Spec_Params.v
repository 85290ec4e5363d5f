(** Vocabulary for the property of parameter files. *)
From Coq Require Import Reals String List Bool Permutation.
From Verif Require Import Model_Params.
Import ListNotations.
Open Scope R_scope.

(** A Python dictionary: no key twice. *)
Definition is_dict {A} (l : list (string * A)) : Prop := NoDup (map fst l).
(** The same entries, in any order. *)
Definition same_entries {A} (l m : list (string * A)) : Prop := Permutation l m.
Definition has_folder (d : disk) (folder : string) : Prop := In folder (folders d).
