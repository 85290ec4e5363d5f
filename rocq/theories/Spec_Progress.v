(** Vocabulary for the properties of the progress bars. *)
From Coq Require Import QArith String Ascii List Bool Arith ZArith.
From Verif Require Import Model_Tracker Spec_Tracker Model_Progress.
Import ListNotations.
Open Scope Q_scope.

(** The events that are not the push of a bunch to an output that is about to be made. *)
Definition own_event {B} (e : event B) : bool :=
  match e with EPush _ _ _ sync => negb sync | _ => true end.
(** The times of the events of a run, without the field updates and the output before the first
    push, and without the pushes to outputs. *)
Definition turns {B} (c : config) (l : list (event B)) : list Q :=
  map etime (filter own_event (skipn (S (length (c_fields c))) l)).
(** Never going back. *)
Fixpoint ascending (a : Q) (l : list Q) : Prop :=
  match l with [] => True | x :: r => a <= x /\ ascending x r end.
Definition CR : ascii := ascii_of_nat 13.
