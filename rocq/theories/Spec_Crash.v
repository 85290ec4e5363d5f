(** Vocabulary of the claims about exceptions during tracking (C95). *)
From Coq Require Import QArith List Bool Arith.
From Verif Require Import Model_Tracker Spec_Tracker Model_Crash.
Import ListNotations.

(** The first elements of a list. *)
Definition prefix {A} (l l' : list A) : Prop := exists r, l' = l ++ r.
(** Events and outputs of [s] are the first ones of [s']. *)
Definition beginning_of {B F} (s s' : state B F) : Prop :=
  prefix (log s) (log s') /\ Forall2 prefix (out s) (out s').
(** State in which the undisturbed tracking ends, in whatever way. *)
Definition end_of {B F} (o : outcome B F) : state B F :=
  match o with Continue s => s | Done s => s | Raise _ s => s end.
Definition same_ending {B F} (e : ending B F) (o : outcome B F) : Prop :=
  match e, o with
  | Completed s, Done s' => s = s'
  | Raised x s, Raise x' s' => x = x' /\ s = s'
  | _, _ => False
  end.
(** None of the operations that lead to these events raises. *)
Definition nothing_raises {B} (raises : list (event B) -> bool) (l : list (event B)) : Prop :=
  forall l1 e l2, l = l1 ++ e :: l2 -> raises l1 = false.
(** Bunches and fields are [w], except for what one unfinished operation did: to one bunch, or to the
    fields. *)
Definition one_unfinished {B F} (half_b : B -> B) (half_f : F -> F) (w : F * list B) (s : state B F) : Prop :=
  (fs s = fst w /\ exists i b, nth_error (snd w) i = Some b /\ bs s = replace_at B i (half_b b) (snd w)) \/
  (fs s = half_f (fst w) /\ bs s = snd w) \/
  (fs s = fst w /\ bs s = snd w).
