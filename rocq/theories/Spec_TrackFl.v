(** Vocabulary of the claims about tracking in floating-point arithmetic (C96). *)
From Coq Require Import QArith Qround List Bool Arith ZArith Qabs.
From Verif Require Import Model_Tracker Spec_Tracker Model_TrackFl.
Import ListNotations.
Open Scope Q_scope.

(** Times obtained by adding [d] again and again, rounding each sum. *)
Fixpoint ticks (fl : Q -> Q) (d : Q) (k : nat) : Q :=
  match k with O => 0 | S k' => fl (ticks fl d k' + d) end.
(** [l] is the list of the first ticks, and [N] is the last of them that does not exceed the end. *)
Definition all_ticks (fl rnd : Q -> Q) (T d : Q) (N : nat) (l : list Q) : Prop :=
  l = map (ticks fl d) (seq 0 (S N)) /\
  (forall k, (1 <= k <= N)%nat -> rnd (ticks fl d k) <= rnd T) /\
  rnd T < rnd (ticks fl d (S N)).

(** A rounding of times around [T]: monotone, keeps the sign, error at most [e]. *)
Record rounds_times (T e : Q) (fl : Q -> Q) : Prop := {
  rt_mono : forall x y, x <= y -> fl x <= fl y;
  rt_zero : fl 0 == 0;
  rt_error : forall x, - (3 * T) <= x <= 3 * T -> x - e <= fl x <= x + e }.
(** The coarser type separates times that differ by a millionth of [T]. *)
Record compares_times (T : Q) (rnd : Q -> Q) : Prop := {
  ct_mono : monotone rnd;
  ct_above : forall x, T * (1 + (1 # 1000000)) <= x -> rnd T < rnd x;
  ct_below : forall x, x <= T * (1 - (1 # 1000000)) -> rnd x < rnd T }.
(** [T] is farther than [r] from the points where the coarser type jumps. *)
Definition clear_of_jumps (rnd : Q -> Q) (T r : Q) : Prop :=
  forall x, T - r <= x <= T + r -> rnd x == rnd T.
