(** Model of tracking through an element with analytical fields: the tracker
    (Model_Tracker) pushing the bunches of Model_Bunch with the pushers of
    Model_Push. *)
From Coq Require Import QArith Reals Qreals String List.
From Verif Require Import Model_Push Model_Bunch Model_Tracker.
Import ListNotations.

(** tracker.py:101, particle_bunch.py:93-99: a bunch and its arrays.  Simplification:
    bunches do not share arrays, so each comes with its own memory. *)
Definition tracked := (heap * bunch)%type.

(** tracker.py:290 [bunch.evolve(self.fields, t_current, dt_next, self.bunch_pusher)].
    Simplification: an exception leaves the bunch as it is (what it does to the run is in
    Model_Crash). *)
Definition evolve_tracked (pusher : string) (fields : list field) (hb : tracked) (t dt : Q)
    : tracked :=
  match Model_Bunch.evolve (fst hb) (snd hb) fields (Q2R t) (Q2R dt) pusher with
  | Model_Bunch.Done r => r
  | Model_Bunch.Raise _ r => r
  end.

(** tracker.py:308 [bunch.copy()] *)
Definition copy_tracked (hb : tracked) : tracked :=
  let '(h, b, _) := Model_Bunch.copy (fst hb) 0 (snd hb) in (h, b).

(** tracker.py:162-164, 224: without numerical fields no update changes the fields *)
Definition no_update (j : nat) (fields : list field) (l : list tracked) : list field := fields.

(** tracker.py:140-262 [Tracker.do_tracking] with analytical fields only *)
Definition track (pusher : string) (auto_dt : tracked -> Q) (rnd : Q -> Q)
    (fields : list field) (fuel : nat) (c : config) (bunches : list tracked)
    : Model_Tracker.outcome tracked (list field) :=
  do_tracking tracked (list field) (evolve_tracked pusher) no_update auto_dt copy_tracked rnd
    fuel c bunches fields.
