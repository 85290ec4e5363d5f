(** Vocabulary for the properties of the tracking loop.  Everything here is
    phrased in terms of the log of observable effects: pushes of bunches,
    updates of numerical fields and outputs. *)
From Coq Require Import QArith Qround List Bool Arith ZArith.
From Verif Require Import Model_Tracker.
Import ListNotations.
Open Scope Q_scope.

Section Log.
  Context {B : Type}.

  (** The pushes of bunch [i], as (start time, length), oldest first. *)
  Fixpoint pushes (i : nat) (l : list (event B)) : list (Q * Q) :=
    match l with
    | [] => []
    | EPush k t d _ :: r => if Nat.eqb k i then (t, d) :: pushes i r
                            else pushes i r
    | _ :: r => pushes i r
    end.

  (** Tracking times at which numerical field [j] was updated. *)
  Fixpoint field_times (j : nat) (l : list (event B)) : list Q :=
    match l with
    | [] => []
    | EField k t :: r => if Nat.eqb k j then t :: field_times j r
                         else field_times j r
    | _ :: r => field_times j r
    end.

  (** Tracking times of the outputs, and their content. *)
  Fixpoint diag_times (l : list (event B)) : list Q :=
    match l with
    | [] => []
    | EDiag t _ :: r => t :: diag_times r
    | _ :: r => diag_times r
    end.
  Fixpoint snapshots (l : list (event B)) : list (list B) :=
    match l with
    | [] => []
    | EDiag _ sn :: r => sn :: snapshots r
    | _ :: r => snapshots r
    end.

  (** Instant at which an event completes. *)
  Definition etime (e : event B) : Q :=
    match e with
    | EPush _ t d _ => t + d
    | EField _ t => t
    | EDiag t _ => t
    end.

  (** Total time by which bunch [i] has been pushed. *)
  Definition total_push (i : nat) (l : list (event B)) : Q :=
    fold_right (fun p acc => snd p + acc) 0 (pushes i l).
End Log.

(** Contiguous pushes leading from time [a] to time [b]. *)
Inductive chain : Q -> list (Q * Q) -> Q -> Prop :=
| chain_nil a b : a == b -> chain a [] b
| chain_cons a b t d l : t == a -> chain (a + d) l b -> chain a ((t, d) :: l) b.

(** [l] is exactly the list 0, d, 2d, ..., (n-1) d. *)
Definition multiples (d : Q) (n : nat) (l : list Q) : Prop :=
  length l = n /\
  forall k t, nth_error l k = Some t -> t == inject_Z (Z.of_nat k) * d.

(** The log read as a program: what the recorded effects do to fields and
    bunches. *)
Section Replay.
  Variables B F : Type.
  Variable evolve : F -> B -> Q -> Q -> B.
  Variable update : nat -> F -> list B -> F.
  Variable copy : B -> B.

  Definition replace_at (i : nat) (x : B) (l : list B) : list B :=
    firstn i l ++ x :: skipn (S i) l.

  Definition effect (w : F * list B) (e : event B) : F * list B :=
    let '(f, l) := w in
    match e with
    | EPush i t d _ =>
        match nth_error l i with
        | Some b => (f, replace_at i (evolve f b t d) l)
        | None => w
        end
    | EField j _ => (update j f l, l)
    | EDiag _ _ => w
    end.

  Definition replay (l : list (event B)) (w : F * list B) : F * list B :=
    fold_left effect l w.

  (** Each output holds copies of the bunches as they are at that point. *)
  Fixpoint outputs_ok (l : list (event B)) (w : F * list B) : Prop :=
    match l with
    | [] => True
    | e :: r =>
        match e with
        | EDiag _ sn => sn = map copy (snd w)
        | _ => True
        end /\ outputs_ok r (effect w e)
    end.
End Replay.

(** Configurations for which the claims are made: positive length, positive
    constant steps, positive field periods, one step per bunch. *)
Definition good_config {B} (c : config) (bs0 : list B) : Prop :=
  0 < c_tfinal c /\
  length bs0 = length (c_dtb c) /\
  (forall d, In (Some d) (c_dtb c) -> 0 < d) /\
  (forall d b, In (d, b) (c_fields c) -> 0 < d).

(** An adaptive step function that never returns less than [m] > 0. *)
Definition bounded_below {B} (auto_dt : B -> Q) (m : Q) : Prop :=
  0 < m /\ forall b, m <= auto_dt b.

(** Rounding to a coarser number type. *)
Definition monotone (rnd : Q -> Q) : Prop :=
  forall x y, x <= y -> rnd x <= rnd y.

(** Comparing times without rounding. *)
Definition exact (x : Q) : Q := x.
