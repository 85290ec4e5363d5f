(** Vocabulary for the properties of elements, beamlines and openPMD output. *)
From Coq Require Import QArith Qround String List Bool Arith ZArith.
From Verif Require Import Model_Tracker Spec_Tracker Model_Element.
Import ListNotations.
Open Scope Q_scope.

(** What a caller of [track] observes: value or exception, the bunches after the
    call, the diagnostics after the call. *)
Definition observed {B F} (r : result B F)
    : (returned B + error) * list B * option (diag B unit) :=
  match r with
  | Returned v bs _ d => (inl v, bs, d)
  | Raised e bs _ d => (inr e, bs, d)
  end.

(** Elements for which the claims are made: positive length, at least one
    output, positive steps and update periods. *)
Definition good_element {F} (n : nat) (el : felement F) : Prop :=
  0 < fe_length el /\ (0 < fe_nout el)%nat /\
  match fe_dt el with
  | Single d => forall q, d = Some q -> 0 < q
  | Listed l => length l = n /\ forall q, In (Some q) l -> 0 < q
  end /\
  forall d b, In (d, b) (fe_fields el) -> 0 < d.

(** Step requested for bunch [i]: [Some q] a number, [None] adaptive. *)
Definition requested (a : arg (option Q)) (i : nat) : option Q :=
  match a with
  | Single d => d
  | Listed l => nth i l None
  end.

(** Times written along a line of elements (length, number of outputs) whose
    first element starts at [z]. *)
Fixpoint expected_times (z : Q) (els : list (Q * nat)) : list Q :=
  match els with
  | [] => []
  | (L, n) :: r =>
      map (fun j => (z + inject_Z (Z.of_nat j) * (L / inject_Z (Z.of_nat n))) / 299792458)
          (seq 0 (S n)) ++ expected_times (z + L) r
  end.

Definition Qsum (l : list Q) : Q := fold_right Qplus 0 l.

(** A history of calls on one diagnostics object. *)
Inductive diag_call (B D : Type) :=
| CWrite (t dt : Q) (species : list B) (fields : list (bool * D))
| CAdvance (dist : Q).
Arguments CWrite {B D}. Arguments CAdvance {B D}.

(** Run of a history; a failing write leaves the object as it is. *)
Definition call {B D} (name : B -> string) (d : diag B D) (x : diag_call B D)
    : diag B D :=
  match x with
  | CWrite t dt sp fl =>
      match write_diagnostics B D name t dt sp fl d with
      | Some d' => d'
      | None => d
      end
  | CAdvance dist => increase_z_pos B D dist d
  end.

(** Distance advanced by a history. *)
Definition advanced {B D} (l : list (diag_call B D)) : Q :=
  Qsum (map (fun x => match x with CAdvance dist => dist | _ => 0 end) l).

(** Species with pairwise different names. *)
Definition distinct_names {B} (name : B -> string) (l : list B) : Prop :=
  NoDup (map name l).

(** The operations on bunches used by the tracker keep their names. *)
Definition keeps_names {B F} (name : B -> string) (evolve : F -> B -> Q -> Q -> B)
    (copy : B -> B) : Prop :=
  (forall f b t d, name (evolve f b t d) = name b) /\
  (forall b, name (copy b) = name b).

(** Applying objects with a [track] method one after the other: each starts from
    the world and the diagnostics left by the previous one, the outputs are
    appended; stops at the first exception. *)
Inductive visits {W X O E} : list (element W X O E) -> option X -> W ->
    res W X O E -> Prop :=
| visits_end x w : visits [] x w (Ok w x [])
| visits_ok e r x w w1 x1 o1 w2 x2 o2 :
    e (match x with Some d => Instance d | None => Falsy end) w = Ok w1 x1 o1 ->
    visits r x1 w1 (Ok w2 x2 o2) ->
    visits (e :: r) x w (Ok w2 x2 (o1 ++ o2))
| visits_exn e r x w w1 x1 o1 err w2 x2 :
    e (match x with Some d => Instance d | None => Falsy end) w = Ok w1 x1 o1 ->
    visits r x1 w1 (Exn err w2 x2) ->
    visits (e :: r) x w (Exn err w2 x2)
| visits_raise e r x w err w1 x1 :
    e (match x with Some d => Instance d | None => Falsy end) w = Exn err w1 x1 ->
    visits (e :: r) x w (Exn err w1 x1).

(** Run [k] after a successful [r], with the outputs of [r] first. *)
Definition and_then {W X O E} (r : res W X O E) (k : option X -> W -> res W X O E)
    : res W X O E :=
  match r with
  | Ok w x o => match k x w with
                | Ok w' x' o' => Ok w' x' (o ++ o')
                | Exn e w' x' => Exn e w' x'
                end
  | Exn e w x => Exn e w x
  end.

(** The element with another [dt_bunch]. *)
Definition with_dt {F} (a : arg (option Q)) (el : felement F) : felement F :=
  {| fe_length := fe_length el; fe_dt := a; fe_nout := fe_nout el;
     fe_push := fe_push el; fe_fields := fe_fields el; fe_fs := fe_fs el |}.

(** Length and number of outputs of each element of a line, given the element
    objects and the references that make up the line. *)
Definition profile {F} (els : list (felement F)) (idx : list nat) : list (Q * nat) :=
  map (fun i => match nth_error els i with
                | Some el => (fe_length el, fe_nout el)
                | None => (0, O)
                end) idx.

(** Entries returned by a line tracked with [n] bunches: all copies of the only
    bunch, otherwise [n] lists per element. *)
Definition shape_len (n : nat) (els : list (Q * nat)) : nat :=
  fold_right (fun p acc => ((if Nat.eqb n 1 then S (snd p) else n) + acc)%nat) 0%nat els.
