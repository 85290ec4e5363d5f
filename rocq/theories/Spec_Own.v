(** Vocabulary for property C118. *)
From Coq Require Import Reals List.
From Verif Require Import Model_Push Spec_Push Model_Own.
Import ListNotations.
Open Scope R_scope.

(** A component of a field as its author writes it: not given, added to what the array contains, or
    assigned to the array; the value is a function of position, time and constants. *)
Inductive given := Absent | Adds (f : pos -> R -> list R -> R) | Assigns (f : pos -> R -> list R -> R).
(** The function that is handed to the library. *)
Definition code (k : given) : option field_function :=
  match k with
  | Absent => None
  | Adds f => Some (fun p t v c => v + f p t c)
  | Assigns f => Some (fun p t _ c => f p t c)
  end.

Inductive component := Ex | Ey | Ez | Bx | By | Bz.
Definition entry (c : component) (v : em) : R :=
  match c with Ex => ex v | Ey => ey v | Ez => ez v | Bx => bx v | By => by_ v | Bz => bz v end.

(** A field of a user: its six components and its constants. *)
Record own := mkown { o_given : component -> given; o_constants : option (list R) }.
Definition field_of (o : own) : field :=
  analytical_field (code (o_given o Ex)) (code (o_given o Ey)) (code (o_given o Ez))
    (code (o_given o Bx)) (code (o_given o By)) (code (o_given o Bz)) (o_constants o).

Definition assigns (c : component) (o : own) : Prop := exists f, o_given o c = Assigns f.
(** What the author means by component [c] at position [r] and time [t]. *)
Definition meant (c : component) (r : pos) (t : R) (o : own) : R :=
  let k := match o_constants o with Some k => k | None => [] end in
  match o_given o c with Absent => 0 | Adds f => f r t k | Assigns f => f r t k end.

(** Every component is linear in position and time, up to a constant. *)
Definition linear_field (o : own) : Prop :=
  forall c, exists a b d e k, forall r t,
    meant c r t o = a * fst (fst r) + b * snd (fst r) + d * snd r + e * t + k.
