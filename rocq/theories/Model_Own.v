(** Model of fields/analytical_field.py as far as fields defined by users are concerned.  Exact
    arithmetic; the fields of the library are in Model_Push. *)
From Coq Require Import Reals List.
From Verif Require Import Model_Push.
Import ListNotations.
Open Scope R_scope.

(** analytical_field.py:11-14 [FieldFunction]. Simplification, as in Model_Push: the function is a loop
    whose iteration [i] reads the positions [i], the time, the constants and entry [i] of its array, and
    rewrites this entry. *)
Definition field_function := pos -> R -> R -> list R -> R.

(** analytical_field.py:74-85: a component that is not given is [no_field]. *)
Definition component_of (f : option field_function) (constants : list R) : pos -> R -> R -> R :=
  match f with
  | Some f => fun p t v => f p t v constants
  | None => no_field
  end.

(** analytical_field.py:62-86, 97-104 [AnalyticalField]. *)
Definition analytical_field (e_x e_y e_z b_x b_y b_z : option field_function)
    (constants : option (list R)) : field :=
  let k := match constants with Some k => k | None => [] end in
  analytical (mkcomp (component_of e_x k) (component_of e_y k) (component_of e_z k)
                     (component_of b_x k) (component_of b_y k) (component_of b_z k)).

(** analytical_field.py:53-56: the function [linear_ex] of the documentation. Simplification: there is a
    first constant. *)
Definition linear_ex : field_function := fun p _ _ k => nth 0 k 0 * fst (fst p).
(** analytical_field.py:58: the example of the documentation, for any slope. *)
Definition documented_example (slope : R) : field :=
  analytical_field (Some linear_ex) None None None None None (Some [slope]).

(** tracker.py:103: the field that is used if no field is given. *)
Definition default_fields (fields : list field) : list field :=
  match fields with [] => [analytical_field None None None None None None None] | _ => fields end.
