(** Vocabulary for property C121. *)
From Coq Require Import Reals List.
From Verif Require Import Model_Push Model_Bunch Model_Run Spec_Sim Spec_Circle.
Open Scope R_scope.

(** Every particle of the first bunch is found again in the second one at a distance of at most [d], measured in
    the laboratory, and not ahead of where it was in the frame moving with c; if [d] is not zero, closer than that
    and behind where it was. *)
Definition within_reach (d : R) (hb hb' : tracked) : Prop :=
  Forall2 (fun p p' => norm (vsub (lab hb' p') (lab hb p)) <= d /\ xi p' <= xi p /\
      (0 < d -> norm (vsub (lab hb' p') (lab hb p)) < d /\ xi p' < xi p)) (parts hb) (parts hb').
