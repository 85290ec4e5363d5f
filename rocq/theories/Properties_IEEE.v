(** The roundings in properties C09 and C96 (times compared in single precision, clocks in double
    precision) are those of IEEE 754, as defined in the library Flocq. *)
From Coq Require Import QArith Qreals Reals ZArith Lra.
From Flocq Require Import Core.
From Verif Require Import Model_Float32 Model_CSR Proofs_IEEE.
Open Scope R_scope.

(** Binary32: 24 digits, smallest number 2^-149, to the nearest, ties to even; no overflow. *)
Theorem C09_rounding_is_binary32 : forall x, Q2R (f32 x) = round radix2 (FLT_exp (-149) 24) ZnearestE (Q2R x).
Proof.
  apply (round_all (-149) 24 f32 f32_pos); [reflexivity|reflexivity|].
  intros x Hx. exact (round_pos (-149) 24 x Hx).
Qed.
(** Binary64: 53 digits, smallest number 2^-1074. *)
Theorem C96_rounding_is_binary64 : forall x, Q2R (f64 x) = round radix2 (FLT_exp (-1074) 53) ZnearestE (Q2R x).
Proof.
  apply (round_all (-1074) 53 f64 f64_pos); [reflexivity|reflexivity|].
  intros x Hx. exact (round_pos (-1074) 53 x Hx).
Qed.
(** So zero and all numbers of the format stay, signs are kept, and nothing in the format is
    nearer. *)
Theorem C96_rounding_to_nearest : forall x y,
  generic_format radix2 (FLT_exp (-1074) 53) (Q2R y) ->
  (Q2R (f64 y) = Q2R y) /\ generic_format radix2 (FLT_exp (-1074) 53) (Q2R (f64 x)) /\
  Rabs (Q2R (f64 x) - Q2R x) <= Rabs (Q2R y - Q2R x) /\ Q2R (f64 (- x)) = - Q2R (f64 x).
Proof.
  intros x y Hy. rewrite !C96_rounding_is_binary64.
  assert (V : Valid_exp (FLT_exp (-1074) 53)) by (apply FLT_exp_valid; reflexivity).
  split; [apply round_generic; [apply valid_rnd_N|exact Hy]|]. split; [apply generic_format_round; [exact V|apply valid_rnd_N]|].
  split; [|rewrite Q2R_opp; apply round_NE_opp].
  apply (round_N_pt radix2 (FLT_exp (-1074) 53)). exact Hy.
Qed.
Example C96_format_example : generic_format radix2 (FLT_exp (-1074) 53) (Q2R (3 # 8)) /\
  Q2R (f64 (1 # 10)) <> Q2R (1 # 10).
Proof.
  split.
  - replace (Q2R (3 # 8)) with (F2R (Float radix2 3 (-3))) by (unfold F2R, Q2R; cbn; lra).
    apply generic_format_FLT. exists (Float radix2 3 (-3)); [reflexivity|reflexivity|discriminate].
  - intros H. apply eqR_Qeq in H. revert H. vm_compute. discriminate.
Qed.
Print Assumptions C09_rounding_is_binary32.
Print Assumptions C96_rounding_is_binary64.
Print Assumptions C96_rounding_to_nearest.
