(** Vocabulary for the properties of transfer maps.  Columns are
    (x, x', y, y', tau, delta); [h]: curvature, [k1], [k2]: normalised quadrupole and
    sextupole strengths, [ig2] = 1/gamma^2 of the reference particle. *)
From Coq Require Import Reals List Arith.
From Verif Require Import Model_Optics.
Import ListNotations.
Open Scope R_scope.

(** The accelerator Hamiltonian in the frame of the reference orbit, expanded to third
    order: H = H2 + H3. *)
Definition H2 (h k1 beta ig2 x px y py tau d : R) : R :=
  (px ^ 2 + py ^ 2) / 2 + (k1 + h ^ 2) * x ^ 2 / 2 - k1 * y ^ 2 / 2
  - h * x * d / beta + ig2 * d ^ 2 / (2 * beta ^ 2).
Definition H3 (h k1 k2 beta ig2 x px y py tau d : R) : R :=
  (px ^ 2 + py ^ 2) / 2 * (h * x - d / beta) + (k2 + 2 * h * k1) / 6 * x ^ 3
  - (k2 + h * k1) / 2 * x * y ^ 2 + h * ig2 * x * d ^ 2 / (2 * beta ^ 2)
  - ig2 * d ^ 3 / (2 * beta ^ 3).

(** Its equations of motion, linear and quadratic parts (see [C70_hamilton]). *)
Definition lin (h k1 beta ig2 : R) (v : list R) : list R :=
  let x := nth 0 v 0 in let px := nth 1 v 0 in let y := nth 2 v 0 in
  let py := nth 3 v 0 in let d := nth 5 v 0 in
  [px; - (k1 + h ^ 2) * x + h / beta * d; py; k1 * y; h / beta * x - ig2 / beta ^ 2 * d; 0].
Definition quad (h k1 k2 beta ig2 : R) (v : list R) : list R :=
  let x := nth 0 v 0 in let px := nth 1 v 0 in let y := nth 2 v 0 in
  let py := nth 3 v 0 in let d := nth 5 v 0 in
  [ (h * x - d / beta) * px;
    - (k2 + 2 * h * k1) / 2 * x ^ 2 - h / 2 * (px ^ 2 + py ^ 2)
      + (k2 + h * k1) / 2 * y ^ 2 - h * ig2 / (2 * beta ^ 2) * d ^ 2;
    (h * x - d / beta) * py;
    (k2 + h * k1) * x * y;
    (px ^ 2 + py ^ 2) / (2 * beta) - h * ig2 / beta ^ 2 * x * d
      + 3 * ig2 / (2 * beta ^ 3) * d ^ 2;
    0 ].

(** The 6 x 6 identity and the symplectic form; tau and delta are conjugate with the
    opposite sign. *)
Definition identity6 : list (list R) :=
  [[1;0;0;0;0;0]; [0;1;0;0;0;0]; [0;0;1;0;0;0]; [0;0;0;1;0;0]; [0;0;0;0;1;0]; [0;0;0;0;0;1]].
Definition omega (u v : list R) : R :=
  (nth 0 u 0 * nth 1 v 0 - nth 1 u 0 * nth 0 v 0)
  + (nth 2 u 0 * nth 3 v 0 - nth 3 u 0 * nth 2 v 0)
  - (nth 4 u 0 * nth 5 v 0 - nth 5 u 0 * nth 4 v 0).
Definition entry (m : list (list R)) (i j : nat) : R := nth j (nth i m []) 0.

Definition is_col (v : list R) : Prop := length v = 6%nat.

(** Velocity of the reference particle in units of c. *)
Definition rel_beta (gamma : R) : R := sqrt (1 - / gamma ^ 2).
