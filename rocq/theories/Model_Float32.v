(** The conversion [np.float32(x)] applied by the tracking loop to the times it compares
    (wake_t/tracking/tracker.py:195, 205, 295): IEEE 754 binary32, round to nearest, ties
    to even, with gradual underflow. Simplification: the exponent is not bounded above (no
    overflow to infinity, which needs times above 1e38 s). *)
From Coq Require Import QArith Qround Qpower ZArith.
Open Scope Q_scope.

(** tracker.py:195, 205, 295: part of [np.float32]: 2^e for any integer e *)
Definition pow2 (e : Z) : Q := (2 # 1) ^ e.

(** tracker.py:195, 205, 295: part of [np.float32]: exponent [e] with 2^e <= x < 2^(e+1), for x
    > 0 *)
Definition expo (x : Q) : Z :=
  let k := (Z.log2 (Qnum x) - Z.log2 (Zpos (Qden x)))%Z in
  if Qle_bool (pow2 k) x then k else (k - 1)%Z.

(** tracker.py:195, 205, 295: part of [np.float32]: nearest integer, ties to even *)
Definition nearest_even (q : Q) : Z :=
  let f := Qfloor q in
  let r := q - inject_Z f in
  if Qle_bool (1 # 2) r then
    if Qle_bool r (1 # 2) then (if Z.even f then f else f + 1)%Z
    else (f + 1)%Z
  else f.

(** tracker.py:195, 205, 295: part of [np.float32]: spacing of binary32 numbers around x > 0 *)
Definition ulp32 (x : Q) : Q := pow2 (Z.max (expo x) (-126) - 23).

(** tracker.py:195, 205, 295 [np.float32] of a positive number *)
Definition f32_pos (x : Q) : Q :=
  inject_Z (nearest_even (x / ulp32 x)) * ulp32 x.

(** tracker.py:195, 205, 295 [np.float32] *)
Definition f32 (x : Q) : Q :=
  if Qle_bool x 0 then (if Qle_bool 0 x then 0 else - f32_pos (- x))
  else f32_pos x.
