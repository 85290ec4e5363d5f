(** Model of the deposition of particles on the r-z grid: wake_t/particles/deposition.py
    (beams) and wake_t/physics_models/plasma_wakefields/qs_rz_baxevanis/deposition.py
    (plasma). Arithmetic is exact (reals).  Both functions are compiled without parallelism,
    so [prange] is an ordinary loop. *)
From Coq Require Import Reals ZArith String List.
From Verif Require Import Model_Push Model_Interp.
Import ListNotations.
Open Scope R_scope.

(** deposition.py:103-104 [math.ceil] *)
Definition ceil (x : R) : Z := (- Int_part (- x))%Z.

(** deposition.py:16-18: arguments z_min, r_min, nz, nr, dz, dr *)
Record dgrid := mkd { dg_zmin : R; dg_rmin : R; dg_nz : Z; dg_nr : Z; dg_dz : R; dg_dr : R }.

(** deposition.py:141 [a[i, j] += v] *)
Definition add2 (a : arr2) (i j : Z) (v : R) : result arr2 :=
  let i' := wrap (rows a) i in
  let j' := wrap (cols a) j in
  if andb (in_range (rows a) i') (in_range (cols a) j') then
    Ok (mka (rows a) (cols a)
         (fun k l => if andb (Z.eqb k i') (Z.eqb l j') then cell a k l + v else cell a k l))
  else Fault OutOfBounds.

(** deposition.py:86, 174: a loop whose body can fail *)
Fixpoint foldM {A B} (f : B -> A -> result B) (l : list A) (b : B) : result B :=
  match l with
  | [] => Ok b
  | a :: l' => do b' <- f b a; foldM f l' b'
  end.

(** deposition.py:141-144, 260-275: the additions in one row; the same in
    qs_rz_baxevanis/deposition.py:103-106, 189-204 *)
Definition add_row (ir : Z) (rs : list R) (w : R) (a : arr2) (ik : Z) (zk : R) : result arr2 :=
  foldM (fun a lr => add2 a ik (ir + Z.of_nat (fst lr)) (zk * snd lr * w))
        (combine (seq 0 (List.length rs)) rs) a.
(** deposition.py:141-144, 260-275: a[iz + k, ir + l] += zs[k] * rs[l] * w, k outer, l inner *)
Definition add_block (iz ir : Z) (zs rs : list R) (w : R) (a : arr2) : result arr2 :=
  foldM (fun a kz => add_row ir rs w a (iz + Z.of_nat (fst kz)) (snd kz))
        (combine (seq 0 (List.length zs)) zs) a.

(** deposition.py:74, 161 *)
Definition r_grid (g : dgrid) (j : nat) : R := (INR j + 0.5) * dg_dr g.
(** deposition.py:75-76, 162-163 *)
Definition cell_volume (g : dgrid) (j : nat) : R :=
  PI * dg_dz g * ((r_grid g j + 0.5 * dg_dr g) ^ 2 - (r_grid g j - 0.5 * dg_dr g) ^ 2).
(** deposition.py:77, 164 *)
Definition cell_volume_norm (g : dgrid) (j : nat) : R :=
  cell_volume g j / (2 * PI * dg_dr g ^ 2 * dg_dz g).
(** deposition.py:80, 167 [np.cumsum] *)
Fixpoint cumsum (f : nat -> R) (j : nat) : R :=
  match j with 0%nat => f 0%nat | S j' => cumsum f j' + f j end.

(** deposition.py:73-80: ruyten_coef[k] for the linear shape. *)
Definition ruyten_linear (g : dgrid) (k : nat) : R :=
  match k with
  | 0%nat => 0
  | S j => 6 / INR k * (cumsum (cell_volume_norm g) j - 0.5 * INR k ^ 2 - 1 / 24)
  end.
(** deposition.py:160-168: ruyten_coef[k] for the cubic shape. *)
Definition ruyten_cubic (g : dgrid) (k : nat) : R :=
  match k with
  | 0%nat => 0
  | 1%nat => 6 * (cell_volume_norm g 0 - 0.5 - 239 / (15 * 2 ^ 7))
  | S j => 6 / INR k * (cumsum (cell_volume_norm g) j - 0.5 * INR k ^ 2 - 0.125)
  end.
(** deposition.py:135, 216: reading ruyten_coef[ir], an array of nr + 1 entries *)
Definition read_coef (g : dgrid) (coef : nat -> R) (ir : Z) : result R :=
  let ir' := wrap (dg_nr g + 1) ir in
  if in_range (dg_nr g + 1) ir' then Ok (coef (Z.to_nat ir')) else Fault OutOfBounds.

(** deposition.py:107-114, qs_rz_baxevanis/deposition.py:77-84: linear shape *)
Definition u_r_linear (g : dgrid) (r_cell : R) : R :=
  if Rlt_dec r_cell 0 then 1
  else if Rlt_dec (IZR (dg_nr g) - 1) r_cell then 0
  else r_cell - IZR (ceil r_cell) + 1.
(** deposition.py:117-124, qs_rz_baxevanis/deposition.py:87-94: linear shape *)
Definition u_z_linear (g : dgrid) (r_cell z_cell : R) : R :=
  if Rlt_dec z_cell 0 then 1
  else if Rlt_dec (IZR (dg_nz g) - 1) r_cell then 0
  else z_cell - IZR (ceil z_cell) + 1.

(** deposition.py:98-144, qs_rz_baxevanis/deposition.py:69-106: body of
    the loop, linear shape, for a particle inside the domain. *)
Definition deposit_linear1 (g : dgrid) (use_ruyten : bool) (r_cell z_cell w_i : R)
    (a : arr2) : result arr2 :=
  let ir_cell := Z.min (ceil r_cell + 1) (dg_nr g + 2) in
  let iz_cell := (ceil z_cell + 1)%Z in
  let u_r := u_r_linear g r_cell in
  let u_z := u_z_linear g r_cell z_cell in
  do rc <- (if use_ruyten then
              read_coef g (ruyten_linear g) (Z.min (ceil r_cell) (dg_nr g))
            else Ok 0);
  let rsl_0 := (1 - u_r) + rc * (1 - u_r) * u_r in
  let rsl_1 := u_r - rc * (1 - u_r) * u_r in
  add_block iz_cell ir_cell [1 - u_z; u_z] [rsl_0; rsl_1] w_i a.

(** deposition.py:195-211, qs_rz_baxevanis/deposition.py:135-148: cubic shape coefficients of a
    position [u] with [v = 1 - u] *)
Definition cubic_shape (u : R) : R * R * R * R :=
  let v := 1 - u in
  (1 / 6 * v ^ 3, 1 / 6 * (3 * u ^ 3 - 6 * u ^ 2 + 4),
   1 / 6 * (3 * v ^ 3 - 6 * v ^ 2 + 4), 1 / 6 * u ^ 3).
(** deposition.py:221-257, qs_rz_baxevanis/deposition.py:150-186: the folding at the edges of an
    axis of [n] points *)
Definition fold_edges (n : Z) (cell : R) (s : R * R * R * R) : list R :=
  let '(s0, s1, s2, s3) := s in
  if Rle_dec cell 0 then [0; 0; s2 + s1; s3 + s0]
  else if Rle_dec cell 1 then [0; s1 + s0; s2; s3]
  else if Rlt_dec (IZR n - 1) cell then [s0 + s3; s1 + s2; 0; 0]
  else if Rlt_dec (IZR n - 2) cell then [s0; s1; s2 + s3; 0]
  else [s0; s1; s2; s3].

(** deposition.py:186-275, qs_rz_baxevanis/deposition.py:124-204: body of
    the loop, cubic shape, for a particle inside the domain. *)
Definition deposit_cubic1 (g : dgrid) (use_ruyten : bool) (r_cell z_cell w_i : R)
    (a : arr2) : result arr2 :=
  let ir_cell := Z.min (ceil r_cell) (dg_nr g + 2) in
  let iz_cell := ceil z_cell in
  let u_z := z_cell - IZR (ceil z_cell) + 1 in
  let u_r := r_cell - IZR (ceil r_cell) + 1 in
  let v_r := 1 - u_r in
  do rc <- (if use_ruyten then
              read_coef g (ruyten_cubic g) (Z.min (ceil r_cell) (dg_nr g))
            else Ok 0);
  let '(r0, r1, r2, r3) := cubic_shape u_r in
  let rs := fold_edges (dg_nr g) r_cell (r0, r1 + rc * v_r * u_r, r2 - rc * v_r * u_r, r3) in
  let zs := fold_edges (dg_nz g) z_cell (cubic_shape u_z) in
  add_block iz_cell ir_cell zs rs w_i a.

(** deposition.py:82-100, 170-188: z_max, r_max, position in cell units and the test
    whether the particle is within the boundaries. *)
Definition deposit_loop
    (body : R -> R -> R -> arr2 -> result arr2) (g : dgrid)
    (l : list (pos * R)) (a : arr2) : result arr2 :=
  let z_max := dg_zmin g + (IZR (dg_nz g) - 1) * dg_dz g in
  let r_max := IZR (dg_nr g) * dg_dr g in
  foldM (fun a pw =>
    let '((x_i, y_i, z_i), w_i) := pw in
    let r_i := sqrt (x_i ^ 2 + y_i ^ 2) in
    if Rle_dec (dg_zmin g) z_i then
      if Rle_dec z_i z_max then
        if Rle_dec r_i r_max then
          body ((r_i - dg_rmin g) / dg_dr g) ((z_i - dg_zmin g) / dg_dz g) w_i a
        else Ok a
      else Ok a
    else Ok a) l a.

(** deposition.py:59: result of a call that may also raise ValueError *)
Inductive called (A : Type) := Returned (r : result A) | ValueError.
Arguments Returned {A}. Arguments ValueError {A}.

(** deposition.py:16-59 [deposit_3d_distribution]. *)
Definition deposit_3d_distribution (g : dgrid) (p_shape : string) (use_ruyten : bool)
    (l : list (pos * R)) (a : arr2) : called arr2 :=
  if String.eqb p_shape "linear" then
    Returned (deposit_loop (deposit_linear1 g use_ruyten) g l a)
  else if String.eqb p_shape "cubic" then
    Returned (deposit_loop (deposit_cubic1 g use_ruyten) g l a)
  else ValueError.

(** qs_rz_baxevanis/deposition.py:12-51, 59-70, 114-125 [deposit_plasma_particles]: [z_cell] is
    the index of the slice, [l] the radii and weights. Another shape deposits nothing. *)
Definition deposit_plasma_particles (g : dgrid) (p_shape : string) (z_cell : Z)
    (l : list (R * R)) (a : arr2) : result arr2 :=
  let r_max := IZR (dg_nr g) * dg_dr g in
  let loop body := foldM (fun a rw =>
      if Rle_dec (fst rw) r_max then
        body ((fst rw - dg_rmin g) / dg_dr g) (IZR z_cell) (snd rw) a
      else Ok a) l a in
  if String.eqb p_shape "linear" then loop (deposit_linear1 g false)
  else if String.eqb p_shape "cubic" then loop (deposit_cubic1 g false)
  else Ok a.
