(** Model of the interpolation of gridded fields: wake_t/particles/interpolation.py,
    wake_t/fields/interpolation.py and the grid and gathering of
    wake_t/fields/rz_wakefield.py. Arithmetic is exact (reals); [math.floor] is [Int_part].
    The loops over particles are maps, each iteration writes only its own entry.
    Simplification: arrays are real; the complex laser envelope is interpolated by the same
    formulas in its real and imaginary part. *)
From Coq Require Import Reals ZArith List.
From Verif Require Import Model_Push.
Import ListNotations.
Open Scope R_scope.

(** particles/interpolation.py:72-75: two-dimensional numpy array *)
Record arr2 := mka { rows : Z; cols : Z; cell : Z -> Z -> R }.

(** particles/interpolation.py:72-75, 127: ways in which compiled code can fail: [1. / 0.]
    raises ZeroDivisionError, an access beyond the allocated array is not checked and yields
    garbage *)
Inductive fault := ZeroDivision | OutOfBounds.
(** particles/interpolation.py:72-75, 127: a value or a failure *)
Inductive result (A : Type) := Ok (v : A) | Fault (f : fault).
Arguments Ok {A}. Arguments Fault {A}.
(** particles/interpolation.py:72-86: the next statement, reached when the previous one did not
    fail *)
Definition bind {A B} (m : result A) (k : A -> result B) : result B :=
  match m with Ok v => k v | Fault f => Fault f end.
Notation "'do' x <- m ; k" := (bind m (fun x => k))
  (at level 60, x pattern, right associativity).
(** particles/interpolation.py:48, 120, 234: a loop over particles whose body can fail *)
Fixpoint traverse {A B} (f : A -> result B) (l : list A) : result (list B) :=
  match l with
  | [] => Ok []
  | a :: l' => do b <- f a; do bs <- traverse f l'; Ok (b :: bs)
  end.

(** particles/interpolation.py:72-75: numba indexing of an axis of [n] entries: negative indices
    count from the end *)
Definition wrap (n i : Z) : Z := if Z.ltb i 0 then (i + n)%Z else i.
(** particles/interpolation.py:72-75: is the entry within the array (numba does not check) *)
Definition in_range (n i : Z) : bool := andb (Z.leb 0 i) (Z.ltb i n).
(** particles/interpolation.py:72-75: reading [a[i, j]] *)
Definition rd2 (a : arr2) (i j : Z) : result R :=
  let i' := wrap (rows a) i in
  let j' := wrap (cols a) j in
  if andb (in_range (rows a) i') (in_range (cols a) j') then Ok (cell a i' j')
  else Fault OutOfBounds.

(** particles/interpolation.py:19, 92: arguments z_min, z_max, r_min, r_max, dz, dr of the
    gathering functions *)
Record geom := mkg { z_min : R; z_max : R; r_min : R; r_max : R; d_z : R; d_r : R }.

(** particles/interpolation.py:56, 130, 241: is the particle within the grid *)
Definition within (g : geom) (z_i r_i : R) : bool :=
  if Rle_dec (z_min g) z_i then
    if Rle_dec z_i (z_max g) then
      if Rle_dec r_i (r_max g) then true else false
    else false
  else false.

(** particles/interpolation.py:57-69, 78-85: cell indices, whether the lower radial cell was
    below the axis, weights *)
Record place := mkplace { ir_lower : Z; ir_upper : Z; iz_lower : Z; iz_upper : Z;
                          below : bool; dz_u : R; dz_l : R; dr_u : R; dr_l : R }.
(** particles/interpolation.py:57-69, 78-85; the same in lines 131-147, 171-185 and 242-258,
    275-286 *)
Definition locate (g : geom) (z_i r_i : R) : place :=
  let r_i_cell := (r_i - r_min g) / d_r g + 2 in
  let z_i_cell := (z_i - z_min g) / d_z g + 2 in
  let ir := Int_part r_i_cell in
  let iz := Int_part z_i_cell in
  let below := Z.ltb ir 2 in
  let du := IZR (ir + 1) - r_i_cell in
  mkplace (if below then 2%Z else ir) (ir + 1) iz (iz + 1) below
          (IZR (iz + 1) - z_i_cell) (z_i_cell - IZR iz) du (1 - du).

(** particles/interpolation.py:71-86 and the analogous lines of the other two
    functions: the four values and their combination; [sign] multiplies the values
    of the lower radial cell. *)
Definition interpolate4 (fld : arr2) (p : place) (sign : R) : result R :=
  do fld_ll <- rd2 fld (iz_lower p) (ir_lower p);
  do fld_lu <- rd2 fld (iz_lower p) (ir_upper p);
  do fld_ul <- rd2 fld (iz_upper p) (ir_lower p);
  do fld_uu <- rd2 fld (iz_upper p) (ir_upper p);
  let fld_z_1 := dz_u p * (fld_ll * sign) + dz_l p * (fld_ul * sign) in
  let fld_z_2 := dz_u p * fld_lu + dz_l p * fld_uu in
  Ok (dr_u p * fld_z_1 + dr_l p * fld_z_2).

(** particles/interpolation.py:48-86: body of the loop of [gather_field_cyl_linear] *)
Definition gather_field1 (fld : arr2) (g : geom) (ps : pos) : result R :=
  let '(x_i, y_i, z_i) := ps in
  let r_i := sqrt (x_i ^ 2 + y_i ^ 2) in
  if within g z_i r_i then interpolate4 fld (locate g z_i r_i) 1 else Ok 0.
(** particles/interpolation.py:18-87 [gather_field_cyl_linear] *)
Definition gather_field_cyl_linear (fld : arr2) (g : geom) (l : list pos)
    : result (list R) := traverse (gather_field1 fld g) l.

(** particles/interpolation.py:120-194 [gather_main_fields_cyl_linear]: body of the
    loop, [f] the entries of the six arrays.  [inv_r_i = 1./r_i] comes before the
    test of the position. *)
Definition gather_main1 (er ez_ bt : arr2) (g : geom) (ps : pos) (f : em) : result em :=
  let '(x_i, y_i, z_i) := ps in
  let r_i := sqrt (x_i ^ 2 + y_i ^ 2) in
  if Req_EM_T r_i 0 then Fault ZeroDivision else
  let inv_r_i := 1 / r_i in
  if within g z_i r_i then
    let p := locate g z_i r_i in
    let wr_corr := if below p then -1 else 1 in
    do er_i <- interpolate4 er p wr_corr;
    do bt_i <- interpolate4 bt p wr_corr;
    do ez_i <- interpolate4 ez_ p 1;
    Ok (mke (ex f + er_i * x_i * inv_r_i) (ey f + er_i * y_i * inv_r_i) (ez f + ez_i)
            (bx f + - bt_i * y_i * inv_r_i) (by_ f + bt_i * x_i * inv_r_i) (bz f))
  else Ok f.
(** particles/interpolation.py:90-194 [gather_main_fields_cyl_linear] *)
Definition gather_main_fields_cyl_linear (er ez_ bt : arr2) (g : geom)
    (ps : list pos) (b : list em) : result (list em) :=
  traverse (fun pf => gather_main1 er ez_ bt g (fst pf) (snd pf)) (combine ps b).

(** particles/interpolation.py:234-289 [gather_sources_qs_baxevanis]: body of the
    loop, [old] the entries of the output arrays. *)
Definition gather_sources1 (fld_1 fld_2 fld_3 : arr2) (g : geom) (z r_i : R)
    (old : R * R * R) : result (R * R * R) :=
  if within g z r_i then
    let p := locate g z r_i in
    let sign := if below p then -1 else 1 in
    do v1 <- interpolate4 fld_1 p 1;
    do v2 <- interpolate4 fld_2 p sign;
    do v3 <- interpolate4 fld_3 p sign;
    Ok (v1, v2, v3)
  else Ok old.
(** particles/interpolation.py:197-289 [gather_sources_qs_baxevanis] *)
Definition gather_sources_qs_baxevanis (fld_1 fld_2 fld_3 : arr2) (g : geom) (z : R)
    (r : list R) (old : list (R * R * R)) : result (list (R * R * R)) :=
  traverse (fun ro => gather_sources1 fld_1 fld_2 fld_3 g z (fst ro) (snd ro))
           (combine r old).

(** rz_wakefield.py:127-128: numpy.linspace(a, b, n)[i] *)
Definition linspace (a b : R) (n i : Z) : R := a + IZR i * ((b - a) / (IZR n - 1)).

(** rz_wakefield.py:92-98, 119-128: parameters and arrays of a wakefield on an r-z grid *)
Record rz := mkrz { w_rmax : R; w_ximin : R; w_ximax : R; w_nr : Z; w_nxi : Z;
                    e_r : arr2; e_z : arr2; b_t : arr2 }.
(** rz_wakefield.py:97: dr = r_max / n_r. *)
Definition w_dr (w : rz) : R := w_rmax w / IZR (w_nr w).
(** rz_wakefield.py:127: r_fld. *)
Definition r_fld (w : rz) : Z -> R :=
  linspace (w_dr w / 2) (w_rmax w - w_dr w / 2) (w_nr w).
(** rz_wakefield.py:128 *)
Definition xi_fld (w : rz) : Z -> R := linspace (w_ximin w) (w_ximax w) (w_nxi w).
(** rz_wakefield.py:150-155: arguments of the gathering *)
Definition w_geom (w : rz) : geom :=
  mkg (xi_fld w 0) (xi_fld w (w_nxi w - 1)) (r_fld w 0) (r_fld w (w_nr w - 1))
      (xi_fld w 1 - xi_fld w 0) (r_fld w 1 - r_fld w 0).
(** rz_wakefield.py:149-155 [RZWakefield._gather] *)
Definition w_gather (w : rz) (ps : list pos) (b : list em) : result (list em) :=
  gather_main_fields_cyl_linear (e_r w) (e_z w) (b_t w) (w_geom w) ps b.
(** rz_wakefield.py:119-126: all arrays have two guard cells on each side. *)
Definition guarded (nxi nr : Z) (f : Z -> Z -> R) : arr2 := mka (nxi + 4) (nr + 4) f.

(** fields/interpolation.py:45-102: the value written to fld_new[i, j], where z_i = z_new[i] and
    r_j = r_new[j] *)
Definition interpolate_rz1 (fld : arr2) (z_min r_min dz dr z_i r_j : R) : result R :=
  let nz := rows fld in
  let nr := cols fld in
  let z_i_cell := (z_i - z_min) / dz in
  let iz_lower := Int_part z_i_cell in
  let iz_upper0 := (iz_lower + 1)%Z in
  let dz_u := IZR iz_upper0 - z_i_cell in
  let dz_l := z_i_cell - IZR iz_lower in
  let iz_upper := Z.min iz_upper0 (nz - 1) in
  let r_j_cell := (r_j - r_min) / dr in
  let jr_lower := Z.max (Int_part r_j_cell) 0 in
  let jr_upper0 := (jr_lower + 1)%Z in
  let dr_u := IZR jr_upper0 - r_j_cell in
  let dr_l := 1 - dr_u in
  let jr_upper := Z.min (jr_lower + 1) (nr - 1) in
  do fld_ll <- rd2 fld iz_lower jr_lower;
  do fld_lu <- rd2 fld iz_lower jr_upper;
  do fld_ul <- rd2 fld iz_upper jr_lower;
  do fld_uu <- rd2 fld iz_upper jr_upper;
  do lu_uu <- (if Z.eqb jr_lower jr_upper then
                 do l1 <- rd2 fld iz_lower (jr_upper - 1);
                 do u1 <- rd2 fld iz_upper (jr_upper - 1);
                 Ok (fld_lu + (fld_lu - l1), fld_uu + (fld_uu - u1))
               else Ok (fld_lu, fld_uu));
  let '(fld_lu, fld_uu) := lu_uu in
  let fld_z_1 := dz_u * fld_ll + dz_l * fld_ul in
  let fld_z_2 := dz_u * fld_lu + dz_l * fld_uu in
  Ok (dr_u * fld_z_1 + dr_l * fld_z_2).
(** fields/interpolation.py:10-102 [interpolate_rz_field] *)
Definition interpolate_rz_field (fld : arr2) (z_min r_min dz dr : R)
    (z_new r_new : list R) : result (list (list R)) :=
  traverse (fun z_i => traverse (interpolate_rz1 fld z_min r_min dz dr z_i) r_new) z_new.

(** laser_pulse.py:247, 253: radial spacing of a grid (main grid or subgrid) *)
Definition grid_dr (rmax : R) (nr : Z) : R := rmax / IZR nr.
(** laser_pulse.py:248, 254 *)
Definition grid_dz (ximin ximax : R) (nz : Z) : R := (ximax - ximin) / (IZR nz - 1).
(** laser_pulse.py:249-250, 255-256, 268, 278: cell-centred radii of a grid (main grid or
    subgrid) *)
Definition grid_r (rmax : R) (nr j : Z) : R :=
  linspace (grid_dr rmax nr / 2) (rmax - grid_dr rmax nr / 2) nr j.
(** laser_pulse.py:267, 277: longitudinal positions of a grid *)
Definition grid_z (ximin ximax : R) (nz i : Z) : R := linspace ximin ximax nz i.
(** laser_pulse.py:267-268, 277-278: all indices of an axis *)
Definition indices (n : Z) : list Z := map Z.of_nat (seq 0 (Z.to_nat n)).
(** laser_pulse.py:286-298, 307-318 [_update_output_envelope], [_interpolate_chi_to_subgrid]:
    from a grid of [nz] x [nr] points to one of [nz'] x [nr'] points. *)
Definition regrid (fld : arr2) (ximin ximax rmax : R) (nz nr nz' nr' : Z)
    : result (list (list R)) :=
  interpolate_rz_field fld ximin (grid_dr rmax nr / 2)
    (grid_dz ximin ximax nz) (grid_dr rmax nr)
    (map (grid_z ximin ximax nz') (indices nz'))
    (map (grid_r rmax nr') (indices nr')).
