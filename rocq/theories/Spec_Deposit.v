(** Vocabulary for the properties of the deposition. *)
From Coq Require Import Reals ZArith String List.
From Verif Require Import Model_Push Model_Interp Spec_Interp Model_Deposit.
Import ListNotations.
Open Scope R_scope.

(** A cell-centred grid in r, as all callers use, with at least one cell. *)
Definition dgrid_ok (g : dgrid) : Prop :=
  0 < dg_dz g /\ 0 < dg_dr g /\ dg_rmin g = dg_dr g / 2 /\ (1 <= dg_nz g)%Z /\ (1 <= dg_nr g)%Z.
(** The array has two guard cells on each side. *)
Definition darray (g : dgrid) (a : arr2) : Prop :=
  rows a = (dg_nz g + 4)%Z /\ cols a = (dg_nr g + 4)%Z.
(** Inner cells; all others are guard cells. *)
Definition inner_cell (g : dgrid) (i j : Z) : Prop :=
  (2 <= i < dg_nz g + 2)%Z /\ (2 <= j < dg_nr g + 2)%Z.

(** Is a particle within the domain. *)
Definition z_last (g : dgrid) : R := dg_zmin g + (IZR (dg_nz g) - 1) * dg_dz g.
Definition r_edge (g : dgrid) : R := IZR (dg_nr g) * dg_dr g.
Definition inside (g : dgrid) (p : pos) : Prop :=
  dg_zmin g <= lon p <= z_last g /\ radius p <= r_edge g.
Definition inside_dec (g : dgrid) (p : pos) : {inside g p} + {~ inside g p}.
Proof.
  unfold inside. destruct (Rle_dec (dg_zmin g) (lon p)); [|right; tauto].
  destruct (Rle_dec (lon p) (z_last g)); [|right; tauto].
  destruct (Rle_dec (radius p) (r_edge g)); [left|right]; tauto.
Defined.

(** Sums. *)
Definition sum_range (n : Z) (f : Z -> R) : R :=
  fold_right Rplus 0 (map (fun k => f (Z.of_nat k)) (seq 0 (Z.to_nat n))).
Definition total_charge (a : arr2) : R :=
  sum_range (rows a) (fun i => sum_range (cols a) (fun j => cell a i j)).
Definition charge_inside (g : dgrid) (l : list (pos * R)) : R :=
  fold_right (fun pw s => (if inside_dec g (fst pw) then snd pw else 0) + s) 0 l.
Definition plasma_inside (g : dgrid) (l : list (R * R)) : R :=
  fold_right (fun rw s => (if Rle_dec (fst rw) (r_edge g) then snd rw else 0) + s) 0 l.

Definition shape_name (s : string) : Prop := s = "linear"%string \/ s = "cubic"%string.

(** Arrays that agree in size and in every entry. *)
Definition same_array (a b : arr2) : Prop :=
  rows a = rows b /\ cols a = cols b /\ forall i j, cell a i j = cell b i j.
Definition zeros (g : dgrid) : arr2 := mka (dg_nz g + 4) (dg_nr g + 4) (fun _ _ => 0).

(** First moments of an array: z of row i, r of column j (guard cells included). *)
Definition row_z (g : dgrid) (i : Z) : R := dg_zmin g + (IZR i - 2) * dg_dz g.
Definition col_r (g : dgrid) (j : Z) : R := dg_rmin g + (IZR j - 2) * dg_dr g.
Definition moment (f : Z -> Z -> R) (a : arr2) : R :=
  sum_range (rows a) (fun i => sum_range (cols a) (fun j => f i j * cell a i j)).

(** Charge that the radial cell [j] receives from a unit particle at (r, z). *)
Definition radial_share (g : dgrid) (s : string) (ruyten : bool) (z r : R) (j : Z) : R :=
  match deposit_3d_distribution g s ruyten [((r, 0, z), 1)] (zeros g) with
  | Returned (Ok a) => sum_range (rows a) (fun i => cell a i (j + 2)%Z)
  | _ => 0
  end.
Definition is_cubic (s : string) : bool := String.eqb s "cubic".
Definition weighted (g : dgrid) (f : pos -> R) (l : list (pos * R)) : R :=
  fold_right (fun pw s => (if inside_dec g (fst pw) then snd pw * f (fst pw) else 0) + s) 0 l.

(** Grids on which no charge reaches the guard cells: at least three cells each way for
    the cubic shape; more cells along z than along r for the linear shape (its test for
    the last longitudinal cell looks at the radial position). *)
Definition guarded_grid (g : dgrid) (s : string) : Prop :=
  if is_cubic s then (3 <= dg_nz g /\ 3 <= dg_nr g)%Z else (dg_nr g < dg_nz g)%Z.
(** Away from the ends in z: more than a cell (cubic); for the linear shape only the
    radius has to be small enough. *)
Definition away_z (g : dgrid) (s : string) (p : pos) : Prop :=
  if is_cubic s then dg_zmin g + dg_dz g < lon p <= z_last g - dg_dz g
  else radius p <= (IZR (dg_nz g) - / 2) * dg_dr g.
(** Away from the axis and from the outer edge. *)
Definition away_r (g : dgrid) (s : string) (p : pos) : Prop :=
  if is_cubic s then 3 / 2 * dg_dr g < radius p <= r_edge g - 3 / 2 * dg_dr g
  else / 2 * dg_dr g <= radius p <= r_edge g - / 2 * dg_dr g.
(** Area of the ring between the edges of radial cell [j]. *)
Definition ring_area (g : dgrid) (j : Z) : R :=
  PI * ((IZR j + 1) * dg_dr g) ^ 2 - PI * (IZR j * dg_dr g) ^ 2.

(** The same for plasma particles at radius r in slice [zc]. *)
Definition plasma_away_z (g : dgrid) (s : string) (zc : Z) (r : R) : Prop :=
  if is_cubic s then (1 < zc <= dg_nz g - 2)%Z
  else r <= (IZR (dg_nz g) - / 2) * dg_dr g.
Definition plasma_away_r (g : dgrid) (s : string) (r : R) : Prop :=
  if is_cubic s then 3 / 2 * dg_dr g < r <= r_edge g - 3 / 2 * dg_dr g
  else / 2 * dg_dr g <= r <= r_edge g - / 2 * dg_dr g.
Definition plasma_weighted (g : dgrid) (f : R -> R) (l : list (R * R)) : R :=
  fold_right (fun rw s => (if Rle_dec (fst rw) (r_edge g) then snd rw * f (fst rw) else 0) + s) 0 l.
