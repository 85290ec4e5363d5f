(** Model of the plasma column and of the wakefield potential of the quasi-static model:
    plasma_particles.py and psi_and_derivatives.py in
    wake_t/physics_models/plasma_wakefields/qs_rz_baxevanis. Arithmetic is exact (reals);
    np.log of numbers that are not positive and divisions by zero (coinciding radii) are not
    modelled. Arrays are lists; [idx] is the result of np.argsort. Not modelled:
    [calculate_psi_and_derivatives] (not called by any code), the allocation of arrays. *)
From Coq Require Import Reals ZArith List Bool Arith.
From Verif Require Import Model_Push Model_Interp.
Import ListNotations.
Open Scope R_scope.

(** psi_and_derivatives.py:92, 97, 149, 211-212 [a[i] = v]. *)
Fixpoint assign (i : nat) (v : R) (a : list R) : list R :=
  match a, i with
  | [], _ => []
  | _ :: r, O => v :: r
  | x :: r, S j => x :: assign j v r
  end.
(** psi_and_derivatives.py:55-57, 121-125, 205-207: reading [a[idx[0]], a[idx[1]], ...]. *)
Definition take (idx : list nat) (a : list R) : list R := map (fun i => nth i a 0) idx.
(** psi_and_derivatives.py:92, 97, 149, 211-212: The effect of a loop that assigns [a[idx[k]] =
    v[k]] for k = 0, 1, ... *)
Fixpoint put (idx : list nat) (v : list R) (a : list R) : list R :=
  match idx, v with
  | i :: idx', x :: v' => put idx' v' (assign i x a)
  | _, _ => a
  end.

(** ** plasma_particles.py *)
(** plasma_particles.py:32: np.round: to the nearest integer, to the even one if there are two. *)
Definition round_even (x : R) : Z :=
  let f := Int_part x in
  if Rlt_dec (frac_part x) (/ 2) then f
  else if Rlt_dec (/ 2) (frac_part x) then (f + 1)%Z
  else if Z.even f then f else (f + 1)%Z.
(** plasma_particles.py:52-58: the arrays of the plasma particles. *)
Record column := mkcol { p_r : list R; p_pr : list R; p_pz : list R; p_gamma : list R;
  p_q : list R }.
(** plasma_particles.py:32: number of particles *)
Definition n_part (r_max_plasma dr ppc : R) : nat := Z.to_nat (round_even (r_max_plasma / dr * ppc)).
(** plasma_particles.py:35-36: plasma radius that is kept *)
Definition adjusted_radius (r_max_plasma dr ppc : R) : R :=
  INR (n_part r_max_plasma dr ppc) * (dr / ppc).
(** plasma_particles.py:48-58 [initialize] *)
Definition initialize (r_max_plasma pc dr ppc : R) : column :=
  let n := n_part r_max_plasma dr ppc in
  let dr_p := dr / ppc in
  let r := map (fun i => linspace (dr_p / 2) (adjusted_radius r_max_plasma dr ppc - dr_p / 2)
                           (Z.of_nat n) (Z.of_nat i)) (seq 0 n) in
  mkcol r (repeat 0 n) (repeat 0 n) (repeat 1 n)
    (map (fun r_i => dr_p * r_i + dr_p * pc * r_i ^ 3) r).

(** ** psi_and_derivatives.py *)
(** psi_and_derivatives.py:335-346 [delta_psi_eq] *)
Definition delta_psi_eq (r sum_1 sum_2 r_max pc : R) : R :=
  let elec := sum_1 * ln r - sum_2 in
  let ion := if Rle_dec r r_max then 0.25 * r ^ 2 + pc * r ^ 4 / 16
             else 0.25 * r_max ^ 2 + pc * r_max ^ 4 / 16 +
                  (0.5 * r_max ^ 2 + 0.25 * pc * r_max ^ 4) * (ln r - ln r_max) in
  elec - ion.
(** psi_and_derivatives.py:349-357 [dr_psi_eq] *)
Definition dr_psi_eq (r sum_1 r_max pc : R) : R :=
  let elec := sum_1 / r in
  let ion := if Rle_dec r r_max then 0.5 * r + 0.25 * pc * r ^ 3
             else (0.5 * r_max ^ 2 + 0.25 * pc * r_max ^ 4) / r in
  elec - ion.

(** psi_and_derivatives.py:65-72, 130-135: middle point to the left of a particle. *)
Definition left_of (prev : option R) (r_i : R) : R :=
  match prev with Some r_im1 => (r_im1 + r_i) / 2 | None => 0 end.
(** psi_and_derivatives.py:78-84, 139-143: middle point to the right of a particle. *)
Definition right_of (dr_p r_i : R) (rs : list R) : R :=
  match rs with r_ip1 :: _ => (r_i + r_ip1) / 2 | [] => r_i + dr_p / 2 end.
(** psi_and_derivatives.py:90-97, 147-149: straight line through two points. *)
Definition between (x_left x_right y_left y_right x : R) : R :=
  let b := (y_right - y_left) / (x_right - x_left) in
  let a := y_left - b * x_left in
  a + b * x.
(** psi_and_derivatives.py:54-101: the first loop, over the sorted radii and charges; (psi,
    dr_psi) before the boundary condition. *)
Fixpoint psi_loop (r_max dr_p pc : R) (prev : option R) (sum_1 sum_2 : R) (rs qs : list R)
    : list (R * R) :=
  match rs, qs with
  | r_i :: rs', q_i :: qs' =>
      let sum_1_new := sum_1 + q_i in
      let sum_2_new := sum_2 + q_i * ln r_i in
      let r_left := left_of prev r_i in
      let psi_left := match prev with Some _ => delta_psi_eq r_left sum_1 sum_2 r_max pc | None => 0 end in
      let dr_psi_left := match prev with Some _ => dr_psi_eq r_left sum_1 r_max pc | None => 0 end in
      let r_right := right_of dr_p r_i rs' in
      let psi_right := delta_psi_eq r_right sum_1_new sum_2_new r_max pc in
      let dr_psi_right := dr_psi_eq r_right sum_1_new r_max pc in
      (between r_left r_right psi_left psi_right r_i,
       between r_left r_right dr_psi_left dr_psi_right r_i)
      :: psi_loop r_max dr_p pc (Some r_i) sum_1_new sum_2_new rs' qs'
  | _, _ => []
  end.
(** psi_and_derivatives.py:60-61, 100-101: a sum built up in a loop. *)
Fixpoint total (s : R) (l : list R) : R := match l with [] => s | a :: r => total (s + a) r end.
(** psi_and_derivatives.py:60, 100: sum_1 after the loop. *)
Definition sum_1_of (qs : list R) : R := total 0 qs.
(** psi_and_derivatives.py:61, 101: sum_2 after the loop. *)
Definition sum_2_of (rs qs : list R) : R := total 0 (map2 (fun r q => q * ln r) rs qs).
(** psi_and_derivatives.py:84: r_right after the loop. *)
Definition last_right (dr_p : R) (rs : list R) : R := last rs 0 + dr_p / 2.
(** psi_and_derivatives.py:114-117: lower bound of psi. *)
Definition bounded_psi (v : R) : R := if Rlt_dec v (-0.90) then -0.90 else v.
(** psi_and_derivatives.py:119-150: the second loop. *)
Fixpoint dxi_loop (dr_p : R) (prev : option R) (sum_3 : R) (rs ps qs psis : list R) : list R :=
  match rs, ps, qs, psis with
  | r_i :: rs', pr_i :: ps', q_i :: qs', psi_i :: psis' =>
      let sum_3_new := sum_3 + (q_i * pr_i) / (r_i * (1 + psi_i)) in
      let r_left := left_of prev r_i in
      let dxi_psi_left := match prev with Some _ => - sum_3 | None => 0 end in
      let r_right := right_of dr_p r_i rs' in
      between r_left r_right dxi_psi_left (- sum_3_new) r_i
      :: dxi_loop dr_p (Some r_i) sum_3_new rs' ps' qs' psis'
  | _, _, _, _ => []
  end.
(** psi_and_derivatives.py:127: the terms of sum_3. *)
Definition terms_3 (rs ps qs psis : list R) : list R :=
  map2 (fun rp qpsi => (fst qpsi * snd rp) / (fst rp * (1 + snd qpsi))) (combine rs ps) (combine qs psis).
(** psi_and_derivatives.py:127, 150: sum_3 after the loop. *)
Definition sum_3_of (rs ps qs psis : list R) : R := total 0 (terms_3 rs ps qs psis).
(** psi_and_derivatives.py:152-157: derivative of the boundary condition. *)
Definition dxi_boundary (r_max dr_p pc : R) (rs ps qs psis : list R) : R :=
  let sum_3 := sum_3_of rs ps qs psis in
  let r_right := last_right dr_p rs in
  if Rle_dec r_right r_max then sum_3
  else sum_3 - (sum_1_of qs - r_max ^ 2 / 2 - pc * r_max / 4)
               * last ps 0 / (r_right * (1 + last psis 0)).
(** psi_and_derivatives.py:159-166: bounds of dxi_psi and, in b_theta.py:79-82, of b_theta. *)
Definition clip3 (v : R) : R :=
  let v := if Rlt_dec 3 v then 3 else v in
  if Rlt_dec v (-3) then -3 else v.

(** psi_and_derivatives.py:12-166 [calculate_psi_and_derivatives_at_particles]: psi_pp,
    dr_psi_pp, dxi_psi_pp, whose previous values do not matter: all entries are assigned. At
    least one particle. *)
Definition psi_at_particles (r pr q : list R) (idx : list nat) (r_max dr_p pc : R)
    : list R * list R * list R :=
  let rs := take idx r in let ps := take idx pr in let qs := take idx q in
  let first := psi_loop r_max dr_p pc None 0 0 rs qs in
  let r_furthest := Rmax (last_right dr_p rs) r_max in
  let edge := delta_psi_eq r_furthest (sum_1_of qs) (sum_2_of rs qs) r_max pc in
  let zero := repeat 0 (length r) in
  let psi := map (fun v => bounded_psi (v - edge)) (put idx (map fst first) zero) in
  let dr_psi := put idx (map snd first) zero in
  let psis := take idx psi in
  let shift := dxi_boundary r_max dr_p pc rs ps qs psis in
  let dxi_psi := map (fun v => clip3 (v + shift)) (put idx (dxi_loop dr_p None 0 rs ps qs psis) zero) in
  (psi, dr_psi, dxi_psi).

(** psi_and_derivatives.py:223-231 (and b_theta.py:128-136): index of the last particle with
    r_i < r_j, searched from [i_last] on. [k]: index of the head of the list. *)
Fixpoint search (r_j : R) (i_last k : Z) (l : list R) : Z :=
  match l with
  | [] => i_last
  | r_i :: l' => if Rle_dec r_j r_i then (k - 1)%Z else search r_j k (k + 1)%Z l'
  end.
(** psi_and_derivatives.py:223-231, b_theta.py:128-136: the search from [i_last] on. *)
Definition search_from (r_j : R) (i_last : Z) (rs : list R) : Z :=
  search r_j i_last i_last (skipn (Z.to_nat i_last) rs).
(** psi_and_derivatives.py:219-241 (and b_theta.py:125-143): loop over the grid points;
    [inner r_j] is the value before the first particle and [outer i r_j] that after particle
    [i] (in sorted order). *)
Fixpoint on_grid (inner : R -> R) (outer : nat -> R -> R) (rs : list R) (i_last : Z) (r_fld : list R)
    : list R :=
  match r_fld with
  | [] => []
  | r_j :: l =>
      let i := search_from r_j i_last rs in
      if Z.eqb i (-1) then inner r_j :: on_grid inner outer rs 0 l
      else outer (Z.to_nat i) r_j :: on_grid inner outer rs i l
  end.
(** psi_and_derivatives.py:203-212: running sums; the entry k includes particle k. *)
Fixpoint running (s : R) (l : list R) : list R :=
  match l with [] => [] | a :: r => (s + a) :: running (s + a) r end.
(** psi_and_derivatives.py:217, 241, b_theta.py:124, 139, 143: Writing a row of values behind
    the two guard cells. *)
Definition set_row (a : arr2) (i : Z) (v : list R) : arr2 :=
  mka (rows a) (cols a) (fun k j =>
    if andb (Z.eqb k i) (andb (Z.leb 2 j) (Z.ltb j (2 + Z.of_nat (length v))))
    then nth (Z.to_nat (j - 2)) v 0 else cell a k j).
(** psi_and_derivatives.py:245 [psi_slice -= d]. *)
Definition shift_row (a : arr2) (i : Z) (d : R) : arr2 :=
  mka (rows a) (cols a) (fun k j => if Z.eqb k i then cell a k j - d else cell a k j).
(** psi_and_derivatives.py:169-245 [calculate_psi]. At least one particle. *)
Definition calculate_psi (r_fld r q : list R) (idx : list nat) (r_max pc : R) (psi : arr2) (k : Z)
    : arr2 :=
  let rs := take idx r in let qs := take idx q in
  let zero := repeat 0 (length r) in
  let sum_1_arr := put idx (running 0 qs) zero in
  let sum_2_arr := put idx (running 0 (map2 (fun r q => q * ln r) rs qs)) zero in
  let v := on_grid (fun r_j => delta_psi_eq r_j 0 0 r_max pc)
             (fun i r_j => delta_psi_eq r_j (nth (nth i idx 0%nat) sum_1_arr 0)
                             (nth (nth i idx 0%nat) sum_2_arr 0) r_max pc) rs 0 r_fld in
  let r_furthest := Rmax (last rs 0) r_max in
  shift_row (set_row psi (k + 2) v) (k + 2)
    (delta_psi_eq r_furthest (sum_1_of qs) (sum_2_of rs qs) r_max pc).
