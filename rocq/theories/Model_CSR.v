(** Model of wake_t/physics_models/collective_effects/csr.py. Lengths and step sizes are
    floats, hence rationals; the step sizes are computed with a rounding function [rnd]
    applied to the result of every operation ([fun q => q] for exact arithmetic, [f64] for
    the arithmetic of the machine).  Everything computed from the step sizes is in exact
    real arithmetic. *)
From Coq Require Import QArith Qround Qreals Reals List Arith.
From Verif Require Import Model_Float32 Model_Push Model_Bunch.
Import ListNotations.
Open Scope R_scope.

(** csr.py:136-146, tm_elements.py:200,209,211: IEEE 754 binary64, round to nearest even (no
    overflow). *)
Definition ulp64 (x : Q) : Q := pow2 (Z.max (expo x) (-1022) - 52).
(** csr.py:136-146, tm_elements.py:200,209,211: the rounding of each operation there; positive
    values. *)
Definition f64_pos (x : Q) : Q := (inject_Z (nearest_even (x / ulp64 x)) * ulp64 x)%Q.
(** csr.py:136-146, tm_elements.py:200,209,211: the rounding of each operation there. *)
Definition f64 (x : Q) : Q :=
  if Qle_bool x 0 then (if Qle_bool 0 x then 0 else - f64_pos (- x))%Q else f64_pos x.

(** tm_elements.py:51-71: the attributes of an element; [e_id]: the identity of the
    Python object. *)
Record elem := mkel { e_id : nat; e_length : Q; e_theta : R; e_k1 : R; e_k2 : R;
  e_gamma_ref : option R; e_csr_on : bool; e_n_out : option nat; e_order : nat }.

(** csr.py:162-190: A column of the trajectory table: path length, position, tangent. *)
Record tp := mktp { t_s : R; t_x : R; t_y : R; t_z : R; t_ex : R; t_ey : R; t_ez : R }.
(** csr.py:164: the first column of the trajectory. *)
Definition origin : tp := mktp 0 0 0 0 0 0 1.

(** csr.py:19-30: the state of the calculator. *)
Record csr := mkcsr { c_traj : option (list tp); c_elems : list elem; c_steps : list nat;
  c_traj_steps : list (Q * Q); c_step : Q; c_traj_step : Q; c_bins : nat }.
(** csr.py:19-30 [__init__] *)
Definition csr0 : csr := mkcsr None [] [] [] (1 # 10) (5 # 10000) 2000.
(** csr.py:26-30 [set_settings] *)
Definition set_settings (c : csr) (step traj_step : Q) (bins : nat) : csr :=
  mkcsr (c_traj c) (c_elems c) (c_steps c) (c_traj_steps c) step traj_step bins.
(** csr.py:44-54 [clear]; the list of step sizes is not cleared. *)
Definition clear (c : csr) : csr :=
  mkcsr None [] [] (c_traj_steps c) (c_step c) (c_traj_step c) (c_bins c).

(** csr.py:140, tm_elements.py:200: an integer as an exact float. *)
Definition qn (n : nat) : Q := inject_Z (Z.of_nat n).

Section Rounding.
Variable rnd : Q -> Q.
Open Scope Q_scope.

(** csr.py:130-147 [_set_element_steps]; [%] on floats is exact. *)
Definition element_steps (csr_step traj_step L : Q) (n_out : option nat) : Q * Q :=
  let ds_csr :=
    match n_out with
    | Some n => let ds_out := rnd (L / qn n) in
                rnd (ds_out / inject_Z (Qceiling (rnd (ds_out / csr_step))))
    | None => if negb (Qle_bool csr_step L) then L
              else if Qeq_bool (L - csr_step * inject_Z (Qfloor (L / csr_step))) 0
              then csr_step
              else rnd (L / inject_Z (Qceiling (rnd (L / csr_step))))
    end in
  (ds_csr, rnd (ds_csr / inject_Z (Qceiling (rnd (ds_csr / traj_step))))).
(** csr.py:160 *)
Definition traj_points (L ds_traj : Q) : nat := Z.to_nat (Qceiling (rnd (L / ds_traj))).

(** tm_elements.py:214-216 [np.arange(0, n)[::-frac]]. *)
Definition every (n frac : nat) : list nat :=
  filter (fun i => Nat.eqb ((n - 1 - i) mod frac) 0) (rev (seq 0 n)).
(** tm_elements.py:198-219 [_determine_steps]; [step]: the CSR step if CSR is on. [None]:
    ZeroDivisionError. *)
Definition determine_steps (L : Q) (n_out : option nat) (step : option Q)
    : option (Q * nat * list nat) :=
  match n_out with
  | Some O => None
  | _ =>
    let '(l_step, n_track, frac_out) :=
      match n_out with
      | Some n => (rnd (L / qn n), n, 1%nat)
      | None => (L, 1%nat, 0%nat)
      end in
    let '(l_step, n_track, frac_out) :=
      match step with
      | Some ds =>
          let n_csr := Z.to_nat (Qfloor (rnd (L / ds))) in
          (ds, n_csr,
           match n_out with
           | Some n => Z.to_nat (Qfloor (rnd (qn n_csr / qn n)))
           | None => frac_out
           end)
      | None => (l_step, n_track, frac_out)
      end in
    Some (l_step, n_track, if Nat.eqb frac_out 0 then [] else every n_track frac_out)
  end.
Close Scope Q_scope.

(** csr.py:165-188 [_calculate_trajectory], one point; [l]: distance into the element. *)
Definition arc_point (p : tp) (L theta l : R) : tp :=
  if Req_EM_T theta 0 then
    mktp (t_s p + l) (t_x p + t_ex p * l) (t_y p + t_ey p * l) (t_z p + t_ez p * l)
      (t_ex p) (t_ey p) (t_ez p)
  else
    let rho := L / theta in
    (* e2 = n x e1 with n = (0, 1, 0) *)
    let e2x := t_ez p in
    let e2y := 0 in
    let e2z := - t_ex p in
    let si := sin (l / rho) in
    let co := cos (l / rho) in
    let omco := 2 * sin (l / (2 * rho)) ^ 2 in
    mktp (t_s p + l)
      (t_x p + rho * (t_ex p * si + e2x * omco))
      (t_y p + rho * (t_ey p * si + e2y * omco))
      (t_z p + rho * (t_ez p * si + e2z * omco))
      (t_ex p * co + e2x * si) (t_ey p * co + e2y * si) (t_ez p * co + e2z * si).
(** csr.py:160-161, 167: np.linspace(ds, L, n)[k] *)
Definition l_traj (L : R) (n k : nat) : R :=
  let ds := L / INR n in
  if Nat.eqb n 1 then ds else ds + INR k * ((L - ds) / (INR n - 1)).

(** csr.py:40, 81, 158: list.index: the first entry that is this object. *)
Fixpoint index (l : list elem) (e : elem) : nat :=
  match l with
  | [] => O
  | a :: r => if Nat.eqb (e_id a) (e_id e) then O else S (index r e)
  end.
(** csr.py:40-41, 81-82, 158-159: the step sizes stored for an element. *)
Definition steps_of (c : csr) (e : elem) : Q * Q :=
  nth (index (c_elems c) e) (c_traj_steps c) (0, 0)%Q.
(** csr.py:38-42 [get_csr_step]. *)
Definition get_csr_step (c : csr) (e : elem) : Q := fst (steps_of c e).

(** csr.py:32-36, 130-191 [add_lattice_element] with the two functions it calls. *)
Definition add_lattice_element (c : csr) (e : elem) : csr :=
  let c1 := mkcsr (c_traj c) (c_elems c ++ [e]) (c_steps c)
    (c_traj_steps c ++ [element_steps (c_step c) (c_traj_step c) (e_length e) (e_n_out e)])
    (c_step c) (c_traj_step c) (c_bins c) in
  let n := traj_points (e_length e) (snd (steps_of c1 e)) in
  let traj0 := match c_traj c1 with None => [origin] | Some t => t end in
  let start := last traj0 origin in
  let L := Q2R (e_length e) in
  mkcsr (Some (traj0 ++ map (fun k => arc_point start L (e_theta e) (l_traj L n k)) (seq 0 n)))
    (c_elems c1) (c_steps c1 ++ [n]) (c_traj_steps c1) (c_step c1) (c_traj_step c1) (c_bins c1).
End Rounding.

(** ** Kernel *)
(** csr.py:234, 318: np.diff(a, append=0) *)
Fixpoint diff0 (l : list R) : list R :=
  match l with
  | [] => []
  | a :: r => (hd 0 r - a) :: diff0 r
  end.
(** csr.py:317: K[:-1] += K[1:] *)
Fixpoint add_next (l : list R) : list R :=
  match l with
  | [] => []
  | a :: r => match r with [] => a | b :: _ => a + b end :: add_next r
  end.
(** csr.py:319: np.cumsum(K[::-1])[::-1] *)
Fixpoint suffix_sums (l : list R) : list R :=
  match l with
  | [] => []
  | a :: r => (a + sum r) :: suffix_sums r
  end.
(** csr.py:125, 229, 231: np.interp(x, xs, fs) for increasing xs. *)
Fixpoint interp_from (x0 f0 : R) (xs fs : list R) (x : R) : R :=
  match xs, fs with
  | x1 :: xr, f1 :: fr =>
      if Rlt_dec x x1 then f0 + (f1 - f0) / (x1 - x0) * (x - x0) else interp_from x1 f1 xr fr x
  | _, _ => f0
  end.
(** csr.py:125, 229, 231: np.interp, constant outside the range of xs. *)
Definition interp (xs fs : list R) (x : R) : R :=
  match xs, fs with
  | x0 :: xr, f0 :: fr => if Rlt_dec x x0 then f0 else interp_from x0 f0 xr fr x
  | _, _ => 0
  end.
(** csr.py:282-284, 420-422: np.where(w <= wmin)[0][-1] *)
Fixpoint last_le (wmin : R) (w : list R) : option nat :=
  match w with
  | [] => None
  | a :: r => match last_le wmin r with
              | Some j => Some (S j)
              | None => if Rle_dec a wmin then Some O else None
              end
  end.
(** csr.py:224 [np.where(w_range < w_min)[0][-1]] for increasing w_range. *)
Definition last_lt (wmin : R) (w : list R) : nat :=
  List.length (filter (fun a => if Rlt_dec a wmin then true else false) w) - 1.

(** csr.py:261-263, 344-347 *)
Definition beta_r (gamma : R) : R := sqrt (1 - 1 / gamma ^ 2).
(** csr.py:272-277, 415-418 *)
Definition dist (a b : tp) : R :=
  sqrt ((t_x a - t_x b) * (t_x a - t_x b) + (t_y a - t_y b) * (t_y a - t_y b)
        + (t_z a - t_z b) * (t_z a - t_z b)).
(** csr.py:269-279, 414-419: the retarded distance. *)
Definition retard (beta : R) (cur p : tp) : R := t_s p - t_s cur + beta * dist cur p.
(** csr.py:304-314 *)
Definition kern (gamma : R) (cur p : tp) : R :=
  let gamma_sq_inv := 1 / gamma ^ 2 in
  let beta_sq := 1 - gamma_sq_inv in
  let beta := sqrt beta_sq in
  let w := retard beta cur p in
  let r_inv := 1 / dist cur p in
  let n0 := (t_x cur - t_x p) * r_inv in
  let n1 := (t_y cur - t_y p) * r_inv in
  let n2 := (t_z cur - t_z p) * r_inv in
  let x := n0 * t_ex p + n1 * t_ey p + n2 * t_ez p in
  (beta * (x - n0 * t_ex cur - n1 * t_ey cur - n2 * t_ez cur)
   - beta_sq * (1 - t_ex p * t_ex cur - t_ey p * t_ey cur - t_ez p * t_ez cur)
   - gamma_sq_inv) * r_inv
  - (1 - beta * x) / w * gamma_sq_inv.
(** csr.py:376-423 [_estimate_start_index]; np.linspace(0, i, 10, dtype=np.int32) truncates. *)
Definition estimate_start_index (i : nat) (traj : list tp) (w_min beta : R) : nat :=
  if Nat.ltb 1000 i then
    let idx := map (fun k => (k * i / 9)%nat) (seq 0 10) in
    let cur := nth i traj origin in
    match last_le w_min (map (fun a => retard beta cur (nth a traj origin)) idx) with
    | Some j => nth j idx 0%nat
    | None => O
    end
  else O.
(** csr.py:237-321 [_calculate_kernel_long_range] from the start index [i_0]. *)
Definition long_range_from (i_0 i : nat) (traj : list tp) (wmin gamma : R)
    : list R * list R :=
  let beta := beta_r gamma in
  let cur := nth i traj origin in
  let pts := firstn (i - i_0) (skipn i_0 traj) in
  let pts := match last_le wmin (map (retard beta cur) pts) with
             | Some j => skipn j pts
             | None => pts
             end in
  let k := add_next (map (kern gamma cur) pts) in
  let k := map2 Rmult k (map (Rmult 0.5) (diff0 (map (fun p => t_s p - t_s cur) pts))) in
  (map (retard beta cur) pts, suffix_sums k).
(** csr.py:237-321 [_calculate_kernel_long_range]. *)
Definition long_range (i : nat) (traj : list tp) (wmin gamma : R) : list R * list R :=
  long_range_from (estimate_start_index i traj wmin (beta_r gamma)) i traj wmin gamma.

(** csr.py:323-374 [_calculate_kernel_short_range] *)
Definition short_range (i : nat) (traj : list tp) (w_range : list R) (gamma : R) : list R :=
  let gamma_sq := gamma ^ 2 in
  let gamma_sq_inv := 1 / gamma_sq in
  let beta_sq := 1 - gamma_sq_inv in
  let beta := sqrt beta_sq in
  let cur := nth i traj origin in
  let first := nth 0 traj origin in
  let rx := t_x cur - t_x first in
  let ry := t_y cur - t_y first in
  let rz := t_z cur - t_z first in
  let s1 := t_s first - t_s cur in
  let winfms1 := rx * t_ex first + ry * t_ey first + rz * t_ez first in
  let ax := - rx + winfms1 * t_ex first in
  let ay := - ry + winfms1 * t_ey first in
  let az := - rz + winfms1 * t_ez first in
  let a2 := ax * ax + ay * ay + az * az in
  let a := sqrt a2 in
  let winf := s1 + winfms1 in
  let s w := winf + gamma * (gamma * (w - winf)
                             - beta * sqrt (gamma_sq * (w - winf) ^ 2 + a2)) in
  let r w := (w - s w) / beta in
  let w0 := nth 0 w_range 0 in
  let ee := t_ex first * t_ex cur + t_ey first * t_ey cur + t_ez first * t_ez cur in
  let ue := (ax * t_ex cur + ay * t_ey cur + az * t_ez cur) / a in
  map (fun w =>
    let ks := beta * (1 - ee) * ln (r w0 / r w)
              - (beta_sq * ee - 1) * ln ((winf - s w + r w) / (winf - s w0 + r w0))
              + gamma_sq_inv * ln (w0 / w) in
    if Rlt_dec (1 / 10 ^ 7) (a2 / r (nth 1 w_range 0) ^ 2)
    then ks - beta * ue * (atan ((s w0 - winf) / a) - atan ((s w - winf) / a))
    else ks) w_range.

(** csr.py:94, 222: np.min *)
Definition list_min (l : list R) : R :=
  match l with [] => 0 | a :: r => fold_left Rmin r a end.
(** csr.py:94: maximum of the histogram range. *)
Definition list_max (l : list R) : R :=
  match l with [] => 0 | a :: r => fold_left Rmax r a end.
(** csr.py:216 *)
Definition w_range (n_bins : nat) (bin_size : R) : list R :=
  map (fun k => (INR k - INR n_bins) * bin_size) (seq 0 n_bins).
(** csr.py:233 *)
Definition four_pi_eps0 : R := 1 / (1 / 10 ^ 7 * c_SI ^ 2).
(** csr.py:193-235 [_calculate_kernel]. *)
Definition kernel (i : nat) (traj : list tp) (n_bins : nat) (bin_size gamma : R) : list R :=
  let wr := w_range n_bins bin_size in
  let '(w, ks) := long_range i traj (hd 0 wr) gamma in
  let w_min := list_min w in
  let ks :=
    if Rlt_dec (hd 0 wr) w_min then
      let m := last_lt w_min wr in
      let ks2 := short_range i traj (firstn (S m) wr ++ [w_min]) gamma in
      let ks2 := map (fun v => (last ks2 0 - v) + hd 0 ks) ks2 in
      removelast ks2 ++ map (interp w ks) (skipn (S m) wr)
    else map (interp w ks) wr in
  map (fun v => v / bin_size / four_pi_eps0) (diff0 (diff0 ks)).

(** ** Application to a bunch *)
(** csr.py:94 [np.histogram(z, n_bins, weights=q)]: lower end of the range. *)
Definition hist_lo (z : list R) : R :=
  if Req_EM_T (list_min z) (list_max z) then list_min z - 0.5 else list_min z.
(** csr.py:94: upper end of the range. *)
Definition hist_hi (z : list R) : R :=
  if Req_EM_T (list_min z) (list_max z) then list_max z + 0.5 else list_max z.
(** csr.py:94: the bin of a value. *)
Definition bin_of (z : list R) (n : nat) (v : R) : nat :=
  Nat.min (Z.to_nat (Int_part ((v - hist_lo z) / (hist_hi z - hist_lo z) * INR n))) (n - 1).
(** csr.py:94: the weights summed in each bin. *)
Definition histogram (z q : list R) (n : nat) : list R :=
  map (fun k => sum (map2 (fun v qi => if Nat.eqb (bin_of z n v) k then qi else 0) z q))
    (seq 0 n).
(** csr.py:94: the edges of the bins. *)
Definition bin_edge (z : list R) (n k : nat) : R :=
  hist_lo z + INR k * ((hist_hi z - hist_lo z) / INR n).

(** csr.py:101-103: scipy.stats.gaussian_kde(x, bw_method=f, weights=w)(x) *)
Definition kde (xs ws : list R) (factor : R) : list R :=
  let w := map (fun v => v / sum ws) ws in
  let mean := sum (map2 Rmult w xs) in
  let var := sum (map2 (fun wi xi => wi * (xi - mean) ^ 2) w xs)
             / (1 - sum (map (fun v => v ^ 2) w)) in
  let cov := var * factor ^ 2 in
  map (fun x => sum (map2 (fun wi xi => wi * exp (- (x - xi) ^ 2 / (2 * cov))) w xs)
                / sqrt (2 * PI * cov)) xs.

(** csr.py:121: np.convolve(a, b), full *)
Definition convolve (a b : list R) : list R :=
  map (fun k => sum (map (fun i => nth i a 0 * nth (k - i) b 0) (seq 0 (S k))))
    (seq 0 (List.length a + List.length b - 1)).
(** csr.py:108-109: (np.abs(s_array - s)).argmin(): the first minimum *)
Fixpoint argmin_from (best : R) (ibest i : nat) (l : list R) : nat :=
  match l with
  | [] => ibest
  | a :: r => if Rlt_dec a best then argmin_from a i (S i) r else argmin_from best ibest (S i) r
  end.
(** csr.py:107-109: index of the trajectory point nearest to [s]. *)
Definition nearest (s : R) (traj : list tp) : nat :=
  match map (fun p => Rabs (t_s p - s)) traj with
  | [] => O
  | a :: r => argmin_from a 0 1 r
  end.
(** csr.py:85-89 *)
Fixpoint s_before (l : list elem) (e : elem) : R :=
  match l with
  | [] => 0
  | a :: r => if Nat.eqb (e_id a) (e_id e) then 0 else Q2R (e_length a) + s_before r e
  end.
(** csr.py:84-90, 106-111 *)
Definition it_range (c : csr) (e : elem) (pos : R) : list nat :=
  let traj := match c_traj c with Some t => t | None => [] end in
  let s_current := s_before (c_elems c) e + pos in
  let idx := nearest s_current traj in
  let idx_prev := nearest (s_current - Q2R (fst (steps_of c e))) traj in
  map S (seq idx_prev (idx - idx_prev)).
(** csr.py:92-127: the energy kick for the charge profile; [None]: ZeroDivisionError. *)
Definition csr_kick (c : csr) (e : elem) (pos gamma : R) (z q : list R) : option (list R) :=
  let n_bins := c_bins c in
  let traj := match c_traj c with Some t => t | None => [] end in
  let ds_csr := Q2R (fst (steps_of c e)) in
  let hist := histogram z q n_bins in
  let bin_size := bin_edge z n_bins 1 - bin_edge z n_bins 0 in
  let centers := map (fun k => bin_edge z n_bins (S k) - bin_size / 2) (seq 0 n_bins) in
  let pdf := kde centers hist (Rpower (INR (List.length q)) (-1/5)) in
  let hist' := map (fun p => p * bin_size * sum hist) pdf in
  let bin_center_0 := hd 0 centers in
  match it_range c e pos with
  | [] => None
  | its =>
      let k1 := fold_left (fun acc it => map2 Rplus acc (kernel it traj n_bins bin_size gamma))
                  its (repeat 0 n_bins) in
      let k1 := map (fun v => v / INR (List.length its)) k1 in
      let lam := map (fun v => v / bin_size * ds_csr) (convolve hist' (rev k1)) in
      let pc_ref := sqrt (gamma ^ 2 - 1) * (511 / 10 ^ 6) in
      Some (map (fun zi => interp (map INR (seq 0 (List.length lam))) lam
                             (zi * (1 / bin_size) - bin_center_0 / bin_size)
                           * (1 / 10 ^ 9) / pc_ref) z)
  end.
(** csr.py:56-128 [apply_csr] on the columns of the bunch matrix *)
Definition apply_csr (c : csr) (e : elem) (pos gamma : R) (q : list R) (cols : list (list R))
    : option (list (list R)) :=
  match csr_kick c e pos gamma (map (fun v => - nth 4 v 0) cols) q with
  | None => None
  | Some dp => Some (map2 (fun v d => [nth 0 v 0; nth 1 v 0; nth 2 v 0; nth 3 v 0; nth 4 v 0;
                                       nth 5 v 0 + d]) cols dp)
  end.
