(** Model of wake_t/physics_models/beam_optics/transfer_matrices.py,
    wake_t/particles/push/transfer_matrix.py and wake_t/utilities/bunch_manipulation.py.
    Arithmetic is exact. A 6 x N matrix is the list of its N columns, a column the list of
    its six entries (entry [i] is row [i] of numpy's matrix). *)
From Coq Require Import Reals List Arith.
From Coquelicot Require Import Complex.
From Verif Require Import Model_Push Model_Bunch.
Import ListNotations.
Open Scope R_scope.

(** ** Complex functions of numpy *)
(** transfer_matrices.py:36-37, 113-114: np.sqrt(x + 0.j), principal branch. *)
Definition csqrt (x : R) : C := if Rle_dec 0 x then (sqrt x, 0) else (0, sqrt (- x)).
(** transfer_matrices.py:38-39, 115, 117, 134: np.cos, np.sin of a complex number. *)
Definition ccos (u : C) : C := (cos (Re u) * cosh (Im u), - (sin (Re u) * sinh (Im u))).
(** transfer_matrices.py:40, 46, 116, 119: np.sin of a complex number. *)
Definition csin (u : C) : C := (sin (Re u) * cosh (Im u), cos (Re u) * sinh (Im u)).
(** transfer_matrices.py:40, 45, 116, 119, 127, 138, 140 [u != 0] for a complex number. *)
Definition cnonzero (u : C) : bool :=
  if Req_EM_T (Re u) 0 then if Req_EM_T (Im u) 0 then false else true else true.
(** transfer_matrices.py:42, 98, 135-137, 144-147 [u != 0] for a real number. *)
Definition rnonzero (u : R) : bool := if Req_EM_T u 0 then false else true.

(** ** transfer_matrices.py *)
(** transfer_matrices.py:38-39, 115, 117 *)
Definition cos_real (k : C) (z : R) : R := Re (ccos (RtoC z * k)%C).
(** transfer_matrices.py:40, 45-50, 116, 119 *)
Definition sinc_real (k : C) (z : R) : R :=
  if cnonzero k then Re (csin (k * RtoC z) / k)%C else z.
(** transfer_matrices.py:41-43, 97-101 *)
Definition inv_gamma2 (gamma : R) : R := if rnonzero gamma then 1 / (gamma * gamma) else 0.
(** transfer_matrices.py:44, 103 *)
Definition beta_of (gamma : R) : R := sqrt (1 - inv_gamma2 gamma).

(** transfer_matrices.py:4-60 [first_order_matrix]; division by a zero [L] raises in Python, see
    [Model_TM]. *)
Definition first_order_matrix (z L theta k1 gamma_ref : R) : list (list R) :=
  let hx := theta / L in
  let kx2 := k1 + hx * hx in
  let ky2 := - k1 in
  let kx := csqrt kx2 in
  let ky := csqrt ky2 in
  let cx := cos_real kx z in
  let cy := cos_real ky z in
  let sy := sinc_real ky z in
  let igamma2 := inv_gamma2 gamma_ref in
  let beta := beta_of gamma_ref in
  let sx := sinc_real kx z in
  let dx := if cnonzero kx then hx / kx2 * (1 - cx) else z * z * hx / 2 in
  let r56 := (if cnonzero kx then hx * hx * (z - sx) / kx2 / beta ^ 2
              else hx * hx * z ^ 3 / 6 / beta ^ 2) - z / (beta * beta) * igamma2 in
  [[cx; sx; 0; 0; 0; dx / beta];
   [- kx2 * sx; cx; 0; 0; 0; sx * hx / beta];
   [0; 0; cy; sy; 0; 0];
   [0; 0; - ky2 * sy; cy; 0; 0];
   [hx * sx / beta; dx / beta; 0; 0; 1; r56];
   [0; 0; 0; 0; 0; 1]].

(** transfer_matrices.py:97-147: the ingredients of the second-order matrix. *)
Record ingr := mkingr { i_h : R; i_K1 : R; i_K2 : R; i_beta : R; i_ig2 : R; i_L : R;
  i_kx2 : R; i_cx : R; i_sx : R; i_cy : R; i_sy : R; i_dx : R; i_J1 : R; i_J2 : R; i_J3 : R;
  i_Jc : R; i_Js : R; i_Jd : R; i_Jf : R }.
(** transfer_matrices.py:97-147 *)
Definition ingredients (z Ltot theta k1 k2 gamma_ref : R) : ingr :=
  let igamma2 := inv_gamma2 gamma_ref in
  let beta := beta_of gamma_ref in
  let h := theta / Ltot in
  let L := z in
  let kx2 := k1 + h * h in
  let ky2 := - k1 in
  let kx4 := kx2 * kx2 in
  let kx := csqrt kx2 in
  let ky := csqrt (- k1) in
  let cx := cos_real kx L in
  let sx := sinc_real kx L in
  let cy := cos_real ky L in
  let sy := sinc_real ky L in
  let sx2 := sx * sx in
  let L2 := L * L in
  let L3 := L2 * L in
  let L4 := L3 * L in
  let L5 := L4 * L in
  let dx := if cnonzero kx then (1 - cx) / kx2 else L * L / 2 in
  let d2y := 0.5 * sy * sy in
  let s2y := sy * cy in
  let c2y := Re (ccos (RtoC 2 * ky * RtoC L)%C) in
  let fx := if rnonzero kx2 then (L - sx) / kx2 else L3 / 6 in
  let f2y := if rnonzero ky2 then (L - s2y) / ky2 else L3 / 6 in
  let J1 := if rnonzero kx2 then (L - sx) / kx2 else L3 / 6 in
  let J2 := if cnonzero kx then (3 * L - 4 * sx + sx * cx) / (2 * kx4) else L ^ 5 / 20 in
  let J3 := if cnonzero kx
            then (15 * L - 22.5 * sx + 9 * sx * cx - 1.5 * sx * cx * cx + kx2 * sx2 * sx)
                 / (6 * kx4 * kx2)
            else L ^ 7 / 56 in
  let J_denom := kx2 - 4 * ky2 in
  let Jc := if rnonzero J_denom then (c2y - cx) / J_denom else 0.5 * L2 in
  let Js := if rnonzero J_denom then (cy * sy - sx) / J_denom else L3 / 6 in
  let Jd := if rnonzero J_denom then (d2y - dx) / J_denom else L4 / 24 in
  let Jf := if rnonzero J_denom then (f2y - fx) / J_denom else L5 / 120 in
  mkingr h k1 k2 beta igamma2 L kx2 cx sx cy sy dx J1 J2 J3 Jc Js Jd Jf.

(** transfer_matrices.py:215-257: one assignment [T[i, j, k] = v]. *)
Definition ent (i j k : nat) (v : R) : nat * nat * nat * R := (i, j, k, v).
(** transfer_matrices.py:149-257: the entries that are assigned; the others stay zero. *)
Definition entries (g : ingr) : list (nat * nat * nat * R) :=
  let '(mkingr h K1 K2 beta igamma2 L kx2 cx sx cy sy dx J1 J2 J3 Jc Js Jd Jf) := g in
  let sx2 := sx * sx in let sy2 := sy * sy in let dx2 := dx * dx in
  let h2 := h * h in let h3 := h2 * h in
  let beta2 := beta * beta in let beta3 := beta2 * beta in
  let khk := K2 + 2 * h * K1 in
  let T111 := -1/6*khk*(sx2 + dx) - 0.5*h*kx2*sx2 in
  let T112 := -1/6*khk*sx*dx + 0.5*h*sx*cx in
  let T122 := -1 / 6 * khk * dx2 + 0.5 * h * dx * cx in
  let T116 := -h/12/beta*khk*(3*sx*J1 - dx2) + 0.5*h2/beta*sx2 + 0.25/beta*K1*L*sx in
  let T126 := (-h/12/beta*khk*(sx*dx2 - 2*cx*J2) + 0.25*h2/beta*(sx*dx + cx*J1) -
            0.25/beta*(sx + L*cx)) in
  let T166 := (-h2/6/beta2*khk*(dx2*dx - 2*sx*J2) + 0.5*h3/beta2*sx*J1
            - 0.5*h/beta2*L*sx - 0.5*h/(beta2)*igamma2*dx) in
  let T133 := K1*K2*Jd + 0.5*(K2 + h * K1)*dx in
  let T134 := 0.5*K2*Js in
  let T144 := K2*Jd - 0.5*h*dx in
  let T211 := -1/6*khk*sx*(1 + 2*cx) in
  let T212 := -1 / 6 * khk * dx * (1 + 2 * cx) in
  let T222 := -1 / 3 * khk * sx*dx - 0.5*h*sx in
  let T216 := -h/12/beta*khk*(3*cx * J1 + sx*dx) - 0.25/beta*K1*(sx - L*cx) in
  let T226 := -h / 12/beta * khk * (3*sx * J1 + dx2) + 0.25/beta * K1 * L*sx in
  let T266 := (-h2/6/beta2*khk*(sx*dx2 - 2*cx*J2) - 0.5*h/beta2*K1*(cx*J1 - sx*dx)
            - 0.5*h/beta2*igamma2*sx) in
  let T233 := K1*K2*Js + 0.5*(K2 + h*K1)*sx in
  let T234 := 0.5*K2*Jc in
  let T244 := K2 * Js - 0.5*h*sx in
  let T313 := 0.5*K2*(cy*Jc - 2*K1*sy*Js) + 0.5*h*K1*sx*sy in
  let T314 := 0.5 * K2 * (sy * Jc - 2 * cy * Js) + 0.5 * h * sx * cy in
  let T323 := 0.5 * K2 * (cy * Js - 2 * K1 * sy * Jd) + 0.5 * h * K1 * dx * sy in
  let T324 := 0.5 * K2 * (sy * Js - 2 * cy * Jd) + 0.5 * h * dx * cy in
  let T336 := 0.5 * h/beta * K2 *
        (cy * Jd - 2 * K1 * sy * Jf) + 0.5 * h2 /
        beta * K1 * J1 * sy - 0.25/beta*K1*L*sy in
  let T346 := 0.5 * h / beta * K2 *
        (sy * Jd - 2 * cy * Jf) + 0.5 * h2 /
        beta * J1 * cy - 0.25 / beta * (sy + L * cy) in
  let T413 := 0.5*K1*K2*(2*cy*Js - sy*Jc) + 0.5*(K2 + h*K1)*sx*cy in
  let T414 := 0.5 * K2 * (2 * K1*sy * Js - cy * Jc) +
        0.5 * (K2 + h * K1) * sx * sy in
  let T423 := 0.5*K1*K2*(2*cy*Jd - sy*Js) + 0.5*(K2 + h*K1)*dx*cy in
  let T424 := 0.5 * K2 * (2 * K1 * sy * Jd - cy * Js) +
        0.5 * (K2 + h * K1) * dx * sy in
  let T436 := 0.5 * h/beta * K1 * K2 *
        (2 * cy * Jf - sy * Jd) + 0.5 * h/beta *
        (K2 + h * K1) * J1 * cy + 0.25/beta*K1*(sy - L*cy) in
  let T446 := 0.5 * h/beta * K2 * (2 * K1 * sy * Jf - cy * Jd) +
        0.5 * h/beta * (K2 + h * K1) * J1 * sy - 0.25/beta*K1*L*sy in
  let T511 := h/12/beta*khk*(sx*dx + 3*J1) - 0.25/beta*K1*(L - sx*cx) in
  let T512 := h / 12 / beta * khk * dx2 + 0.25 / beta * K1 * sx2 in
  let T522 := h/6/beta*khk*J2 - 0.5/beta*sx - 0.25/beta*K1*(J1 - sx*dx) in
  let T516 := h2/12/beta2*khk*(3*dx*J1 - 4*J2) + 0.25*h /
        beta2*K1*J1*(1 + cx) + 0.5*h/beta2*igamma2*sx in
  let T526 := h2 / 12 / beta2 * khk *
        (dx * dx2 - 2 * sx * J2) + 0.25 * h / beta2 *
        K1*sx * J1 + 0.5 * h / beta2 * igamma2 * dx in
  let T566 := h3 / 6 / beta3 * khk * (3*J3 - 2 * dx * J2) + h2/6 / beta3 * K1*(
        sx*dx2 - J2*(1 + 2*cx)) + 1.5 / beta3 * igamma2 * (h2*J1 - L) in
  let T533 := - h/beta*K1*K2*Jf - 0.5*h/beta *
        (K2 + h*K1)*J1 + 0.25/beta*K1*(L - cy*sy) in
  let T534 := - 0.5*h/beta*K2*Jd - 0.25/beta*K1*sy2 in
  let T544 := -h/beta * K2*Jf + 0.5*h2/beta*J1 - 0.25/beta*(L + cy*sy) in
  [ ent 0 0 0 (T111); ent 0 0 1 (T112*2); ent 0 1 1 (T122); ent 0 0 5 (T116*2);
    ent 0 1 5 (T126*2); ent 0 5 5 (T166); ent 0 2 2 (T133); ent 0 2 3 (T134*2);
    ent 0 3 3 (T144);
    ent 1 0 0 (T211); ent 1 0 1 (T212*2); ent 1 1 1 (T222); ent 1 0 5 (T216*2);
    ent 1 1 5 (T226*2); ent 1 5 5 (T266); ent 1 2 2 (T233); ent 1 2 3 (T234*2);
    ent 1 3 3 (T244);
    ent 2 0 2 (T313*2); ent 2 0 3 (T314*2); ent 2 1 2 (T323*2); ent 2 1 3 (T324*2);
    ent 2 2 5 (T336*2); ent 2 3 5 (T346*2);
    ent 3 0 2 (T413*2); ent 3 0 3 (T414*2); ent 3 1 2 (T423*2); ent 3 1 3 (T424*2);
    ent 3 2 5 (T436*2); ent 3 3 5 (T446*2);
    ent 4 0 0 (-T511); ent 4 0 1 (-T512*2); ent 4 1 1 (-T522); ent 4 0 5 (-T516*2);
    ent 4 1 5 (-T526*2); ent 4 5 5 (-T566); ent 4 2 2 (-T533); ent 4 2 3 (-T534*2);
    ent 4 3 3 (-T544) ].

(** transfer_matrices.py:150, 215-258: the entry of T, zero unless assigned. *)
Fixpoint lookup (l : list (nat * nat * nat * R)) (i j k : nat) : R :=
  match l with
  | [] => 0
  | (a, b, c, v) :: r =>
      if (Nat.eqb a i && Nat.eqb b j && Nat.eqb c k)%bool then v else lookup r i j k
  end.
(** transfer_matrices.py:63-258 [second_order_matrix] *)
Definition second_order_matrix (z L theta k1 k2 gamma_ref : R) : nat -> nat -> nat -> R :=
  lookup (entries (ingredients z L theta k1 k2 gamma_ref)).

(** ** push/transfer_matrix.py *)
(** transfer_matrix.py:48, 51: sum over the six rows. *)
Definition sum6 (f : nat -> R) : R := f 0%nat + f 1%nat + f 2%nat + f 3%nat + f 4%nat + f 5%nat.
(** transfer_matrix.py:48, tm_elements.py:195, 257: np.dot(R, .) on one column *)
Definition mat_vec (m : list (list R)) (v : list R) : list R :=
  map (fun row => sum6 (fun j => nth j row 0 * nth j v 0)) m.
(** transfer_matrix.py:51: np.einsum('ijk,j...,k...', T, ., .).T on one column *)
Definition quad_form (t : nat -> nat -> nat -> R) (v : list R) : list R :=
  map (fun i => sum6 (fun j => sum6 (fun k => t i j k * nth j v 0 * nth k v 0))) (seq 0 6).
(** transfer_matrix.py:10-52 [track_with_transfer_map] on one column *)
Definition track_col (z L theta k1 k2 gamma_ref : R) (order : nat) (v : list R) : list R :=
  let bm_new := mat_vec (first_order_matrix z L theta k1 gamma_ref) v in
  if Nat.eqb order 2
  then map2 Rplus bm_new (quad_form (second_order_matrix z L theta k1 k2 gamma_ref) v)
  else bm_new.
(** transfer_matrix.py:10-52 [track_with_transfer_map]. *)
Definition track_with_transfer_map (beam : list (list R)) (z L theta k1 k2 gamma_ref : R)
    (order : nat) : list (list R) :=
  map (track_col z L theta k1 k2 gamma_ref order) beam.

(** ** bunch_manipulation.py *)
(** bunch_manipulation.py:17 *)
Definition col_gamma (v : list R) : R :=
  sqrt (1 + nth 1 v 0 ^ 2 + nth 3 v 0 ^ 2 + nth 5 v 0 ^ 2).
(** bunch_manipulation.py:20, 45 *)
Definition b_ref (gamma_ref : R) : R := sqrt (1 - / gamma_ref ^ 2).
(** bunch_manipulation.py:22, 47 *)
Definition p_kin (gamma_ref : R) : R := sqrt (gamma_ref ^ 2 - 1).
(** bunch_manipulation.py:6-23 [convert_to_ocelot_matrix] on one column. *)
Definition to_ocelot_col (gamma_ref : R) (v : list R) : list R :=
  [ nth 0 v 0; nth 1 v 0 / p_kin gamma_ref; nth 2 v 0; nth 3 v 0 / p_kin gamma_ref;
    - nth 4 v 0; (col_gamma v - gamma_ref) / (gamma_ref * b_ref gamma_ref) ].
(** bunch_manipulation.py:6-23 [convert_to_ocelot_matrix]; [w]: the weights. *)
Definition convert_to_ocelot_matrix (m : list (list R)) (w : list R) (gamma_ref : option R)
    : list (list R) * R :=
  let g := match gamma_ref with Some g => g | None => average (map col_gamma m) w end in
  (map (to_ocelot_col g) m, g).
(** bunch_manipulation.py:26-54 [convert_from_ocelot_matrix] on one column. *)
Definition from_ocelot_col (gamma_ref : R) (v : list R) : list R :=
  let gamma := nth 5 v 0 * gamma_ref * b_ref gamma_ref + gamma_ref in
  let px := nth 1 v 0 * p_kin gamma_ref in
  let py := nth 3 v 0 * p_kin gamma_ref in
  [ nth 0 v 0; px; nth 2 v 0; py; - nth 4 v 0; sqrt (gamma ^ 2 - px ^ 2 - py ^ 2 - 1) ].
(** bunch_manipulation.py:26-54 [convert_from_ocelot_matrix]. *)
Definition convert_from_ocelot_matrix (m : list (list R)) (gamma_ref : R) : list (list R) :=
  map (from_ocelot_col gamma_ref) m.
(** bunch_manipulation.py:57-66 [rotation_matrix_xz] *)
Definition rotation_matrix_xz (angle : R) : list (list R) :=
  let cs := cos angle in
  let sn := sin angle in
  [[cs; 0; 0; 0; sn; 0];
   [0; cs; 0; 0; 0; sn];
   [0; 0; 1; 0; 0; 0];
   [0; 0; 0; 1; 0; 0];
   [- sn; 0; 0; 0; cs; 0];
   [0; - sn; 0; 0; 0; cs]].
