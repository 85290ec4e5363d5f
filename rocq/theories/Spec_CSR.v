(** Vocabulary for the properties of the CSR calculator. *)
From Coq Require Import QArith Qreals Reals List Arith.
From Verif Require Import Model_Push Model_Bunch Model_CSR.
Import ListNotations.
Open Scope R_scope.

(** No rounding. *)
Definition noround (x : Q) : Q := x.

(** A table of points along a trajectory: path length increasing from 0, unit tangents, and
    the distance between neighbours at most the path between them. *)
Fixpoint increasing (l : list tp) : Prop :=
  match l with
  | a :: (b :: _) as r => t_s a < t_s b /\ dist b a <= t_s b - t_s a /\ increasing r
  | _ => True
  end.
Definition unit_tangent (p : tp) : Prop := t_ex p ^ 2 + t_ey p ^ 2 + t_ez p ^ 2 = 1.
Definition total_length (l : list elem) : R :=
  fold_right (fun e a => Q2R (e_length e) + a) 0 l.

(** Uses of the calculator. *)
Inductive op := Add (e : elem) | Clear | Settings (step traj_step : Q) (bins : nat).
Definition apply_op (rnd : Q -> Q) (c : csr) (o : op) : csr :=
  match o with
  | Add e => add_lattice_element rnd c e
  | Clear => clear c
  | Settings a b n => set_settings c a b n
  end.
Definition ok_op (o : op) : Prop :=
  match o with
  | Add e => (0 < e_length e)%Q /\ e_n_out e <> Some 0%nat
  | Clear => True
  | Settings a b _ => (0 < a)%Q /\ (0 < b)%Q
  end.
(** The state after a sequence of uses, starting from the one created on import. *)
Definition run (rnd : Q -> Q) (l : list op) : csr := fold_left (apply_op rnd) l csr0.
(** Elements added since the last [Clear]. *)
Definition lattice (l : list op) : list elem :=
  fold_left (fun a o => match o with Add e => a ++ [e] | Clear => [] | Settings _ _ _ => a end)
    l [].

(** A lattice without bends: the table runs along the z axis. *)
Definition straight (p : tp) : Prop :=
  t_x p = 0 /\ t_y p = 0 /\ t_z p = t_s p /\ t_ex p = 0 /\ t_ey p = 0 /\ t_ez p = 1.

(** Vectors. *)
Definition vec := (R * R * R)%type.
Definition dot (a b : vec) : R :=
  fst (fst a) * fst (fst b) + snd (fst a) * snd (fst b) + snd a * snd b.
Definition pos (p : tp) : vec := (t_x p, t_y p, t_z p).
Definition tan (p : tp) : vec := (t_ex p, t_ey p, t_ez p).
Definition vminus (a b : vec) : vec :=
  (fst (fst a) - fst (fst b), snd (fst a) - snd (fst b), snd a - snd b).
Definition vscale (k : R) (a : vec) : vec := (k * fst (fst a), k * snd (fst a), k * snd a).

(** The longitudinal field at [cur] of the charge that was at [p], without the part that a
    charge in uniform motion has: with n the direction from [p] to [cur] and R their distance,
    (beta n.(e - e0) - beta^2 (1 - e.e0) - 1/gamma^2) / R - (1 - beta n.e) / (gamma^2 w). *)
Definition field_of (gamma : R) (cur p : tp) : R :=
  let b := sqrt (1 - 1 / gamma ^ 2) in
  let d := vminus (pos cur) (pos p) in
  let r := sqrt (dot d d) in
  let n := vscale (1 / r) d in
  (b * dot n (vminus (tan p) (tan cur)) - b ^ 2 * (1 - dot (tan p) (tan cur)) - 1 / gamma ^ 2) / r
  - 1 / gamma ^ 2 * (1 - b * dot n (tan p)) / (t_s p - t_s cur + b * r).

(** The integral of [f] along the points up to [cur] by the trapezoidal rule, with the value
    at [cur] itself left out. *)
Fixpoint trapz (f : tp -> R) (cur : tp) (pts : list tp) : R :=
  match pts with
  | [] => 0
  | p :: r =>
      match r with
      | [] => f p / 2 * (t_s cur - t_s p)
      | q :: _ => (f p + f q) / 2 * (t_s q - t_s p)
      end + trapz f cur r
  end.

(** The value that the short range formula gives at the last of three retarded distances. *)
Definition short_at (i : nat) (t : list tp) (gamma w0 w1 w : R) : R :=
  nth 2 (short_range i t [w0; w1; w] gamma) 0.
(** The straight line through the first point, continued backwards. *)
Definition before (first : tp) (s : R) : tp :=
  mktp s (t_x first + t_ex first * (s - t_s first)) (t_y first + t_ey first * (s - t_s first))
    (t_z first + t_ez first * (s - t_s first)) (t_ex first) (t_ey first) (t_ez first).
(** The distance of a point from that line. *)
Definition perp (first cur : tp) : R :=
  let d := vminus (pos cur) (pos first) in
  sqrt (dot d d - dot d (tan first) ^ 2).

(** The integral of the field from the retarded distance [v] on. *)
Definition from_distance (i : nat) (t : list tp) (gamma w0 w1 : R) (w ks : list R) (v : R) : R :=
  if Rlt_dec v (list_min w)
  then short_at i t gamma w0 w1 (list_min w) - short_at i t gamma w0 w1 v + hd 0 ks
  else interp w ks v.

(** Centre and width of the bins. *)
Definition bin_width (z : list R) (n : nat) : R := (hist_hi z - hist_lo z) / INR n.
Definition bin_center (z : list R) (n k : nat) : R := hist_lo z + (INR k + / 2) * bin_width z n.
(** The smoothed charge profile: charge per bin. *)
Definition profile (z q : list R) (n : nat) (j : nat) : R :=
  nth j (kde (map (bin_center z n) (seq 0 n)) (histogram z q n)
           (Rpower (INR (List.length q)) (- 1 / 5))) 0 * bin_width z n * sum q.

(** The kick at the centre of bin m, or one bin further: the sum over the bins j up to m of the
    smoothed charge of bin j times the kernel m - j bins from its end, averaged over the points
    [its] of the step; [ds]: the CSR step. *)
Definition kick_at (z q : list R) (t : list tp) (n : nat) (its : list nat) (ds gamma : R) (m : nat) : R :=
  sum (map (fun j => if (Nat.ltb j n && Nat.ltb (m - j) n)%bool then profile z q n j *
         (sum (map (fun it => nth (n - 1 - (m - j)) (kernel it t n (bin_width z n) gamma) 0) its)
          / INR (length its)) else 0) (seq 0 (S m)))
  * (ds / bin_width z n) / (10 ^ 9 * (sqrt (gamma ^ 2 - 1) * (511 / 10 ^ 6))).

(** Six coordinates for every particle. *)
Definition cols_ok (cols : list (list R)) : Prop := Forall (fun v => length v = 6%nat) cols.

(** Sum of Gaussians around the points [xs] with weights [ws]; the variance is the weighted
    sample variance of the points (with the correction for the number of effective samples)
    times the square of [f]. *)
Definition gaussian_density (xs ws : list R) (f x : R) : R :=
  let mu := average xs ws in
  let var := sum (map2 (fun w a => w * (a - mu) ^ 2) ws xs) / sum ws
             / (1 - sum (map (fun w => w ^ 2) ws) / sum ws ^ 2) in
  let cov := var * f ^ 2 in
  sum (map2 (fun w a => w * exp (- (x - a) ^ 2 / (2 * cov))) ws xs) / sum ws / sqrt (2 * PI * cov).
