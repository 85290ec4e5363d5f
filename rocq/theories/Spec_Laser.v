(** Vocabulary for the laser properties. *)
From Coq Require Import Reals ZArith String List.
From Coquelicot Require Import Complex.
From Verif Require Import Model_Push Model_Laser.
Import ListNotations.
Open Scope R_scope.

(** ** Tridiagonal systems *)
(** Row i of the product of the tridiagonal matrix (lower a, main b, upper c, size n) with p. *)
Definition tri_row (n : nat) (a b c p : carr) (i : nat) : C :=
  Cplus (Cplus (match i with O => RtoC 0 | S i' => Cmult (a i') (p i') end)
               (Cmult (b i) (p i)))
        (if Nat.ltb (i + 1) n then Cmult (c i) (p (i + 1)%nat) else RtoC 0).
(** Pivots of Gaussian elimination without row exchange. *)
Fixpoint pivot (a b c : carr) (i : nat) : C :=
  match i with
  | O => b O
  | S i' => Cminus (b i) (Cmult (a i') (Cdiv (c i') (pivot a b c i')))
  end.

(** ** Envelope equation on the grid *)
(** Physical grid: nodes r_k = (k + 1/2) dr, all lengths in units of 1 / kp. *)
Definition grid_ok (e : eargs) : Prop :=
  (2 <= e_nz e)%nat /\ (3 <= e_nr e)%nat /\ 0 < e_kp e /\ e_zmin e < e_zmax e /\
  0 < e_rmax e /\ 0 < e_dt e.
Definition step_z (e : eargs) : R := (e_zmax e - e_zmin e) * e_kp e / (INR (e_nz e) - 1).
Definition step_r (e : eargs) : R := e_rmax e * e_kp e / INR (e_nr e).
Definition step_t (e : eargs) : R := e_dt e * c_SI * e_kp e.
(** Second-order transverse Laplacian u'' + u' / r at node k; u = 0 outside of the grid
    (at k = 0 the node on the other side of the axis has no weight). *)
Definition laplacian (e : eargs) (u : carr) (k : nat) : C :=
  let up := if Nat.ltb (k + 1) (e_nr e) then u (k + 1)%nat else RtoC 0 in
  let um := match k with O => RtoC 0 | S k' => u k' end in
  Cplus (Cmult (RtoC (/ step_r e ^ 2)) (Cplus (Cminus up (Cmult (RtoC 2) (u k))) um))
        (Cmult (RtoC (/ (2 * step_r e * ((INR k + / 2) * step_r e)))) (Cminus up um)).
(** Differences of the unwrapped on-axis phase between node i and i+1. *)
Definition phase_jump (e : eargs) (a : carr2) (i : nat) : R :=
  if e_use_phase e then nth (i + 1) (phases e a) 0 - nth i (phases e a) 0 else 0.
(** exp(-i x). *)
Definition turn (x : R) : C := (cos x, - sin x).
(** One-sided second-order z-derivative at node j of v exp(-i theta), times exp(i theta),
    plus i theta' v: the derivative of v with its fast phase theta taken out. *)
Definition z_derivative (e : eargs) (t1 t2 : R) (v : carr2) (j k : nat) : C :=
  Cplus
    (Cmult (RtoC (/ (2 * step_z e)))
      (Cminus (Cplus (Cmult (RtoC (-3)) (v j k))
                     (Cmult (RtoC 4) (Cmult (turn t1) (v (j + 1)%nat k))))
              (Cmult (turn (t1 + t2)) (v (j + 2)%nat k))))
    (Cmult Ci (Cmult (RtoC ((3 * t1 - t2) / (2 * step_z e))) (v j k))).
(** (laplacian + 2 i k0/kp d_t + 2 d_z d_t - d_t^2) a = chi a, averaged between the old and
    the new time level, at node (j, k). *)
Definition envelope_equation_centered (e : eargs) (chi : nat -> nat -> R) (t1 t2 : R)
    (new a old : carr2) (j k : nat) : Prop :=
  let avg := fun j k => Cmult (RtoC (/ 2)) (Cplus (new j k) (old j k)) in
  let dt := fun j k => Cmult (RtoC (/ (2 * step_t e))) (Cminus (new j k) (old j k)) in
  let dtt := Cmult (RtoC (/ step_t e ^ 2))
               (Cplus (Cminus (new j k) (Cmult (RtoC 2) (a j k))) (old j k)) in
  Cminus (Cplus (Cplus (laplacian e (avg j) k)
                       (Cmult (Cmult (RtoC 2) Ci) (Cmult (RtoC (e_k0 e / e_kp e)) (dt j k))))
                (Cmult (RtoC 2) (z_derivative e t1 t2 dt j k)))
         dtt
  = Cmult (RtoC (chi j k)) (avg j k).
(** The same, without d_t^2, between the current and the new level. *)
Definition envelope_equation_first (e : eargs) (chi : nat -> nat -> R) (t1 t2 : R)
    (new a : carr2) (j k : nat) : Prop :=
  let avg := fun j k => Cmult (RtoC (/ 2)) (Cplus (new j k) (a j k)) in
  let dt := fun j k => Cmult (RtoC (/ step_t e)) (Cminus (new j k) (a j k)) in
  Cplus (Cplus (laplacian e (avg j) k)
               (Cmult (Cmult (RtoC 2) Ci) (Cmult (RtoC (e_k0 e / e_kp e)) (dt j k))))
        (Cmult (RtoC 2) (z_derivative e t1 t2 dt j k))
  = Cmult (RtoC (chi j k)) (avg j k).
(** Equality of rows j, j+1, ... (up to the ghost rows) on the grid. *)
Definition same_from (e : eargs) (j : nat) (u v : carr2) : Prop :=
  forall i k, (j <= i < e_nz e + 2)%nat -> (k < e_nr e)%nat -> u i k = v i k.

(** ** Unwrapping *)
Definition jump (l : list R) (i : nat) : R := nth (i + 1) l 0 - nth i l 0.

(** ** Life cycle *)
Inductive call :=
| CSet (s : setargs)
| CInit
| CEvolve (chi : nat -> nat -> R) (n_p : R).
(** Optional arguments. *)
Definition default (o : option nat) (d : nat) : nat := match o with Some n => n | None => d end.
(** A concrete call: grid [0,1] x [0,1] with [nz] x 3 points, one sub-step of 1 s. *)
Definition set1 (nz : nat) : setargs := mkset 0 1 1 nz 3 1 1 None None true.
Section HIST.
Variable env : R -> R -> C.
Variable to_main : sparams -> nat * nat -> carr2 -> carr2.
Variable to_sub : sparams -> nat * nat -> (nat -> nat -> R) -> (nat -> nat -> R).
Variables e_ch m_e eps_0 : R.
Definition do_call (p : pulse) (c : call) : outcome * pulse :=
  match c with
  | CSet s => set_envelope_solver_params p s
  | CInit => initialize_envelope env to_main p
  | CEvolve chi n_p => evolve to_main to_sub e_ch m_e eps_0 p chi n_p
  end.
(** State after a history of calls; exceptions are caught by the caller. *)
Fixpoint history (p : pulse) (h : list call) : pulse :=
  match h with [] => p | c :: h' => history (snd (do_call p c)) h' end.
(** The call raises no exception. *)
Definition accepted (p : pulse) (c : call) : Prop := fst (do_call p c) = Fine.
(** Internal time step requested. *)
Definition step_of (s : setargs) : R := a_dt s / INR (a_nt s).
(** Some evolution has been made, and after it the time step was not changed. *)
Definition evolved_with_this_step (p : pulse) (h : list call) : Prop :=
  exists h1 chi n_p h2 d,
    h = h1 ++ CEvolve chi n_p :: h2 /\ accepted (history p h1) (CEvolve chi n_p) /\
    (exists sp, p_params (history p h1) = Some sp /\ sp_dt sp = d) /\
    forall h3 s h4, h2 = h3 ++ CSet s :: h4 ->
      accepted (history p (h1 ++ CEvolve chi n_p :: h3)) (CSet s) -> step_of s = d.
End HIST.

(** ** Pulse shapes *)
(** m exp(i phi). *)
Definition polar (m phi : R) : C := (m * cos phi, m * sin phi).
(** Textbook Laguerre-Gauss mode p (azimuthal order 0): with u the distance to focus in
    Rayleigh lengths and w the local spot size, amplitude a0 (w0/w) L_p(2 r^2/w^2)
    exp(-r^2/w^2), Gouy phase (2p+1) atan u and wave-front curvature; the intensity has
    FWHM duration tau. *)
Definition lg_mode (xi_c : R) (p : nat) (a_0 w_0 tau z_foc l_0 cep : R) (xi r z_pos : R) : C :=
  let u := (xi - xi_c + z_pos - z_foc) / (PI * w_0 ^ 2 / l_0) in
  let w := w_0 * sqrt (1 + u ^ 2) in
  polar (a_0 * (w_0 / w) * laguerre p (2 * r ^ 2 / w ^ 2) * exp (- (r / w) ^ 2)
         * exp (- 2 * ln 2 * ((xi - xi_c) / (c_SI * tau)) ^ 2))
        (- cep - (2 * INR p + 1) * atan u + (r / w) ^ 2 * u).

(** ** Sums of pulses *)
(** Any way of bracketing a sum of pulses, its summands, and its value when computed with
    the addition of the code. *)
Inductive tree := Leaf (p : profile) | Node (l r : tree).
Fixpoint leaves (t : tree) : list profile :=
  match t with Leaf p => [p] | Node l r => leaves l ++ leaves r end.
Fixpoint eval (t : tree) : option profile :=
  match t with
  | Leaf p => Some p
  | Node l r => match eval l, eval r with Some a, Some b => add_pulses a b | _, _ => None end
  end.
Definition csum (l : list C) : C := fold_right Cplus (RtoC 0) l.
