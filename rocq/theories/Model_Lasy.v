(** Model of laser pulses read from an openPMD file: class [OpenPMDPulse] of
    wake_t/physics_models/laser/laser_pulse.py.  The libraries lasy and scipy are parameters. *)
From Coq Require Import Reals String List.
From Coquelicot Require Import Complex.
From Verif Require Import Model_Push Model_CSR Model_Laser.
Import ListNotations.
Open Scope R_scope.

(** laser_pulse.py:652-655: the options of the constructor that are not passed on to lasy *)
Record file_opts := mkfo { o_smooth : bool; o_filter : bool; o_sigma : R * R }.

Section FILE.
(** laser_pulse.py:661-669: the profiles lasy reads ([FromOpenPMDProfile]), their wavelength, and
    the largest radius in the file *)
Variable prof : Type.
Variable lambda0 : prof -> R.
Variable r_axis_max : prof -> R.
(** laser_pulse.py:684-692: the vector potential lasy returns for a grid with corners (r, t) lo
    and hi and the given numbers of points; indices: azimuthal mode, r, t *)
Variable vector_potential : prof -> R * R -> R * R -> nat * nat -> nat -> nat -> nat -> C.
(** laser_pulse.py:699: scipy.ndimage.gaussian_filter of an array of the given size *)
Variable gaussian_filter : R * R -> nat * nat -> carr2 -> carr2.

(** laser_pulse.py:657-673 [__init__]: wavelength and polarisation; [None]: AssertionError *)
Definition new_openpmd_pulse (lasy_installed : bool) (p : prof) : option pulse :=
  if lasy_installed then Some (new_pulse (lambda0 p) "linear") else None.

(** laser_pulse.py:678-683: [np.min] of a two-dimensional array *)
Definition entries (rows cols : nat) (a : nat -> nat -> R) : list R :=
  List.concat (map (fun i => map (a i) (seq 0 cols)) (seq 0 rows)).
(** laser_pulse.py:695 [a.T[::-1]]: transposed, first axis reversed; [n]: its length *)
Definition transposed_reversed (n : nat) (a : nat -> nat -> C) : carr2 :=
  fun i j => a j (n - 1 - i)%nat.

(** laser_pulse.py:675-706 [_envelope_function] on arrays of [rows] x [cols] points *)
Definition file_envelope (o : file_opts) (p : prof) (rows cols : nat)
    (xi r : nat -> nat -> R) (z_pos : R) : carr2 :=
  let t := fun i j => - xi i j / c_SI in
  let t_min := list_min (entries rows cols t) in
  let t_max := list_max (entries rows cols t) in
  let t_max := t_max - t_min in
  let t_min := 0 in
  let r_min := list_min (entries rows cols r) in
  let r_max := list_max (entries rows cols r) in
  let a := vector_potential p (r_min, t_min) (r_max, t_max) (cols, rows) in
  let a_env := transposed_reversed rows (a 0%nat) in
  let a_env := if o_filter o then gaussian_filter (o_sigma o) (rows, cols) a_env else a_env in
  if o_smooth o then
    let r_smooth := Rmin (r_axis_max p) (list_max (entries rows cols r)) in
    fun i j => Cmult (a_env i j) (RtoC (exp (- 2 * (r i j / (r_smooth * 0.85)) ^ 8)))
  else a_env.

(** laser_pulse.py:152-165: the envelope on the nodes of the solver *)
Definition initial_from_file (o : file_opts) (p : prof) (sp : sparams) : carr2 :=
  file_envelope o p (sp_nz sp) (sp_nr sp) (fun i _ => node_xi sp i) (fun _ k => node_rad sp k) 0.
End FILE.
