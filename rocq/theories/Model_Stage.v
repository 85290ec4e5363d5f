(** Model of the clock of numerical fields (wake_t/fields/numerical_field.py,
    wake_t/fields/rz_wakefield.py) and of the plasma elements: plasma_stage.py, plasma_ramp.py,
    active_plasma_lens.py and field_quadrupole.py in wake_t/beamline_elements. *)
From Coq Require Import QArith Qround Reals String List Bool Arith ZArith.
From Verif Require Import Model_Tracker Model_Element.
From Verif Require Model_Push.
Import ListNotations.

(** ** Numerical fields *)
Local Open Scope Q_scope.

(** laser_pulse.py:117-126, 172-206: the laser pulse as seen by the field: the time step given
    to its solver, the time it has been evolved for, and the positions at which the densities
    handed to it were evaluated, latest last *)
Record laser_clock := mklc { lc_dt : Q; lc_time : Q; lc_z : list Q }.

(** numerical_field.py:46-48, 73, rz_wakefield.py:86-87, 137: state of an r-z wakefield.
    [rz_z]: position of the density [n_p] in use. The arrays are left out here (see
    [Model_Interp] and the models of the solvers). *)
Record rzfield := mkrz { rz_dt : Q; rz_even : bool; rz_init : bool; rz_t : Q; rz_z : Q;
  rz_laser : option laser_clock; rz_evolution : bool }.

(** rz_wakefield.py:67-106, numerical_field.py:39-48 [RZWakefield.__init__] *)
Definition rz_new (xi_min xi_max : Q) (dz_fields : option Q) (laser : option laser_clock)
    (laser_evolution : bool) : rzfield :=
  let dz := match dz_fields with None => xi_max - xi_min | Some d => d end in
  mkrz (dz / c_light) (match laser with Some _ => true | None => false end) false 0 0 laser
    laser_evolution.

(** numerical_field.py:68-75, rz_wakefield.py:108-116 [initialize_envelope] starts the pulse
    anew *)
Definition initialize_properties (f : rzfield) : rzfield :=
  mkrz (rz_dt f) (rz_even f) true 0 (rz_z f)
    (match rz_laser f with Some _ => Some (mklc (rz_dt f) 0 []) | None => None end)
    (rz_evolution f).
(** numerical_field.py:77-83, rz_wakefield.py:130-134 *)
Definition evolve_properties (f : rzfield) : rzfield :=
  mkrz (rz_dt f) (rz_even f) (rz_init f) (rz_t f + rz_dt f) (rz_z f)
    (match rz_laser f with
     | Some l => if rz_evolution f
                 then Some (mklc (lc_dt l) (lc_time l + lc_dt l) (lc_z l ++ [rz_z f]))
                 else Some l
     | None => None end)
    (rz_evolution f).
(** rz_wakefield.py:136-137: position at which the density is evaluated. *)
Definition calculate_field (f : rzfield) : rzfield :=
  mkrz (rz_dt f) (rz_even f) (rz_init f) (rz_t f) (rz_t f * c_light) (rz_laser f) (rz_evolution f).
(** numerical_field.py:50-66 [update] *)
Definition rz_update (f : rzfield) : rzfield :=
  calculate_field (if rz_init f then evolve_properties f else initialize_properties f).
(** numerical_field.py:92-99 [adjust_dt] *)
Definition rz_adjust (t_final : Q) (f : rzfield) : rzfield :=
  mkrz (adjust_dt (rz_even f) t_final (rz_dt f)) (rz_even f) (rz_init f) (rz_t f) (rz_z f)
    (rz_laser f) (rz_evolution f).
(** tracker.py:164, 224: [num_fields[j].update(bunches)] for a list of such fields. *)
Definition update_at {B} (j : nat) (fs : list rzfield) (bs : list B) : list rzfield :=
  match nth_error fs j with Some f => upd j (rz_update f) fs | None => fs end.
(** numerical_field.py:92-99 [adjust_dt] with rounding *)
Definition adjust_dt_rnd (rnd : Q -> Q) (t_final dt : Q) : Q :=
  rnd (t_final / inject_Z (Qceiling (rnd (t_final / dt)))).

(** ** Ramps *)
Local Close Scope Q_scope.
Local Open Scope R_scope.

(** plasma_ramp.py:22, 29, 36-37: quotient of a positive number and a number; [None]: infinity
    (numpy, division by zero) *)
Definition over_or_inf (a b : R) : option R := if Req_EM_T b 0 then None else Some (a / b).
(** plasma_ramp.py:23, 30, 38 [z] divided by a decay length *)
Definition in_units (z : R) (d : option R) : R := match d with Some d => z / d | None => 0 end.
(** plasma_ramp.py:19-20: arguments of a profile besides [z]: [None] is Python's None *)
Record rargs := mkra { ra_decay : option R; ra_top : option R; ra_down : option R;
  ra_position : option R }.
(** plasma_ramp.py:21-22, 28-29, 35-37: the decay length that is given, or else determined
    by [f top down position]; [None]: TypeError. *)
Definition decay (f : R -> R -> R -> option R) (a : rargs) : option (option R) :=
  match ra_decay a with
  | Some d => Some (Some d)
  | None => match ra_top a, ra_down a, ra_position a with
            | Some t, Some d, Some p => Some (f t d p)
            | _, _, _ => None
            end
  end.
(** plasma_ramp.py:16: a ramp profile; [None]: TypeError *)
Definition profile := R -> rargs -> option R.
(** plasma_ramp.py:19-38: what the three profiles have in common *)
Definition shaped (f : R -> R -> R -> option R) (s : R -> R) : profile :=
  fun z a => match decay f a, ra_top a with
             | Some d, Some t => Some (s (in_units z d) * t)
             | _, _ => None
             end.
(** plasma_ramp.py:19-23 *)
Definition inverse_square_profile : profile :=
  shaped (fun t d p => over_or_inf p (sqrt (t / d) - 1)) (fun u => / (1 + u) ^ 2).
(** plasma_ramp.py:26-30 *)
Definition exponential_profile : profile :=
  shaped (fun t d p => over_or_inf p (ln (t / d))) (fun u => exp (- u)).
(** plasma_ramp.py:33-38 *)
Definition gaussian_profile : profile :=
  shaped (fun t d p => over_or_inf p (sqrt (2 * ln (t / d)))) (fun u => exp (- u ^ 2 / 2)).
(** plasma_ramp.py:41-45 *)
Definition ramp_profiles (s : string) : option profile :=
  if String.eqb s "inverse_square" then Some inverse_square_profile
  else if String.eqb s "exponential" then Some exponential_profile
  else if String.eqb s "gaussian" then Some gaussian_profile
  else None.

(** plasma_stage.py:90: a density as a function of z; [None]: it raises an exception there *)
Definition density := R -> option R.
(** plasma_ramp.py:134: the [profile] argument *)
Inductive profile_arg := PName (s : string) | PFunction (p : profile).
(** plasma_ramp.py:148-162, 175-180: the density that the stage is given. [None]: ValueError. *)
Definition ramp (length : R) (p : profile_arg) (ramp_type : string)
    (decay_length dens_top dens_down position_down : option R) : option density :=
  let position := match position_down with Some x => x | None => length end in
  let a := mkra decay_length dens_top dens_down (Some position) in
  match match p with PFunction f => Some f | PName s => ramp_profiles s end with
  | None => None
  | Some f =>
      Some (fun z => f (if String.eqb ramp_type "upramp" then length - z else z) a)
  end.

(** ** Stages *)
(** plasma_stage.py:90: the [density] argument: a float, a callable, anything else *)
Inductive density_arg := DFloat (v : R) | DFunction (f : density) | DOther.
(** plasma_stage.py:118-128; [None]: ValueError. *)
Definition get_density_profile (d : density_arg) : option density :=
  match d with
  | DFloat v => Some (fun _ => Some v)
  | DFunction f => Some f
  | DOther => None
  end.

Section Stage.
  (** Fields; [wake]: the constructors in [wakefield_models] applied to the density (the other
      parameters of the models are left out). [lens k]: LinearBThetaField(k), [quad]. *)
  Variable fld : Type.
  Variable wake : string -> density -> fld.
  Variables lens quad : R -> fld.
  (** scipy.constants: e, m_e, c, epsilon_0 *)
  Variables e m_e c eps0 : R.

  (** plasma_stage.py:91: the [wakefield_model] argument *)
  Inductive model_arg := MNone | MField (f : fld) | MName (s : string).
  (** plasma_stage.py:16-22 *)
  Definition wakefield_models : list string :=
    ["simple_blowout"; "custom_blowout"; "focusing_blowout"; "cold_fluid_1d"; "quasistatic_2d"]%string.
  (** plasma_stage.py:130-140; the outer [None]: ValueError. *)
  Definition get_wakefield (d : density) (m : model_arg) : option (option fld) :=
    match m with
    | MNone => Some None
    | MField f => Some (Some f)
    | MName s => if existsb (String.eqb s) wakefield_models then Some (Some (wake s d)) else None
    end.

  (** plasma_stage.py:153-155: time steps: numpy gives infinity for 1/0 *)
  Inductive step_dt := Dt (x : R) | Infinite | Fails.
  (** plasma_stage.py:153-154: 0.1 * (1/w) *)
  Definition tenth_of_inverse (w : R) : step_dt :=
    if Req_EM_T w 0 then Infinite else Dt (0.1 * (1 / w)).
  (** plasma_stage.py:150 [max(n_p)] *)
  Definition list_max (l : list R) : R :=
    match l with [] => 0 | a :: r => fold_left Rmax r a end.
  (** plasma_stage.py:145 [np.min(beam.pz)] *)
  Definition list_min (l : list R) : R :=
    match l with [] => 0 | a :: r => fold_left Rmin r a end.
  (** plasma_stage.py:145, active_plasma_lens.py:134, field_quadrupole.py:67 *)
  Definition min_gamma (pz : list R) : R := sqrt (list_min pz ^ 2 + 1).
  (** plasma_stage.py:148: entries of an array, if they could all be computed *)
  Fixpoint all_some (l : list (option R)) : option (list R) :=
    match l with
    | [] => Some []
    | Some a :: r => match all_some r with Some r => Some (a :: r) | None => None end
    | None :: _ => None
    end.
  (** plasma_stage.py:147: np.linspace(0, length, 100) *)
  Definition samples (length : R) : list R := map (fun i => INR i * (length / 99)) (seq 0 100).
  (** plasma_stage.py:142-155 [_get_optimized_dt]; arguments of the bunch: charge and mass of the
      species, pz. *)
  Definition stage_dt (length : R) (d : density) (q m : R) (pz : list R) : step_dt :=
    match all_some (map d (samples length)) with
    | None => Fails
    | Some n_p =>
        let w_p := sqrt (list_max n_p * e ^ 2 / (m_e * eps0)) in
        let max_kx := m_e / (2 * e * c) * w_p ^ 2 in
        tenth_of_inverse (sqrt (Rabs (q / m * c * max_kx / min_gamma pz)))
    end.
  (** active_plasma_lens.py:133-138, field_quadrupole.py:66-71 *)
  Definition linear_dt (foc_strength q m : R) (pz : list R) : step_dt :=
    tenth_of_inverse (sqrt (Rabs (q / m * c * foc_strength / min_gamma pz))).

  (** plasma_stage.py:107-116: what the constructors pass to FieldElement *)
  Record stage := mkst { s_length : R; s_density : option density; s_fields : list fld;
    s_auto : R -> R -> list R -> step_dt }.
  (** plasma_stage.py:87-116; [None]: ValueError. *)
  Definition plasma_stage (length : R) (d : density_arg) (m : model_arg) (external : list fld)
      : option stage :=
    match get_density_profile d with
    | None => None
    | Some d =>
        match get_wakefield d m with
        | None => None
        | Some w =>
            Some (mkst length (Some d) (match w with Some f => [f] | None => [] end ++ external)
                    (stage_dt length d))
        end
    end.
  (** plasma_ramp.py:131-173 *)
  Definition plasma_ramp (length : R) (p : profile_arg) (ramp_type : string) (m : model_arg)
      (decay_length dens_top dens_down position_down : option R) : option stage :=
    match ramp length p ramp_type decay_length dens_top dens_down position_down with
    | None => None
    | Some d => plasma_stage length (DFunction d) m []
    end.
  (** active_plasma_lens.py:86-138; [density]: [None] is Python's None. *)
  Definition active_plasma_lens (length foc_strength : R) (wakefields : bool)
      (d : option density_arg) (m : model_arg) : option stage :=
    let m := if wakefields then m else MNone in
    match (match d with
           | Some d => Some d
           | None => if wakefields then None else Some (DFloat 0)
           end) with
    | None => None
    | Some d =>
        match plasma_stage length d m [lens (- foc_strength)] with
        | None => None
        | Some s => Some (mkst (s_length s) (s_density s) (s_fields s)
            (if wakefields then s_auto s else linear_dt foc_strength))
        end
    end.
  (** field_quadrupole.py:43-61 *)
  Definition field_quadrupole (length foc_strength : R) : stage :=
    mkst length None [quad foc_strength] (linear_dt foc_strength).
End Stage.
Arguments MNone {fld}. Arguments MField {fld}. Arguments MName {fld}.
Arguments s_length {fld}. Arguments s_density {fld}. Arguments s_fields {fld}.
Arguments s_auto {fld}.
