(** Model of wake_t/fields/rz_wakefield.py and numerical_field.py (the updates of a
    wakefield with its arrays, density and laser; the clock alone is in Model_Stage), of
    physics_models/plasma_wakefields/qs_rz_baxevanis/wakefield.py, of
    [generate_field_diag_dictionary] in utilities/other.py and of the species and meshes
    written by diagnostics/openpmd_diag.py.  Arithmetic is exact (reals). *)
From Coq Require Import Reals ZArith String List Bool Lra.
From Coquelicot Require Import Coquelicot.
From Verif Require Model_Laser Model_Bunch.
From Verif Require Import Model_Push Model_Interp Model_Deposit Model_QS Model_Fluid.
Import ListNotations.
Open Scope R_scope.

Notation pulse := Model_Laser.pulse.
(** solver.py:480-485, qs_cold_fluid_1x3p.py:169-172: a bunch as the solvers see it: ((x, y,
    xi), q) per particle *)
Definition charges := list (pos * R).
(** qs_rz_baxevanis/wakefield.py:169-174, qs_cold_fluid_1x3p.py:148-153: laser as the solvers
    see it: get_envelope() and polarization *)
Definition light_field := option (Model_Laser.sarr * string).
(** rz_wakefield.py:137-143: calculation of the fields from the density, the position z, the
    laser and the bunches *)
Definition solver := R -> R -> light_field -> list charges -> called fields.

(** ** Wakefields *)
(** rz_wakefield.py:67-98: arguments of the constructor, the pulse aside. *)
Record box := mkbox { x_density : R -> option R; x_rmax : R; x_ximin : R; x_ximax : R; x_nr : Z; x_nxi : Z;
  x_dz : option R; x_evolution : bool; x_substeps : nat; x_lnxi : option nat; x_lnr : option nat;
  x_phase : bool; x_name : string }.
(** rz_wakefield.py:83-106, 117-128, 137, numerical_field.py:44-48, 73: attributes that change.
    [o_arrays]: rho, chi, e_r, e_z, b_t; [o_zero]: e_t, b_r, b_z *)
Record wake := mkwk { o_box : box; o_dt : R; o_even : bool; o_init : bool; o_t : R; o_np : R;
  o_laser : option pulse; o_arrays : fields; o_zero : arr2 * arr2 * arr2 }.

(** qs_rz_baxevanis/wakefield.py:169-174: envelope of a pulse as complex array on the grid
    (get_envelope); [None]: not initialized *)
Definition seen (l : option pulse) : option light_field :=
  match l with
  | None => Some None
  | Some p => match Model_Laser.p_a_env p with
              | Some a => Some (Some (a, Model_Laser.p_pol p))
              | None => None
              end
  end.

Section Updates.
  (** Envelope function of the pulse and its regridding, see Model_Laser. *)
  Variable envelope_function : R -> R -> C.
  Variable to_main : Model_Laser.sparams -> nat * nat -> Model_Laser.carr2 -> Model_Laser.carr2.
  Variable to_sub : Model_Laser.sparams -> nat * nat -> (nat -> nat -> R) -> (nat -> nat -> R).
  Variables e_ch m_e eps_0 : R.
  (** [_calculate_wakefield] of the subclass. *)
  Variable solve : box -> solver.

  (** rz_wakefield.py:119-126: the arrays do not exist before the first update *)
  Definition no_array : arr2 := mka 0 0 (fun _ _ => 0).
  (** rz_wakefield.py:67-106, numerical_field.py:39-48: no arrays and no density at first *)
  Definition new_wake (x : box) (l : option pulse) : wake :=
    let dz := match x_dz x with None => x_ximax x - x_ximin x | Some d => d end in
    mkwk x (dz / c_SI) (match l with None => false | Some _ => true end) false 0 0 l
      (mkfld no_array no_array no_array no_array no_array) (no_array, no_array, no_array).
  (** numerical_field.py:92-99 [adjust_dt] (called by the tracker); np.ceil of x is - Int_part
      (-x). *)
  Definition adjust_dt (t_final : R) (o : wake) : wake :=
    if o_even o then
      let n_updates := - IZR (Int_part (- (t_final / o_dt o))) in
      mkwk (o_box o) (t_final / n_updates) (o_even o) (o_init o) (o_t o) (o_np o) (o_laser o) (o_arrays o) (o_zero o)
    else o.
  (** rz_wakefield.py:111-115: arguments of [set_envelope_solver_params]. *)
  Definition set_args (x : box) (dt : R) : Model_Laser.setargs :=
    Model_Laser.mkset (x_ximin x) (x_ximax x) (x_rmax x) (Z.to_nat (x_nxi x)) (Z.to_nat (x_nr x))
      dt (x_substeps x) (x_lnxi x) (x_lnr x) (x_phase x).
  (** rz_wakefield.py:110-116 *)
  Definition start_laser (x : box) (dt : R) (l : option pulse) : option (option pulse) :=
    match l with
    | None => Some None
    | Some p => match Model_Laser.set_envelope_solver_params p (set_args x dt) with
                | (Model_Laser.Fine, p1) =>
                    match Model_Laser.initialize_envelope envelope_function to_main p1 with
                    | (Model_Laser.Fine, p2) => Some (Some p2)
                    | _ => None
                    end
                | _ => None
                end
    end.
  (** numerical_field.py:68-75, rz_wakefield.py:108-128; [None]: an exception *)
  Definition initialize_properties (o : wake) : option wake :=
    let x := o_box o in
    match start_laser x (o_dt o) (o_laser o) with
    | None => None
    | Some l => let z := zeros2 (x_nxi x) (x_nr x) in
                Some (mkwk x (o_dt o) (o_even o) true 0 (o_np o) l (mkfld z z z z z) (z, z, z))
    end.
  (** rz_wakefield.py:130-134: [chi[2:-2, 2:-2]] and the density of the last update. *)
  Definition evolve_laser (x : box) (chi : arr2) (n_p : R) (l : option pulse) : option (option pulse) :=
    match l with
    | None => Some None
    | Some p =>
        if x_evolution x then
          match Model_Laser.evolve to_main to_sub e_ch m_e eps_0 p
                  (fun i k => cell chi (Z.of_nat i + 2)%Z (Z.of_nat k + 2)%Z) n_p with
          | (Model_Laser.Fine, p') => Some (Some p')
          | _ => None
          end
        else Some (Some p)
    end.
  (** numerical_field.py:77-83 *)
  Definition evolve_properties (o : wake) : option wake :=
    match evolve_laser (o_box o) (h_chi (o_arrays o)) (o_np o) (o_laser o) with
    | None => None
    | Some l => Some (mkwk (o_box o) (o_dt o) (o_even o) (o_init o) (o_t o + o_dt o) (o_np o) l
                        (o_arrays o) (o_zero o))
    end.
  (** rz_wakefield.py:136-143: the arrays are set to zero and then filled by the solver. *)
  Definition calculate_field (bunches : list charges) (o : wake) : option wake :=
    let x := o_box o in
    match x_density x (o_t o * c_SI), seen (o_laser o) with
    | Some n_p, Some l =>
        match solve x n_p (o_t o * c_SI) l bunches with
        | Returned (Ok f) => Some (mkwk x (o_dt o) (o_even o) (o_init o) (o_t o) n_p (o_laser o) f (o_zero o))
        | _ => None
        end
    | _, _ => None
    end.
  (** numerical_field.py:50-66 [update]; [None]: an exception. *)
  Definition update (o : wake) (bunches : list charges) : option wake :=
    match (if o_init o then evolve_properties o else initialize_properties o) with
    | None => None
    | Some o' => calculate_field bunches o'
    end.
  (** tracker.py:222-224: the updates of a tracking *)
  Fixpoint updates (o : wake) (l : list (list charges)) : option wake :=
    match l with
    | [] => Some o
    | b :: l' => match update o b with None => None | Some o' => updates o' l' end
    end.
  (** rz_wakefield.py:149-155 [_gather] *)
  Definition as_rz (o : wake) : rz :=
    let x := o_box o in
    mkrz (x_rmax x) (x_ximin x) (x_ximax x) (x_nr x) (x_nxi x)
      (h_er (o_arrays o)) (h_ez (o_arrays o)) (h_bt (o_arrays o)).
End Updates.

(** ** The two models *)
(** qs_cold_fluid_1x3p.py:159, solver.py:111 [a[2:-2, 2:-2] = env] raises ValueError if the
    sizes differ (broadcasting of arrays with one row or column is not modelled) *)
Definition fits (x : box) (a : Model_Laser.sarr) : bool :=
  andb (Nat.eqb (Model_Laser.s_rows a) (Z.to_nat (x_nxi x))) (Nat.eqb (Model_Laser.s_cols a) (Z.to_nat (x_nr x))).
(** qs_rz_baxevanis/wakefield.py:170: entry of the envelope *)
Definition value (a : Model_Laser.sarr) (i j : Z) : C := Model_Laser.s_val a (Z.to_nat i) (Z.to_nat j).

Section Models.
  Variables (argsort : list R -> list nat) (skin_depth wave_breaking : R -> R) (charge_e light : R).

  (** qs_rz_baxevanis/wakefield.py:191, 195, 197: the [parabolic_coefficient] argument: a float,
      a callable, anything else *)
  Inductive coefficient := CFloat (v : R) | CFunction (f : R -> R) | COther.
  (** qs_rz_baxevanis/wakefield.py:189-200 [_get_parabolic_coefficient_fn]; [None]: ValueError *)
  Definition get_parabolic_coefficient_fn (c : coefficient) : option (R -> R) :=
    match c with CFloat v => Some (fun _ => v) | CFunction f => Some f | COther => None end.
  (** qs_rz_baxevanis/wakefield.py:141-147: further arguments of Quasistatic2DWakefield *)
  Record qs2d := mkqs { q_ppc : R; q_rplasma : option R; q_pc : R -> R; q_shape : string; q_maxg : R;
    q_pusher : string }.
  (** qs_rz_baxevanis/wakefield.py:141-147; [None]: ValueError *)
  Definition new_qs2d (ppc : R) (r_max_plasma : option R) (c : coefficient) (p_shape : string) (max_gamma : R)
      (plasma_pusher : string) : option qs2d :=
    match get_parabolic_coefficient_fn c with
    | Some f => Some (mkqs ppc r_max_plasma f p_shape max_gamma plasma_pusher)
    | None => None
    end.
  (** qs_rz_baxevanis/wakefield.py:166, 179-187: arguments of [calculate_wakefields] *)
  Definition qs_args (q : qs2d) (x : box) (n_p z : R) : args :=
    let dr := x_rmax x / IZR (x_nr x) in
    mkargs (x_rmax x) (x_ximin x) (x_ximax x) (x_nr x) (x_nxi x) (q_ppc q) n_p (q_rplasma q) (q_pc q z)
      (q_shape q) (q_maxg q) (q_pusher q)
      (map (fun j => linspace (dr / 2) (x_rmax x - dr / 2) (x_nr x) (Z.of_nat j)) (seq 0 (Z.to_nat (x_nr x))))
      (map (fun i => linspace (x_ximin x) (x_ximax x) (x_nxi x) (Z.of_nat i)) (seq 0 (Z.to_nat (x_nxi x)))).
  (** qs_rz_baxevanis/wakefield.py:168-176: a_env_2 *)
  Definition a_env_2 (x : box) (l : light_field) : arr2 :=
    mka (x_nxi x) (x_nr x)
      match l with
      | Some (a, p) => fun i j => if String.eqb p "linear" then Cmod (value a i j) ^ 2 / 2 else Cmod (value a i j) ^ 2
      | None => fun _ _ => 0
      end.
  (** qs_rz_baxevanis/wakefield.py:165-187 [_calculate_wakefield] *)
  Definition qs_solve (q : qs2d) (x : box) : solver := fun n_p z l bunches =>
    if match l with Some (a, _) => fits x a | None => true end
    then calculate_wakefields argsort skin_depth wave_breaking charge_e light (qs_args q x n_p z) (a_env_2 x l) bunches
    else ValueError.
  (** qs_cold_fluid_1x3p.py:146-164: what [_calculate_wakefield] reads from its object *)
  Definition fluid_of (p_shape : string) (beam : bool) (x : box) (n_p : R) (l : light_field) : fluid :=
    mkfl (x_rmax x) (x_ximin x) (x_ximax x) (x_nr x) (x_nxi x) n_p p_shape beam
      (match l with Some (a, p) => Some (value a, p) | None => None end).
  (** qs_cold_fluid_1x3p.py:146-242 [_calculate_wakefield] *)
  Definition fluid_solve (p_shape : string) (beam : bool) (x : box) : solver := fun n_p z l bunches =>
    if match l with Some (a, _) => fits x a | None => true end
    then fluid_wakefield skin_depth wave_breaking charge_e light (fluid_of p_shape beam x n_p l) bunches
    else ValueError.
End Models.

(** ** Diagnostics *)
(** other.py:28-54: Python dictionaries with strings as keys, in order of insertion *)
Definition dict V := list (string * V).
(** other.py:29, 37, 47 [d[k] = v] *)
Fixpoint put {V} (k : string) (v : V) (d : dict V) : dict V :=
  match d with
  | [] => [(k, v)]
  | (k', v') :: d' => if String.eqb k k' then (k, v) :: d' else (k', v') :: put k v d'
  end.
(** openpmd_diag.py:249-252 [d[k]] *)
Fixpoint get {V} (k : string) (d : dict V) : option V :=
  match d with
  | [] => None
  | (k', v) :: d' => if String.eqb k k' then Some v else get k d'
  end.

(** rz_wakefield.py:177-198: two-dimensional arrays of real or complex numbers *)
Record table A := mktab { t_rows : Z; t_cols : Z; t_val : Z -> Z -> A }.
Arguments mktab {A}. Arguments t_rows {A}. Arguments t_cols {A}. Arguments t_val {A}.
(** rz_wakefield.py:177-198: the two types of arrays *)
Inductive data := DReal (t : table R) | DComplex (t : table C).
(** openpmd_diag.py:305-306: values of attributes *)
Inductive attribute := AString (s : string) | ANumber (v : R).

(** other.py:32-46: what is stored per field; exactly one of [n_comps] (component, array,
    position) and [n_scalar] is there. *)
Record entry := mken { n_comps : option (dict (data * list R)); n_scalar : option (data * list R);
  n_spacing : list R; n_labels : list string; n_offset : list R; n_attributes : dict attribute }.
(** other.py:47-54: the keys other than the names of the fields: solver, its parameters,
    boundaries of fields and particles with parameters, current smoothing, charge correction *)
Record common := mkcm { m_solver : string; m_params : string; m_fb : list string; m_fbp : list string;
  m_pb : list string; m_pbp : list string; m_smoothing : string; m_correction : string }.
(** other.py:28-55: the dictionary *)
Record diag_data := mkdd { d_fields : list string; d_entries : dict entry; d_common : common }.

(** other.py:32-46 [generate_field_diag_dictionary]; [None]: IndexError ([arrays[0]] of an
    empty list). *)
Definition entry_of (comps : option (list string)) (attrs : dict attribute) (arrays : list data) (pos : list R)
    (labels : list string) (spacing offset : list R) : option entry :=
  match comps with
  | Some cs => Some (mken (Some (fold_left (fun d ca => put (fst ca) (snd ca, pos) d) (combine cs arrays) []))
                      None spacing labels offset attrs)
  | None => match arrays with
            | a :: _ => Some (mken None (Some (a, pos)) spacing labels offset attrs)
            | [] => None
            end
  end.
(** other.py:30-46: the loop over the fields *)
Fixpoint entries (labels : list string) (spacing offset : list R)
    (l : list (string * (option (list string) * (dict attribute * (list data * list R))))) (d : dict entry)
    : option (dict entry) :=
  match l with
  | [] => Some d
  | (name, (comps, (attrs, (arrays, pos)))) :: l' =>
      match entry_of comps attrs arrays pos labels spacing offset with
      | Some e => entries labels spacing offset l' (put name e d)
      | None => None
      end
  end.
(** other.py:18-55 [generate_field_diag_dictionary]; [None]: IndexError ([arrays[0]] of an empty
    list) *)
Definition generate_field_diag_dictionary (names : list string) (comps : list (option (list string)))
    (attrs : list (dict attribute)) (arrays : list (list data)) (pos : list (list R)) (labels : list string)
    (spacing offset : list R) (c : common) : option diag_data :=
  match entries labels spacing offset (combine names (combine comps (combine attrs (combine arrays pos)))) [] with
  | Some d => Some (mkdd names d c)
  | None => None
  end.

Section Diagnostics.
  Variables charge_e : R.
  (** rz_wakefield.py:178-184 [a.T[2:-2, 2:-2]] *)
  Definition stripped (a : arr2) : table R :=
    mktab (cols a - 4) (rows a - 4) (fun i j => cell a (j + 2)%Z (i + 2)%Z).
  (** rz_wakefield.py:184: an array times a number *)
  Definition scaled (c : R) (t : table R) : table R := mktab (t_rows t) (t_cols t) (fun i j => t_val t i j * c).
  (** rz_wakefield.py:194-198 [get_envelope().T] under a function *)
  Definition turned {A} (f : C -> A) (a : Model_Laser.sarr) : table A :=
    mktab (Z.of_nat (Model_Laser.s_cols a)) (Z.of_nat (Model_Laser.s_rows a)) (fun i j => f (value a j i)).
  (** rz_wakefield.py:157-209 [_get_openpmd_diagnostics_data]; [None]: an exception. *)
  Definition get_openpmd_diagnostics_data (o : wake) (global_time : R) : option diag_data :=
    let x := o_box o in
    let w := as_rz o in
    let dr := Rabs (r_fld w 1 - r_fld w 0) in
    let dz := Rabs (xi_fld w 1 - xi_fld w 0) in
    let '(e_t, b_r, b_z) := o_zero o in
    let f := o_arrays o in
    let names := ["E"; "B"; "rho"]%string in
    let comps := [Some ["r"; "t"; "z"]; Some ["r"; "t"; "z"]; None]%string in
    let attrs := [[]; []; []] in
    let arrays := [[DReal (stripped (h_er f)); DReal (stripped e_t); DReal (stripped (h_ez f))];
                   [DReal (stripped b_r); DReal (stripped (h_bt f)); DReal (stripped b_z)];
                   [DReal (scaled (- charge_e) (scaled (o_np o) (stripped (h_rho f))))]] in
    let generate names comps attrs arrays :=
      generate_field_diag_dictionary names comps attrs arrays (map (fun _ => [0.5; 0]) names) ["r"; "z"]%string
        [dr; dz] [0; global_time * c_SI + x_ximin x]
        (mkcm "other" (x_name x) (repeat "other" 4) (repeat "none" 4) (repeat "other" 4) (repeat "none" 4)
           "none" "none")%string in
    match o_laser o with
    | None => generate names comps attrs arrays
    | Some p =>
        match Model_Laser.p_a_env p with
        | None => None
        | Some a =>
            generate (names ++ ["a_mod"; "a_phase"; "a"]%string) (comps ++ [None; None; None])
              (attrs ++ [[("polarization", AString (Model_Laser.p_pol p))]; [];
                         [("angularFrequency", ANumber (2 * PI * c_SI / Model_Laser.p_l0 p))]]%string)
              (arrays ++ [[DReal (turned Cmod a)]; [DReal (turned Model_Laser.angle a)];
                          [DComplex (turned (fun z => z) a)]])
        end
    end.
End Diagnostics.

(** *** Files *)
(** openpmd_diag.py:274-299: exponents of length, mass, time and current *)
Record units := mkun { u_length : Z; u_mass : Z; u_time : Z; u_current : Z }.
(** openpmd_diag.py:257-263: a record component: array with a leading dimension of size one
    ([np.expand_dims]) and position *)
Record component := mkco { k_shape : Z * Z * Z; k_data : data; k_position : list R }.
(** openpmd_diag.py:247, 303-309: a mesh; scalars have the single component [SCALAR] *)
Record mesh := mkme { e_comps : dict component; e_units : option units; e_geometry : string;
  e_attributes : dict attribute; e_labels : list string; e_spacing : list R; e_offset : list R }.
(** openpmd_diag.py:269: name of the single component *)
Definition SCALAR : string := "SCALAR".
(** openpmd_diag.py:247: a new mesh *)
Definition no_mesh : mesh := mkme [] None "" [] [] [] [].
(** openpmd_diag.py:257-260, 267-269 *)
Definition shape_of (d : data) : Z * Z * Z :=
  match d with DReal t => (1, t_rows t, t_cols t)%Z | DComplex t => (1, t_rows t, t_cols t)%Z end.
(** openpmd_diag.py:257-263, 265-272: a record component with its data *)
Definition stored (dp : data * list R) : component := mkco (shape_of (fst dp)) (fst dp) (snd dp).
(** openpmd_diag.py:274-299: unit_dimension of a field *)
Definition units_of (field : string) : option units :=
  if String.eqb field "E" then Some (mkun 1 1 (-3) (-1))
  else if String.eqb field "B" then Some (mkun 0 1 (-2) (-1))
  else if orb (String.eqb field "rho") (String.eqb field "chi") then Some (mkun (-3) 0 1 1)
  else if String.eqb field "a" then Some (mkun 1 1 (-2) (-1))
  else None.
(** openpmd_diag.py:245-309: one field; [None]: KeyError. [it.meshes[field]] is a new mesh
    unless the iteration has one of this name. *)
Definition write_mesh (field : string) (n : entry) (m : mesh) : option mesh :=
  let comps := match n_comps n, n_scalar n with
               | Some l, _ => Some (fold_left (fun d c => put (fst c) (stored (snd c)) d) l (e_comps m))
               | None, Some s => Some (put SCALAR (stored s) (e_comps m))
               | None, None => None
               end in
  match comps with
  | None => None
  | Some cs =>
      Some (mkme cs (match units_of field with Some u => Some u | None => e_units m end) "thetaMode"
              (fold_left (fun d a => put (fst a) (snd a) d) (n_attributes n)
                 (put "fieldSmoothing" (AString "none") (e_attributes m)))%string
              (n_labels n) (n_spacing n) (n_offset n))
  end.
(** openpmd_diag.py:245-309: the loop over the fields *)
Fixpoint write_meshes (d : dict entry) (fields : list string) (ms : dict mesh) : option (dict mesh) :=
  match fields with
  | [] => Some ms
  | f :: l => match get f d with
              | None => None
              | Some n => match write_mesh f n (match get f ms with Some m => m | None => no_mesh end) with
                          | None => None
                          | Some m => write_meshes d l (put f m ms)
                          end
              end
  end.

(** openpmd_diag.py:128-222: a particle species in the file *)
Record species := mksc { s_position : list R * list R * list R; s_offset : R * R * R;
  s_momentum : list R * list R * list R; s_weighting : list R; s_charge : R; s_mass : R }.
(** openpmd_diag.py:193-205: units of position, positionOffset, momentum, charge and mass *)
Definition species_units : dict units :=
  [("position", mkun 1 0 0 0); ("positionOffset", mkun 1 0 0 0); ("momentum", mkun 1 1 (-1) 0);
   ("charge", mkun 0 0 1 1); ("mass", mkun 0 1 0 0)]%string.
(** openpmd_diag.py:207-222: macroWeighted and weightingPower of each record *)
Definition species_weighting : dict (Z * R) :=
  [("position", (0%Z, 0)); ("positionOffset", (0%Z, 0)); ("momentum", (0%Z, 1)); ("weighting", (1%Z, 1));
   ("charge", (0%Z, 1)); ("mass", (0%Z, 1))]%string.
(** openpmd_diag.py:128-222 [_write_species] *)
Definition write_species (d : Model_Bunch.opmd_data) : species :=
  mksc (Model_Bunch.od_x d, Model_Bunch.od_y d, Model_Bunch.od_z d) (0, 0, Model_Bunch.od_z_off d)
    (Model_Bunch.od_px d, Model_Bunch.od_py d, Model_Bunch.od_pz d) (Model_Bunch.od_w d)
    (Model_Bunch.od_q d) (Model_Bunch.od_m d).

(** openpmd_diag.py:92-94, 131, 227-247: content of an iteration *)
Record iteration := mkit { i_time : R; i_dt : R; i_species : dict species; i_meshes : dict mesh;
  i_common : option common }.
(** openpmd_diag.py:224-309 [_write_fields] *)
Definition write_fields (d : diag_data) (it : iteration) : option iteration :=
  match write_meshes (d_entries d) (d_fields d) (i_meshes it) with
  | Some ms => Some (mkit (i_time it) (i_dt it) (i_species it) ms (Some (d_common d)))
  | None => None
  end.
(** openpmd_diag.py:102-105: the loop over the fields *)
Fixpoint write_all_fields (l : list diag_data) (it : iteration) : option iteration :=
  match l with
  | [] => Some it
  | d :: l' => match write_fields d it with Some it' => write_all_fields l' it' | None => None end
  end.
(** openpmd_diag.py:102-104: the data of all fields (collected before writing; the code
    alternates) *)
Fixpoint collected (t : R) (l : list (R -> option diag_data)) : option (list diag_data) :=
  match l with
  | [] => Some []
  | f :: l' => match f t, collected t l' with Some d, Some r => Some (d :: r) | _, _ => None end
  end.
(** openpmd_diag.py:91-105: the iteration that [write_diagnostics] writes at element time [time]
    when the element starts at [z_pos]; [sp] and [flds] give the data of the species and of the
    supported fields for a global time *)
Definition write_iteration (time dt z_pos : R) (sp : list (R -> Model_Bunch.opmd_data))
    (flds : list (R -> option diag_data)) : option iteration :=
  let t := time + z_pos / c_SI in
  let it0 := mkit t dt (fold_left (fun d s => put (Model_Bunch.od_name (s t)) (write_species (s t)) d) sp []) [] None in
  match collected t flds with
  | Some ds => write_all_fields ds it0
  | None => None
  end.
