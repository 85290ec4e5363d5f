(** Vocabulary for the properties of wakefields as objects and of the files written about them. *)
From Coq Require Import Reals ZArith String List Bool.
From Coquelicot Require Import Coquelicot.
From Verif Require Model_Laser Spec_Laser Model_Bunch.
From Verif Require Import Model_Push Model_Interp Spec_Interp Model_Deposit Spec_Deposit Model_QS Model_Fluid Model_RZ.
Import ListNotations.
Open Scope R_scope.

(** Distance the window moves between two updates. *)
Definition stride (x : box) : R := match x_dz x with Some d => d | None => x_ximax x - x_ximin x end.
(** Distance [d] between two updates in a stage of length [s]: as requested, or with a laser the largest
    part of the stage that is not longer. *)
Definition spacing (x : box) (l : option pulse) (s d : R) : Prop :=
  match l with
  | None => d = stride x
  | Some _ => exists n, (1 <= n)%nat /\ INR n * d = s /\ d <= stride x /\
      forall m, (1 <= m)%nat -> s / INR m <= stride x -> (n <= m)%nat
  end.
(** Axial positions of the slices and radial positions of the rings. *)
Definition box_grid (x : box) : gridspec :=
  mkgs (x_ximin x) ((x_ximax x - x_ximin x) / (IZR (x_nxi x) - 1)) (x_rmax x / IZR (x_nr x)) (x_nxi x) (x_nr x).
Definition in_box (x : box) (i j : Z) : Prop := (0 <= i < x_nxi x /\ 0 <= j < x_nr x)%Z.
Definition box_array (x : box) (a : arr2) : Prop := rows a = (x_nxi x + 4)%Z /\ cols a = (x_nr x + 4)%Z.
Definition sized (x : box) (F : fields) : Prop :=
  List.Forall (box_array x) [h_rho F; h_chi F; h_er F; h_ez F; h_bt F].

(** ** Histories of updates *)
Section History.
  Variable envelope_function : R -> R -> C.
  Variable to_main : Model_Laser.sparams -> nat * nat -> Model_Laser.carr2 -> Model_Laser.carr2.
  Variable to_sub : Model_Laser.sparams -> nat * nat -> (nat -> nat -> R) -> (nat -> nat -> R).
  Variables e_ch m_e eps_0 : R.
  Variable solve : box -> solver.
  (** The pulse gets the grid of the wakefield and the time between its updates. *)
  Definition prepared (x : box) (d : R) (l l' : option pulse) : Prop :=
    match l with
    | None => l' = None
    | Some p => exists p1 p2,
        Model_Laser.set_envelope_solver_params p
          (Model_Laser.mkset (x_ximin x) (x_ximax x) (x_rmax x) (Z.to_nat (x_nxi x)) (Z.to_nat (x_nr x))
             (d / c_SI) (x_substeps x) (x_lnxi x) (x_lnr x) (x_phase x)) = (Model_Laser.Fine, p1) /\
        Model_Laser.initialize_envelope envelope_function to_main p1 = (Model_Laser.Fine, p2) /\ l' = Some p2
    end.
  (** One evolution of the pulse in a plasma of density [n] with the susceptibility in [F]. *)
  Definition advanced (x : box) (F : fields) (n : R) (l l' : option pulse) : Prop :=
    match l with
    | None => l' = None
    | Some p =>
        if x_evolution x then
          exists p', Model_Laser.evolve to_main to_sub e_ch m_e eps_0 p
                       (fun i k => inner (h_chi F) (Z.of_nat i) (Z.of_nat k)) n = (Model_Laser.Fine, p') /\ l' = Some p'
        else l' = l
    end.
  (** Density, pulse and fields of all updates, the k-th with the k-th list of bunches; [d] is the distance
      between two updates. *)
  Record history (x : box) (d : R) (l : option pulse) (bs : list (list charges)) (L : nat -> option pulse) (N : nat -> R)
      (F : nat -> fields) : Prop := mkhi {
    hi_first : prepared x d l (L 0%nat);
    hi_next : forall k, (S k < length bs)%nat -> advanced x (F k) (N k) (L k) (L (S k));
    hi_density : forall k, (k < length bs)%nat -> x_density x (INR k * d) = Some (N k);
    hi_fields : forall k, (k < length bs)%nat -> exists v, seen (L k) = Some v /\
      solve x (N k) (INR k * d) v (nth k bs []) = Returned (Ok (F k)) }.
End History.

(** The wakefield [o] after [n] + 1 updates: clock, density, pulse and fields are those of the last update. *)
Record after (x : box) (d : R) (l : option pulse) (n : nat) (N : R) (l' : option pulse) (F : fields) (o : wake) : Prop := mkaf {
  af_box : o_box o = x;
  af_dt : o_dt o * c_SI = d;
  af_even : o_even o = match l with None => false | Some _ => true end;
  af_init : o_init o = true;
  af_position : o_t o * c_SI = INR n * d;
  af_density : o_np o = N;
  af_laser : o_laser o = l';
  af_fields : o_arrays o = F;
  af_zero : let z := zeros2 (x_nxi x) (x_nr x) in o_zero o = (z, z, z) }.
(** The particle is ahead of the box, behind it or outside its radius. *)
Definition off_box (x : box) (p : pos) : Prop := lon p < x_ximin x \/ x_ximax x < lon p \/ x_rmax x < radius p.
Definition feels_nothing (p : pos) (v : em) : Prop :=
  e_radial p v = 0 /\ e_azimuthal p v = 0 /\ ez v = 0 /\ b_radial p v = 0 /\ b_azimuthal p v = 0 /\ bz v = 0.

(** A pulse that has not been used yet, or none, with a grid large enough for its solver. *)
Definition fresh (x : box) (l : option pulse) : Prop :=
  match l with
  | None => True
  | Some p => (exists l0 pol, p = Model_Laser.new_pulse l0 pol) /\ (1 <= x_substeps x)%nat /\
      (2 <= Spec_Laser.default (x_lnxi x) (Z.to_nat (x_nxi x)))%nat /\
      (3 <= Spec_Laser.default (x_lnr x) (Z.to_nat (x_nr x)))%nat
  end.
(** The two envelopes have the same size; the moduli on the grid are related by [c]. *)
Definition modulus (c : R) (x : box) (a a' : Model_Laser.sarr) : Prop :=
  Model_Laser.s_rows a' = Model_Laser.s_rows a /\ Model_Laser.s_cols a' = Model_Laser.s_cols a /\
  forall i j, (i < Z.to_nat (x_nxi x))%nat -> (j < Z.to_nat (x_nr x))%nat ->
    Cmod (Model_Laser.s_val a' i j) = c * Cmod (Model_Laser.s_val a i j).
(** Parameters for which the quasi-static solver works. *)
Definition qs_domain (skin_depth : R -> R) (q : qs2d) (x : box) : Prop :=
  x_ximin x < x_ximax x /\ 0 < x_rmax x /\ (3 <= x_nxi x)%Z /\ (3 <= x_nr x)%Z /\ 0 < q_ppc q /\
  x_rmax x / IZR (x_nr x) / q_ppc q <= (match q_rplasma q with Some r => r | None => x_rmax x end) /\
  shape_name (q_shape q) /\ (q_pusher q = "rk4"%string \/ q_pusher q = "ab5"%string) /\
  (forall z, exists n, x_density x z = Some n /\ 0 < skin_depth (n / 1000000)).
Definition fluid_domain (skin_depth : R -> R) (p_shape : string) (x : box) : Prop :=
  x_ximin x < x_ximax x /\ 0 < x_rmax x /\ (3 <= x_nxi x)%Z /\ (3 <= x_nr x)%Z /\ shape_name p_shape /\
  (forall z, exists n, x_density x z = Some n /\ 0 < n /\ 0 < skin_depth (n / 1000000)).
(** The density is the same everywhere. *)
Definition uniform (x : box) : Prop := forall z z', x_density x z = x_density x z'.

(** ** Reading files *)
(** Position of an array element along one axis, by the openPMD standard. *)
Definition coordinate (offset spacing position : R) (index : Z) : R := offset + (IZR index + position) * spacing.
(** The mesh [m] is on the grid of [x], which is at [z]: element (j, i) of mode 0 of component [c] belongs to
    ring j and slice i, and holds [v i j]. *)
Definition axes (x : box) (z : R) (m : mesh) (c : component) : Prop :=
  e_geometry m = "thetaMode"%string /\ e_labels m = ["r"; "z"]%string /\ k_shape c = (1, x_nr x, x_nxi x)%Z /\
  exists or_ oz sr sz pr pz, e_offset m = [or_; oz] /\ e_spacing m = [sr; sz] /\ k_position c = [pr; pz] /\
    forall i j, in_box x i j -> coordinate or_ sr pr j = node_r (box_grid x) j /\
                                coordinate oz sz pz i = z + node_z (box_grid x) i.
Definition holds (x : box) (z : R) (m : mesh) (comp : string) (v : Z -> Z -> R) : Prop :=
  exists c t, get comp (e_comps m) = Some c /\ k_data c = DReal t /\ axes x z m c /\
    forall i j, in_box x i j -> t_val t j i = v i j.
Definition holds_complex (x : box) (z : R) (m : mesh) (comp : string) (v : Z -> Z -> C) : Prop :=
  exists c t, get comp (e_comps m) = Some c /\ k_data c = DComplex t /\ axes x z m c /\
    forall i j, in_box x i j -> t_val t j i = v i j.
(** The same units: of a product with another quantity. *)
Definition times (u v : units) : units :=
  mkun (u_length u + u_length v) (u_mass u + u_mass v) (u_time u + u_time v) (u_current u + u_current v).
Definition over (u v : units) : units :=
  mkun (u_length u - u_length v) (u_mass u - u_mass v) (u_time u - u_time v) (u_current u - u_current v).
Definition metre : units := mkun 1 0 0 0.
Definition kilogram : units := mkun 0 1 0 0.
Definition second : units := mkun 0 0 1 0.
Definition ampere : units := mkun 0 0 0 1.
Definition newton : units := over (over (times kilogram metre) second) second.
Definition coulomb : units := times ampere second.
Definition pure_number : units := mkun 0 0 0 0.

(** Position of the particles in the file: relative position plus offset. *)
Definition absolute (s : species) : list R * list R * list R :=
  let '(x, y, z) := s_position s in
  let '(ox, oy, oz) := s_offset s in
  (map (fun v => v + ox) x, map (fun v => v + oy) y, map (fun v => v + oz) z).

(** A wakefield whose data can be written: the arrays have the size of the box, the unused components are
    zero and the envelope of a laser is on the grid of the box. *)
Record displayable (o : wake) : Prop := mkdy {
  dy_box : let x := o_box o in x_ximin x < x_ximax x /\ 0 < x_rmax x /\ (2 <= x_nxi x)%Z /\ (2 <= x_nr x)%Z;
  dy_arrays : sized (o_box o) (o_arrays o);
  dy_zero : let z := zeros2 (x_nxi (o_box o)) (x_nr (o_box o)) in o_zero o = (z, z, z);
  dy_laser : forall p, o_laser o = Some p -> exists a, Model_Laser.p_a_env p = Some a /\
    Model_Laser.s_rows a = Z.to_nat (x_nxi (o_box o)) /\ Model_Laser.s_cols a = Z.to_nat (x_nr (o_box o)) }.
(** The meshes [ms] are those of [o] with the front of the stage at [z]. *)
Record meshes_of (e : R) (o : wake) (z : R) (ms : dict mesh) : Prop := mkmo {
  mo_E : exists m, get "E"%string ms = Some m /\ e_units m = Some (over newton coulomb) /\
    holds (o_box o) z m "r" (inner (h_er (o_arrays o))) /\ holds (o_box o) z m "t" (fun _ _ => 0) /\
    holds (o_box o) z m "z" (inner (h_ez (o_arrays o)));
  mo_B : exists m, get "B"%string ms = Some m /\ e_units m = Some (over newton (times ampere metre)) /\
    holds (o_box o) z m "r" (fun _ _ => 0) /\ holds (o_box o) z m "t" (inner (h_bt (o_arrays o))) /\
    holds (o_box o) z m "z" (fun _ _ => 0);
  mo_rho : exists m, get "rho"%string ms = Some m /\ e_units m = Some (over (over (over coulomb metre) metre) metre) /\
    holds (o_box o) z m SCALAR (fun i j => - e * o_np o * inner (h_rho (o_arrays o)) i j);
  mo_laser : forall p a, o_laser o = Some p -> Model_Laser.p_a_env p = Some a ->
    let env i j := Model_Laser.s_val a (Z.to_nat i) (Z.to_nat j) in
    exists mm mp ma Mod Phi w,
      get "a_mod"%string ms = Some mm /\ get "a_phase"%string ms = Some mp /\ get "a"%string ms = Some ma /\
      holds (o_box o) z mm SCALAR Mod /\ holds (o_box o) z mp SCALAR Phi /\ holds_complex (o_box o) z ma SCALAR env /\
      (forall i j, 0 <= Mod i j /\ - PI < Phi i j <= PI /\ env i j = Spec_Laser.polar (Mod i j) (Phi i j)) /\
      get "polarization"%string (e_attributes mm) = Some (AString (Model_Laser.p_pol p)) /\
      get "angularFrequency"%string (e_attributes ma) = Some (ANumber w) /\
      (Model_Laser.p_l0 p <> 0 -> w * Model_Laser.p_l0 p = 2 * PI * c_SI) }.
Definition own_mesh (o : wake) (k : string) : Prop :=
  In k ["E"; "B"; "rho"]%string \/ (o_laser o <> None /\ In k ["a_mod"; "a_phase"; "a"]%string).
