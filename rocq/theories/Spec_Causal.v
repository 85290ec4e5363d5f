(** Vocabulary for runs that differ in what is behind a position. *)
From Coq Require Import QArith Reals Qreals ZArith String List.
From Coquelicot Require Import Coquelicot.
From Verif Require Model_Laser.
From Verif Require Import Model_Push Model_Interp Spec_Interp Model_QS Model_Tracker Model_Run Model_RZ Spec_RZ
  Model_Bunch Spec_Bunch Model_Sim Spec_Sim.
Import ListNotations.
Open Scope R_scope.

(** The macroparticles (with their weights) at or ahead of [z]. *)
Definition from (z : R) (l : list (part * R)) : list (part * R) :=
  filter (fun pw => if Rle_dec z (xi (fst pw)) then true else false) l.
(** Bunches that differ only in macroparticles behind [z], of which there may be any number. *)
Definition same_ahead (z : R) (hb hb' : tracked) : Prop :=
  sound hb /\ sound hb' /\ same_attributes (snd hb) (snd hb') /\
  from z (combine (parts hb) (weights hb)) = from z (combine (parts hb') (weights hb')).
(** Related if neither calculation raised an exception. *)
Definition if_both {A} (r : A -> A -> Prop) (a b : option A) : Prop :=
  match a, b with Some u, Some v => r u v | _, _ => True end.

(** Lengths of the cells of the wakefields, in the order of their updates. *)
Definition cell_lengths (fields : list efield) : list R :=
  flat_map (fun f => match f with Wake _ _ o => [gdz (box_grid (o_box o))] | Analytic _ => [] end) fields.
(** Position that starts at [z] and moves forward by five cells of a wakefield whenever that one is
    updated, after the events [l]. *)
Fixpoint frontier {B} (cells : list R) (z : R) (l : list (event B)) : R :=
  match l with
  | [] => z
  | EField j _ :: r => frontier cells (z + 5 * nth j cells 0) r
  | _ :: r => frontier cells z r
  end.

(** The same data in the slices at or ahead of [z]. *)
Definition same_data (z : R) (x : box) (F F' : fields) : Prop :=
  forall i j, in_box x i j -> z <= node_z (box_grid x) i ->
    inner (h_rho F) i j = inner (h_rho F') i j /\ inner (h_chi F) i j = inner (h_chi F') i j /\
    inner (h_er F) i j = inner (h_er F') i j /\ inner (h_ez F) i j = inner (h_ez F') i j /\
    inner (h_bt F) i j = inner (h_bt F') i j.
Definition same_light (z : R) (x : box) (l l' : option pulse) : Prop :=
  match l, l' with
  | None, None => True
  | Some p, Some p' => p = p' \/ Model_Laser.p_pol p = Model_Laser.p_pol p' /\ exists a a',
      Model_Laser.p_a_env p = Some a /\ Model_Laser.p_a_env p' = Some a' /\
      Model_Laser.s_rows a = Model_Laser.s_rows a' /\ Model_Laser.s_cols a = Model_Laser.s_cols a' /\
      forall i j, in_box x i j -> z <= node_z (box_grid x) i -> value a i j = value a' i j
  | _, _ => False
  end.
Definition same_field (z : R) (f f' : efield) : Prop :=
  match f, f' with
  | Analytic c, Analytic c' => c = c'
  | Wake env pl o, Wake env' pl' o' =>
      env = env' /\ pl = pl' /\ o_box o = o_box o' /\ o_t o = o_t o' /\ o_np o = o_np o' /\
      same_data z (o_box o) (o_arrays o) (o_arrays o') /\ same_light z (o_box o) (o_laser o) (o_laser o')
  | _, _ => False
  end.

(** A wakefield that has not been used yet, with valid parameters.  A pulse that evolves does so on the
    grid of the wakefield. *)
Definition usable (skin_depth : R -> R) (f : efield) : Prop :=
  match f with
  | Analytic _ => True
  | Wake _ pl o =>
      o_init o = false /\
      match pl with
      | ColdFluid p_shape _ => fluid_domain skin_depth p_shape (o_box o)
      | Baxevanis q => qs_domain skin_depth q (o_box o)
      end /\
      match o_laser o with
      | None => True
      | Some p => (exists l0 pol, p = Model_Laser.new_pulse l0 pol) /\
                  (x_evolution (o_box o) = true -> x_lnxi (o_box o) = None /\ x_lnr (o_box o) = None)
      end
  end.
