(** Model of a whole simulation: the tracker (Model_Tracker) with bunches (Model_Bunch), wakefields
    on a grid (Model_RZ) and analytical fields (Model_Push), wired as wake_t/tracking/tracker.py,
    wake_t/fields/gather.py and wake_t/particles/push do.  Arithmetic of fields and particles is
    exact (reals).

    Exceptions: in the code the first one ends the tracking.  Here it is recorded, as [None] in
    place of the bunch or of the fields, and whatever uses them fails as well; a run without
    [None] is one in which nothing raised. *)
From Coq Require Import QArith Reals Qreals String List.
From Coquelicot Require Import Coquelicot.
From Verif Require Model_Laser.
From Verif Require Import Model_Push Model_Bunch Model_Interp Model_QS Model_Tracker Model_Run Model_RZ.
Import ListNotations.
Open Scope R_scope.

(** plasma_stage.py:157-171, qs_cold_fluid_1x3p.py:17, qs_rz_baxevanis/wakefield.py:13: the two
    wakefields on a grid, with their own arguments *)
Inductive plasma := ColdFluid (p_shape : string) (beam_wakefields : bool) | Baxevanis (q : qs2d).
(** tracker.py:101-112, field_element.py:67: a field of the element; [Wake env pl o]: wakefield
    with the arguments [pl], the state [o] and the envelope function [env] of its pulse *)
Inductive efield := Wake (env : R -> R -> C) (pl : plasma) (o : wake) | Analytic (c : components).

(** ** Gathering and pushing, with wakefields that may fail *)
(** gather.py:54-56: the loop over the fields *)
Fixpoint gather_each (fields : list efield) (ps : list pos) (t : R) (b : list em)
    : result (list em) :=
  match fields with
  | [] => Ok b
  | Analytic c :: r => gather_each r ps t (analytical c ps t b)
  | Wake _ _ o :: r => do b' <- w_gather (as_rz o) ps b; gather_each r ps t b'
  end.
(** gather.py:11-56 [gather_fields] *)
Definition gather_all (fields : list efield) (ps : list pos) (t : R) (b : list em)
    : result (list em) := gather_each fields ps t (reset_particle_fields b).

(** boris_pusher.py:14-43 [apply_boris_pusher] *)
Definition boris (q m : R) (fields : list efield) (t dt : R) (l : list part) (b : list em)
    : result (list part * list em) :=
  let q_over_mc := q / (m * c_SI) in
  let l1 := half_position_push dt l in
  do b1 <- gather_all fields (map pos_of l1) (t + dt / 2) b;
  let l2 := push_momentum dt q_over_mc l1 b1 in
  Ok (half_position_push dt l2, b1).

(** runge_kutta_4.py:56-110, one pass [i] of the loop *)
Definition rk4_pass (q_over_mc : R) (fields : list efield) (t dt : R) (l : list part)
    (a : rk_arrays) (i : nat) : result rk_arrays :=
  let '(fac1, fac2, t_i) :=
    match i with
    | 0%nat => (1, 1 / 6, t)
    | 3%nat => (1, 1 / 6, t + dt)
    | _ => (0.5, 2 / 6, t + dt / 2)
    end in
  match i with
  | 0%nat =>
      do f <- gather_all fields (map pos_of l) t_i (Model_Push.r_fld a);
      let k := map2 (calculate_k1 q_over_mc) l f in
      Ok (mkrk (r_coord a) (initialize_push k fac2) k f)
  | _ =>
      let co := update_coord l dt (r_k a) fac1 in
      do f <- gather_all fields (map pos_of co) t_i (Model_Push.r_fld a);
      let k := map2 (calculate_k1 q_over_mc) co f in
      Ok (mkrk co (update_push (r_push a) k fac2) k f)
  end.
(** runge_kutta_4.py:11-118 [apply_rk4_pusher] *)
Definition rk4 (q m : R) (fields : list efield) (t dt : R) (l : list part) (a : rk_arrays)
    : result (list part * rk_arrays) :=
  let q_over_mc := q / (m * c_SI) in
  do a0 <- rk4_pass q_over_mc fields t dt l a 0;
  do a1 <- rk4_pass q_over_mc fields t dt l a0 1;
  do a2 <- rk4_pass q_over_mc fields t dt l a1 2;
  do a3 <- rk4_pass q_over_mc fields t dt l a2 3;
  Ok (apply_push l dt (r_push a3), a3).

(** particle_bunch.py:269-298 [evolve]; [None]: an exception *)
Definition push_bunch (pusher : string) (fields : list efield) (hb : tracked) (t dt : R)
    : option tracked :=
  let '(h, b) := hb in
  let fields' :=
    match z_injection b with
    | None => Some fields
    | Some z => match amax (rd h (b_xi b)) with
                | None => None
                | Some m => if Rlt_dec (m + prop_distance b) z then Some [] else Some fields
                end
    end in
  match fields' with
  | None => None
  | Some fs =>
      let l := particles h b in
      let n_part := length (rd h (b_x b)) in
      if String.eqb pusher "rk4" then
        let '(co, d, k) := rk4_arrays n_part b in
        let f := field_arrays n_part b in
        match rk4 (q_species b) (m_species b) fs t dt l (mkrk co d k f) with
        | Ok (l', a) =>
            let b1 := with_buffers b (Some (Model_Push.r_fld a)) (Some (r_coord a, r_push a, r_k a)) in
            Some (write_particles h b l', with_prop b1 (prop_distance b + dt * c_SI))
        | Fault _ => None
        end
      else if String.eqb pusher "boris" then
        let f := field_arrays n_part b in
        match boris (q_species b) (m_species b) fs t dt l f with
        | Ok (l', f') =>
            let b1 := with_buffers b (Some f') (b_rk b) in
            Some (write_particles h b l', with_prop b1 (prop_distance b + dt * c_SI))
        | Fault _ => None
        end
      else None
  end.

(** ** Updates *)
(** solver.py:480-485, qs_cold_fluid_1x3p.py:169-172: what a wakefield reads of a bunch *)
Definition charges_of (hb : tracked) : charges :=
  combine (map pos_of (particles (fst hb) (snd hb))) (get_q (fst hb) (snd hb)).

Section Simulation.
  (** Regridding of the pulse (Model_Laser) and the constants and functions of the solvers
      (Model_QS, Model_Fluid). *)
  Variable to_main : Model_Laser.sparams -> nat * nat -> Model_Laser.carr2 -> Model_Laser.carr2.
  Variable to_sub : Model_Laser.sparams -> nat * nat -> (nat -> nat -> R) -> (nat -> nat -> R).
  Variables e_ch m_e eps_0 light : R.
  Variables (argsort : list R -> list nat) (skin_depth wave_breaking : R -> R).
  Variable pusher : string.
  Variable auto_dt : option tracked -> Q.
  Variable rnd : Q -> Q.

  (** rz_wakefield.py:137-143: [_calculate_wakefield] of the class *)
  Definition solve_of (pl : plasma) : box -> solver :=
    match pl with
    | ColdFluid p_shape beam => fluid_solve skin_depth wave_breaking e_ch light p_shape beam
    | Baxevanis q => qs_solve argsort skin_depth wave_breaking e_ch light q
    end.
  (** tracker.py:113, 164, 224 [self.num_fields[j].update(self.bunches)] *)
  Fixpoint update_wake (j : nat) (fields : list efield) (bunches : list charges)
      : option (list efield) :=
    match fields with
    | [] => Some []
    | Analytic c :: r =>
        match update_wake j r bunches with Some r' => Some (Analytic c :: r') | None => None end
    | Wake env pl o :: r =>
        match j with
        | O => match update env to_main to_sub e_ch m_e eps_0 (solve_of pl) o bunches with
               | Some o' => Some (Wake env pl o' :: r)
               | None => None
               end
        | S j' => match update_wake j' r bunches with Some r' => Some (Wake env pl o :: r') | None => None end
        end
    end.
  (** tracker.py:101, 164, 224: the bunches; [None] if one of them is *)
  Fixpoint all_some {A} (l : list (option A)) : option (list A) :=
    match l with
    | [] => Some []
    | None :: _ => None
    | Some a :: r => match all_some r with Some r' => Some (a :: r') | None => None end
    end.
  (** tracker.py:164, 224 *)
  Definition sim_update (j : nat) (fields : option (list efield)) (bunches : list (option tracked))
      : option (list efield) :=
    match fields, all_some bunches with
    | Some fs, Some l => update_wake j fs (map charges_of l)
    | _, _ => None
    end.
  (** tracker.py:290 *)
  Definition sim_evolve (fields : option (list efield)) (hb : option tracked) (t dt : Q)
      : option tracked :=
    match fields, hb with
    | Some fs, Some b => push_bunch pusher fs b (Q2R t) (Q2R dt)
    | _, _ => None
    end.
  (** tracker.py:308 *)
  Definition sim_copy (hb : option tracked) : option tracked := option_map copy_tracked hb.

  (** tracker.py:113-116: steps and flags of the numerical fields, before the adjustment.
      Simplification: the steps of the model of the tracker are rationals, given separately. *)
  Fixpoint adjust_wakes (t_final : R) (fields : list efield) : list efield :=
    match fields with
    | [] => []
    | Analytic c :: r => Analytic c :: adjust_wakes t_final r
    | Wake env pl o :: r => Wake env pl (Model_RZ.adjust_dt t_final o) :: adjust_wakes t_final r
    end.
  (** tracker.py:86-262: constructor and [do_tracking] *)
  Definition simulate (fuel : nat) (c : config) (bunches : list tracked) (fields : list efield)
      : Model_Tracker.outcome (option tracked) (option (list efield)) :=
    do_tracking (option tracked) (option (list efield)) sim_evolve sim_update auto_dt sim_copy rnd
      fuel c (map Some bunches) (Some (adjust_wakes (Q2R (c_tfinal c)) fields)).
End Simulation.
