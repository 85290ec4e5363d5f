(** Model of wake_t/particles/particle_bunch.py. The numpy arrays of coordinates and weights
    live in a heap, since the bunch keeps references to the arrays it is given and the
    pushers work in place. Arithmetic is exact (reals). *)
From Coq Require Import Reals String List Arith DecimalString DecimalNat.
From Verif Require Import Model_Push.
Import ListNotations.
Open Scope R_scope.

(** ** Memory *)
(** particle_bunch.py:93-99: the references that the bunch keeps. An array is named by its
    position in the heap; new arrays go to the end. *)
Definition addr := nat.
(** particle_bunch.py:93-99: the arrays. *)
Definition heap := list (list R).
(** particle_bunch.py:93-99: contents of an array. *)
Definition rd (h : heap) (a : addr) : list R := nth a h [].
(** particle_bunch.py:129, 183-187, 197, 307-313: a new array. *)
Definition alloc (h : heap) (v : list R) : heap * addr := (h ++ [v], length h).
(** particle_bunch.py:240, 290-292: In-place modification of the whole array. *)
Fixpoint wr (h : heap) (a : addr) (v : list R) : heap :=
  match h, a with
  | [], _ => []
  | _ :: r, O => v :: r
  | u :: r, S a' => u :: wr r a' v
  end.
(** particle_bunch.py:201-202, 209, 216-217, 229-230 [np.array] of rows: new arrays. *)
Fixpoint alloc_list (h : heap) (vs : list (list R)) : heap * list addr :=
  match vs with
  | [] => (h, [])
  | v :: r => let '(h1, a) := alloc h v in
              let '(h2, l) := alloc_list h1 r in (h2, a :: l)
  end.

(** ** The bunch *)
(** particle_bunch.py:66-111, attributes.  The auxiliary arrays (323-381) are
    created by the bunch and never handed to a caller, so they are values;
    [None]: not yet allocated.  [b_rk]: arrays for coordinates, push and k. *)
Record bunch := mkb {
  b_x : addr; b_y : addr; b_xi : addr; b_px : addr; b_py : addr; b_pz : addr; b_w : addr;
  b_tags : option (list nat); prop_distance : R; t_flight : R; z_injection : option R;
  x_ref : R; theta_ref : R; b_name : string; q_species : R; m_species : R;
  b_fld : option (list em); b_rk : option (list part * list part * list part) }.

(** particle_bunch.py:138-158, 182-187, 191-196: Replace the references to the coordinate
    arrays. *)
Definition with_coords (b : bunch) (ax ay axi apx apy apz : addr) : bunch :=
  mkb ax ay axi apx apy apz (b_w b) (b_tags b) (prop_distance b) (t_flight b)
    (z_injection b) (x_ref b) (theta_ref b) (b_name b) (q_species b) (m_species b)
    (b_fld b) (b_rk b).
(** particle_bunch.py:129, 197 [self.w = ...]. *)
Definition with_w (b : bunch) (aw : addr) : bunch :=
  mkb (b_x b) (b_y b) (b_xi b) (b_px b) (b_py b) (b_pz b) aw (b_tags b) (prop_distance b)
    (t_flight b) (z_injection b) (x_ref b) (theta_ref b) (b_name b) (q_species b)
    (m_species b) (b_fld b) (b_rk b).
(** particle_bunch.py:234, 298 [self.prop_distance = ...]. *)
Definition with_prop (b : bunch) (d : R) : bunch :=
  mkb (b_x b) (b_y b) (b_xi b) (b_px b) (b_py b) (b_pz b) (b_w b) (b_tags b) d
    (t_flight b) (z_injection b) (x_ref b) (theta_ref b) (b_name b) (q_species b)
    (m_species b) (b_fld b) (b_rk b).
(** particle_bunch.py:319-320 [x_ref] and [theta_ref] are set. *)
Definition with_ref (b : bunch) (xr tr : R) : bunch :=
  mkb (b_x b) (b_y b) (b_xi b) (b_px b) (b_py b) (b_pz b) (b_w b) (b_tags b)
    (prop_distance b) (t_flight b) (z_injection b) xr tr (b_name b) (q_species b)
    (m_species b) (b_fld b) (b_rk b).
(** particle_bunch.py:323-381: the auxiliary arrays are set. *)
Definition with_buffers (b : bunch) (f : option (list em))
    (r : option (list part * list part * list part)) : bunch :=
  mkb (b_x b) (b_y b) (b_xi b) (b_px b) (b_py b) (b_pz b) (b_w b) (b_tags b)
    (prop_distance b) (t_flight b) (z_injection b) (x_ref b) (theta_ref b) (b_name b)
    (q_species b) (m_species b) f r.

(** particle_bunch.py:134: the name of an unnamed bunch. *)
Definition auto_name (n : nat) : string :=
  ("elec_bunch_" ++ NilZero.string_of_uint (Nat.to_uint n))%string.
(** particle_bunch.py:131-136 [set_name]; the counter is the class attribute [_n_unnamed]. *)
Definition set_name (counter : nat) (name : option string) : string * nat :=
  match name with
  | None => (auto_name counter, S counter)
  | Some s => (s, counter)
  end.

(** particle_bunch.py:66-111 [__init__] with the coordinate arrays. *)
Definition new_bunch (counter : nat) (w ax ay axi apx apy apz : addr)
    (tags : option (list nat)) (prop tfl : R) (zinj : option R) (name : option string)
    (q m : R) : bunch * nat :=
  let '(nm, counter') := set_name counter name in
  (mkb ax ay axi apx apy apz w tags prop tfl zinj 0 0 nm q m None None, counter').

(** particle_bunch.py:93-98: The particles: entry [i] of each coordinate array; the loops of
    the pushers run over [x.shape[0]]. *)
Definition particles (h : heap) (b : bunch) : list part :=
  map (fun i => mkp (nth i (rd h (b_x b)) 0) (nth i (rd h (b_y b)) 0)
                    (nth i (rd h (b_xi b)) 0) (nth i (rd h (b_px b)) 0)
                    (nth i (rd h (b_py b)) 0) (nth i (rd h (b_pz b)) 0))
      (seq 0 (length (rd h (b_x b)))).
(** particle_bunch.py:290-292: In-place modification of the six coordinate arrays. *)
Definition write_particles (h : heap) (b : bunch) (l : list part) : heap :=
  wr (wr (wr (wr (wr (wr h (b_x b) (map x l)) (b_y b) (map y l)) (b_xi b) (map xi l))
     (b_px b) (map px l)) (b_py b) (map py l)) (b_pz b) (map pz l).

(** ** Charge: 113-129 *)
(** particle_bunch.py:113-120 [q], the getter. *)
Definition get_q (h : heap) (b : bunch) : list R :=
  map (fun w => w * q_species b) (rd h (b_w b)).
(** particle_bunch.py:122-129 [q], the setter. *)
Definition set_q (h : heap) (b : bunch) (q_new : list R) : heap * bunch :=
  let '(h', a) := alloc h (map (fun q => Rabs (q / q_species b)) q_new) in
  (h', with_w b a).

(** ** Matrices.  A matrix is the list of its rows; a row given by the caller is a
    view of the caller's array. *)
(** particle_bunch.py:138-145 [set_phase_space] *)
Definition set_phase_space (b : bunch) (ax ay axi apx apy apz : addr) : bunch :=
  with_coords b ax ay axi apx apy apz.
(** particle_bunch.py:147-158 [set_phase_space_from_matrix] *)
Definition set_phase_space_from_matrix (b : bunch) (m : nat -> addr) : bunch :=
  with_coords b (m 0%nat) (m 2%nat) (m 4%nat) (m 1%nat) (m 3%nat) (m 5%nat).
(** particle_bunch.py:160-187 [set_phase_space_from_alternative_matrix].  x, y and xi are the rows
    themselves, the momenta are new arrays. *)
Definition set_phase_space_from_alternative_matrix (h : heap) (b : bunch)
    (m : nat -> addr) (gamma_ref : R) : heap * bunch :=
  let dp := rd h (m 5%nat) in
  let gamma := map (fun d => (d + 1) * gamma_ref) dp in
  let p_kin := map (fun g => sqrt (g ^ 2 - 1)) gamma in
  let px := map2 Rmult (rd h (m 1%nat)) p_kin in
  let py := map2 Rmult (rd h (m 3%nat)) p_kin in
  let pz := map2 (fun g p => sqrt (g ^ 2 - fst p ^ 2 - snd p ^ 2 - 1)) gamma (combine px py) in
  let '(h1, apx) := alloc h px in
  let '(h2, apy) := alloc h1 py in
  let '(h3, apz) := alloc h2 pz in
  (h3, with_coords b (m 0%nat) (m 2%nat) (m 4%nat) apx apy apz).
(** particle_bunch.py:189-197 [set_bunch_matrix] *)
Definition set_bunch_matrix (h : heap) (b : bunch) (m : nat -> addr) : heap * bunch :=
  let b1 := with_coords b (m 0%nat) (m 1%nat) (m 2%nat) (m 3%nat) (m 4%nat) (m 5%nat) in
  let '(h1, aw) := alloc h (map (fun q => q / q_species b) (rd h (m 6%nat))) in
  (h1, with_w b1 aw).
(** particle_bunch.py:199-202 [get_bunch_matrix]: [np.array] of the rows copies them. *)
Definition get_bunch_matrix (h : heap) (b : bunch) : list (list R) :=
  [rd h (b_x b); rd h (b_y b); rd h (b_xi b); rd h (b_px b); rd h (b_py b); rd h (b_pz b);
   get_q h b].
(** particle_bunch.py:204-209 [get_6D_matrix]. *)
Definition get_6D_matrix (h : heap) (b : bunch) : list (list R) :=
  [rd h (b_x b); rd h (b_px b); rd h (b_y b); rd h (b_py b); rd h (b_xi b); rd h (b_pz b)].
(** particle_bunch.py:211-217 [get_6D_matrix_with_charge]. *)
Definition get_6D_matrix_with_charge (h : heap) (b : bunch) : list (list R) :=
  get_6D_matrix h b ++ [get_q h b].

(** particle_bunch.py:225, 238: np.sum. *)
Definition sum (l : list R) : R := fold_right Rplus 0 l.
(** particle_bunch.py:225, 238: np.average(v, weights=w); it raises ZeroDivisionError when the
    weights sum to zero. *)
Definition average (v w : list R) : R := sum (map2 Rmult v w) / sum w.

(** particle_bunch.py:219-230 [get_alternative_6D_matrix] *)
Definition get_alternative_6D_matrix (h : heap) (b : bunch) : list (list R) * R :=
  let g := map2 (fun a p => sqrt (1 + a ^ 2 + fst p ^ 2 + snd p ^ 2)) (rd h (b_px b))
             (combine (rd h (b_py b)) (rd h (b_pz b))) in
  let g_avg := average g (rd h (b_w b)) in
  let b_avg := sqrt (1 - / g_avg ^ 2) in
  let dp := map (fun u => (u - g_avg) / (g_avg * b_avg)) g in
  let p_kin := map (fun u => sqrt (u ^ 2 - 1)) g in
  ([rd h (b_x b); map2 Rdiv (rd h (b_px b)) p_kin; rd h (b_y b);
    map2 Rdiv (rd h (b_py b)) p_kin; rd h (b_xi b); dp], g_avg).

(** particle_bunch.py:232-234 *)
Definition increase_prop_distance (b : bunch) (dist : R) : bunch :=
  with_prop b (prop_distance b + dist).

(** particle_bunch.py:238, 286, 294: the exceptions. *)
Inductive exn := ValueError | ZeroDivisionError.
(** particle_bunch.py:236-240, 269-298: Both carry the state that is left. *)
Inductive outcome (A : Type) := Done (a : A) | Raise (e : exn) (a : A).
Arguments Done {A}. Arguments Raise {A}.

(** particle_bunch.py:236-240 [reposition_xi]: [self.xi += dxi] works in place. *)
Definition reposition_xi (h : heap) (b : bunch) (xi_c : R) : outcome heap :=
  if Req_EM_T (sum (rd h (b_w b))) 0 then Raise ZeroDivisionError h
  else
    let current_xi_c := average (rd h (b_xi b)) (rd h (b_w b)) in
    let dxi := xi_c - current_xi_c in
    Done (wr h (b_xi b) (map (fun v => v + dxi) (rd h (b_xi b)))).

(** particle_bunch.py:248-260: the dictionary. *)
Record opmd_data := mkod { od_x : list R; od_y : list R; od_z : list R; od_px : list R;
  od_py : list R; od_pz : list R; od_w : list R; od_q : R; od_m : R; od_name : string;
  od_z_off : R }.
(** particle_bunch.py:242-261 [get_openpmd_diagnostics_data]. *)
Definition get_openpmd_diagnostics_data (h : heap) (b : bunch) (global_time : R) : opmd_data :=
  let si l := map (fun p => p * m_species b * c_SI) l in
  mkod (rd h (b_x b)) (rd h (b_y b)) (rd h (b_xi b)) (si (rd h (b_px b)))
    (si (rd h (b_py b))) (si (rd h (b_pz b))) (rd h (b_w b)) (q_species b) (m_species b)
    (b_name b) (global_time * c_SI).

(** ** Pushing *)
(** particle_bunch.py:286: np.amax; raises ValueError on an empty array. *)
Definition amax (l : list R) : option R :=
  match l with [] => None | v :: r => Some (fold_left Rmax r v) end.

(** particle_bunch.py:323-330, 345-354 [get_field_arrays] with the preallocation. *)
Definition field_arrays (n_part : nat) (b : bunch) : list em :=
  match b_fld b with Some f => f | None => repeat em0 n_part end.
(** particle_bunch.py:332-343, 356-381 [get_rk4_arrays] with the preallocation. *)
Definition rk4_arrays (n_part : nat) (b : bunch) : list part * list part * list part :=
  match b_rk b with
  | Some r => r
  | None => let z := repeat (mkp 0 0 0 0 0 0) n_part in (z, z, z)
  end.

(** particle_bunch.py:269-298 [evolve] *)
Definition evolve (h : heap) (b : bunch) (fields : list field) (t dt : R) (pusher : string)
    : outcome (heap * bunch) :=
  let fields' :=
    match z_injection b with
    | None => Some fields
    | Some z => match amax (rd h (b_xi b)) with
                | None => None
                | Some m => if Rlt_dec (m + prop_distance b) z then Some [] else Some fields
                end
    end in
  match fields' with
  | None => Raise ValueError (h, b)
  | Some fs =>
      let l := particles h b in
      let n_part := length (rd h (b_x b)) in
      if String.eqb pusher "rk4" then
        let '(co, d, k) := rk4_arrays n_part b in
        let f := field_arrays n_part b in
        let '(l', a) := apply_rk4_pusher (q_species b) (m_species b) fs t dt l (mkrk co d k f) in
        let b1 := with_buffers b (Some (r_fld a)) (Some (r_coord a, r_push a, r_k a)) in
        Done (write_particles h b l', with_prop b1 (prop_distance b + dt * c_SI))
      else if String.eqb pusher "boris" then
        let f := field_arrays n_part b in
        let '(l', f') := apply_boris_pusher (q_species b) (m_species b) fs t dt l f in
        let b1 := with_buffers b (Some f') (b_rk b) in
        Done (write_particles h b l', with_prop b1 (prop_distance b + dt * c_SI))
      else Raise ValueError (h, b)
  end.

(** particle_bunch.py:300-321 [copy] *)
Definition copy (h : heap) (counter : nat) (b : bunch) : heap * bunch * nat :=
  let '(h1, aw) := alloc h (rd h (b_w b)) in
  let '(h2, ax) := alloc h1 (rd h (b_x b)) in
  let '(h3, ay) := alloc h2 (rd h (b_y b)) in
  let '(h4, axi) := alloc h3 (rd h (b_xi b)) in
  let '(h5, apx) := alloc h4 (rd h (b_px b)) in
  let '(h6, apy) := alloc h5 (rd h (b_py b)) in
  let '(h7, apz) := alloc h6 (rd h (b_pz b)) in
  let '(c, counter') := new_bunch counter aw ax ay axi apx apy apz None (prop_distance b) 0
    None (Some (b_name b)) (q_species b) (m_species b) in
  (h7, with_ref c (x_ref b) (theta_ref b), counter').
