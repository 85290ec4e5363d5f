(** Model of wake_t/beamline_elements/tm_elements.py (the steps are in [Model_CSR]).
    The screen output (_print_element_properties, progress bar, times) is left out. *)
From Coq Require Import QArith Qreals Reals List Arith.
From Verif Require Import Model_Push Model_Bunch Model_Optics Model_CSR.
Import ListNotations.
Open Scope R_scope.

(** tm_elements.py:189, 195: numpy's matrix is the list of its rows; the columns, and back. *)
Definition columns (rows : list (list R)) : list (list R) :=
  map (fun i => map (fun r => nth i r 0) rows) (seq 0 (length (hd [] rows))).
(** tm_elements.py:260-264, particle_bunch.py:153-158: row [j] of a matrix given by its columns.
    *)
Definition row (cols : list (list R)) (j : nat) : list R := map (fun v => nth j v 0) cols.
(** tm_elements.py:191, 258 [m[0] += d] *)
Definition add_x (d : R) (v : list R) : list R :=
  match v with [] => [] | a :: r => (a + d) :: r end.


(** tm_elements.py:51-71 [TMElement.__init__]. *)
Definition tm_element (id : nat) (L : Q) (theta k1 k2 : R) (g : option R) (csr_on : bool)
    (n_out : option nat) (order : nat) : elem := mkel id L theta k1 k2 g csr_on n_out order.
(** tm_elements.py:298-307 [Drift.__init__]. *)
Definition drift id L g csr_on n_out order := tm_element id L 0 0 0 g csr_on n_out order.
(** tm_elements.py:340-350 [Dipole.__init__]. *)
Definition dipole id L theta g csr_on n_out order :=
  tm_element id L theta 0 0 g csr_on n_out order.
(** tm_elements.py:386-396 [Quadrupole.__init__]. *)
Definition quadrupole id L k1 g csr_on n_out order :=
  tm_element id L 0 k1 0 g csr_on n_out order.
(** tm_elements.py:429-439 [Sextupole.__init__]. *)
Definition sextupole id L k2 g csr_on n_out order :=
  tm_element id L 0 0 k2 g csr_on n_out order.

(** tm_elements.py:189-195: the matrix in the frame of the element. *)
Definition lab_matrix (h : heap) (b : bunch) : list (list R) :=
  let m := map (add_x (- x_ref b)) (columns (get_6D_matrix h b)) in
  if Req_EM_T (theta_ref b) 0 then m
  else map (mat_vec (rotation_matrix_xz (- theta_ref b))) m.
(** tm_elements.py:188-196 [_get_beam_matrix_for_tracking]. *)
Definition beam_matrix (h : heap) (b : bunch) (gamma_ref : option R) : list (list R) * R :=
  convert_to_ocelot_matrix (lab_matrix h b) (rd h (b_w b)) gamma_ref.

(** tm_elements.py:236-251: the new reference angle. *)
Definition new_theta (e : elem) (b : bunch) (d : R) : R :=
  if Req_EM_T (e_theta e) 0 then theta_ref b
  else theta_ref b + e_theta e * d / Q2R (e_length e).
(** tm_elements.py:236-251: the new reference displacement. *)
Definition new_x (e : elem) (b : bunch) (d : R) : R :=
  if Req_EM_T (e_theta e) 0 then x_ref b + d * sin (theta_ref b)
  else
    let theta_step := e_theta e * d / Q2R (e_length e) in
    let rho := Rabs (Q2R (e_length e) / e_theta e) in
    let sign := - theta_step / Rabs theta_step in
    x_ref b + sign * rho * (cos (new_theta e b d) - cos (theta_ref b)).
(** tm_elements.py:235-267 [_create_new_bunch]; the weights are shared with the old bunch. *)
Definition create_new_bunch (h : heap) (b : bunch) (e : elem) (cols : list (list R)) (d : R)
    : heap * bunch :=
  let th := new_theta e b d in
  let cols := if Req_EM_T th 0 then cols else map (mat_vec (rotation_matrix_xz th)) cols in
  let cols := map (add_x (new_x e b d)) cols in
  let '(h1, ax) := alloc h (row cols 0) in
  let '(h2, apx) := alloc h1 (row cols 1) in
  let '(h3, ay) := alloc h2 (row cols 2) in
  let '(h4, apy) := alloc h3 (row cols 3) in
  let '(h5, axi) := alloc h4 (row cols 4) in
  let '(h6, apz) := alloc h5 (row cols 5) in
  let '(nb, _) := new_bunch 0 (b_w b) ax ay axi apx apy apz None (prop_distance b + d) 0 None
    (Some (b_name b)) (q_species b) (m_species b) in
  (h6, with_ref nb (new_x e b d) th).

(** tm_elements.py:149-150, 171-172: Calls to the diagnostics: time, time step, bunch. *)
Record write := mkwr { w_time : R; w_dt : R; w_bunch : bunch }.

(** tm_elements.py:144-172: the variables of the tracking loop. *)
Record loop := mkl { l_cols : list (list R); l_heap : heap; l_out : list bunch;
  l_writes : list write }.
(** tm_elements.py:152-172: one tracking step. [None]: ZeroDivisionError raised by the CSR
    calculation. *)
Definition step (c : csr) (e : elem) (g : R) (b : bunch) (q : list R) (l_step : R)
    (backtrack : bool) (outs : list nat) (s : loop) (i : nat) : option loop :=
  let l_curr := INR (i + 1) * l_step * (1 - 2 * (if backtrack then 1 else 0)) in
  let m := track_with_transfer_map (l_cols s) l_step (Q2R (e_length e)) (- e_theta e)
             (e_k1 e) (e_k2 e) g (e_order e) in
  match (if e_csr_on e then apply_csr c e l_curr g q m else Some m) with
  | None => None
  | Some m =>
      Some (if existsb (Nat.eqb i) outs then
              let '(h, nb) := create_new_bunch (l_heap s) b e
                                (convert_from_ocelot_matrix m g) l_curr in
              mkl m h (l_out s ++ [nb]) (l_writes s ++ [mkwr (l_curr / c_SI) (l_step / c_SI) nb])
            else mkl m (l_heap s) (l_out s) (l_writes s))
  end.
(** tm_elements.py:151-172: the tracking loop. *)
Fixpoint steps (c : csr) (e : elem) (g : R) (b : bunch) (q : list R) (l_step : R)
    (backtrack : bool) (outs : list nat) (s : loop) (is : list nat) : option loop :=
  match is with
  | [] => Some s
  | i :: r => match step c e g b q l_step backtrack outs s i with
              | None => None
              | Some s' => steps c e g b q l_step backtrack outs s' r
              end
  end.

(** tm_elements.py:221-233 [_update_input_bunch] *)
Definition update_input_bunch (h : heap) (counter : nat) (b : bunch) (e : elem) (g : R)
    (cols : list (list R)) (out : list bunch) : heap * bunch * nat :=
  let '(h1, lb, counter) :=
    match out with
    | [] => let '(h1, nb) := create_new_bunch h b e (convert_from_ocelot_matrix cols g)
                               (Q2R (e_length e)) in (h1, nb, counter)
    | _ => copy h counter (last out b)
    end in
  let b1 := set_phase_space b (b_x lb) (b_y lb) (b_xi lb) (b_px lb) (b_py lb) (b_pz lb) in
  (h1, with_ref (with_prop b1 (prop_distance lb)) (x_ref lb) (theta_ref lb), counter).

(** tm_elements.py:73-186: What [track] leaves behind: memory, the element, the CSR
    calculator, the input bunch; and the list it returns. [tr_z]: argument of
    increase_z_pos. *)
Record tracked := mktr { tr_heap : heap; tr_counter : nat; tr_elem : elem; tr_csr : csr;
  tr_bunch : bunch; tr_out : list bunch; tr_writes : list write; tr_z : R }.
(** tm_elements.py:114-115 [self.gamma_ref = g_avg]. *)
Definition set_gamma (e : elem) (g : R) : elem :=
  mkel (e_id e) (e_length e) (e_theta e) (e_k1 e) (e_k2 e) (Some g) (e_csr_on e) (e_n_out e)
    (e_order e).
(** tm_elements.py:73-186 [track]; [None]: an exception (elements of zero length divide by it;
    CSR). *)
Definition track (rnd : Q -> Q) (h : heap) (counter : nat) (c : csr) (e : elem) (b : bunch)
    (backtrack out_initial : bool) : option tracked :=
  if Qeq_bool (e_length e) 0 then None
  else if match e_gamma_ref e with
          | None => if Req_EM_T (sum (rd h (b_w b))) 0 then true else false
          | Some _ => false end then None
  else if match e_n_out e with Some O => true | _ => false end then None
  else
    let '(m, g_avg) := beam_matrix h b (e_gamma_ref e) in
    let g := match e_gamma_ref e with None => g_avg | Some g => g end in
    let e := set_gamma e g in
    let c := if e_csr_on e then add_lattice_element rnd c e else clear c in
    match determine_steps rnd (e_length e) (e_n_out e)
            (if e_csr_on e then Some (get_csr_step c e) else None) with
    | None => None
    | Some (l_step, n_track, outs) =>
        let l_step := Q2R l_step in
        let '(h, counter, out, wr) :=
          if out_initial then
            let '(h', cb, counter') := copy h counter b in
            (h', counter', [cb], [mkwr 0 (l_step / c_SI) cb])
          else (h, counter, [], []) in
        match steps c e g b (get_q h b) l_step backtrack outs (mkl m h out wr) (seq 0 n_track) with
        | None => None
        | Some s =>
            let '(h, b', counter) :=
              update_input_bunch (l_heap s) counter b e g (l_cols s) (l_out s) in
            Some (mktr h counter e c b' (l_out s) (l_writes s) (Q2R (e_length e)))
        end
    end.
