(** Model of the laser: tridiagonal solver (wake_t/physics_models/laser/tdma.py), phase
    unwrapping (utils.py), the two envelope solvers (envelope_solver.py,
    envelope_solver_non_centered.py) and the pulse classes (laser_pulse.py).
    Arithmetic is exact (real and complex numbers). *)
From Coq Require Import Reals ZArith String List.
From Coquelicot Require Import Complex.
From Verif Require Import Model_Push.
Import ListNotations.
Open Scope R_scope.

(** ** Arrays *)
(** tdma.py:13-50: one-dimensional complex arrays (arguments a, b, c, d) as functions of the
    index; sizes are kept apart *)
Definition carr := nat -> C.
(** envelope_solver.py:18-20: two-dimensional arrays (a, a_old) *)
Definition carr2 := nat -> nat -> C.
(** envelope_solver.py:131-132, 144-146: assignment to one row [a[i] = r] *)
Definition set_row (a : carr2) (i : nat) (r : carr) : carr2 :=
  fun j => if Nat.eqb j i then r else a j.
(** tdma.py:45 [x[-k]] in an array of [len] entries; [None]: out of bounds (unchecked in the
    compiled code) *)
Definition neg_index (len k : nat) : option nat :=
  if Nat.leb k len then Some (len - k)%nat else None.

(** ** tdma.py:13-50 [TDMA]: [n = len(d)], [a], [c] and [w] have n - 1 entries. *)
Section TDMA.
Open Scope C_scope.
(** tdma.py:36-43: (w[i], g[i]) *)
Fixpoint tdma_fwd (a b c d : carr) (i : nat) : C * C :=
  match i with
  | O => (c O / b O, d O / b O)
  | S i' =>
      let '(w, g) := tdma_fwd a b c d i' in
      let inv_coef := RtoC 1 / (b i - a i' * w) in
      (c i * inv_coef, (d i - a i' * g) * inv_coef)
  end.
(** tdma.py:48-50: p[n - 1 - m] for m = 0, 1, ... *)
Fixpoint tdma_back (n : nat) (w g : carr) (last : C) (m : nat) : C :=
  match m with
  | O => last
  | S m' => g (n - 1 - m)%nat - w (n - 1 - m)%nat * tdma_back n w g last m'
  end.
(** tdma.py:13-50 [TDMA]; the last forward step (line 45) reads a[-2] and w[-2] *)
Definition TDMA (n : nat) (a b c d : carr) : option carr :=
  let w := fun i => fst (tdma_fwd a b c d i) in
  let g := fun i => snd (tdma_fwd a b c d i) in
  match neg_index (n - 1) 2 with
  | None => None
  | Some m =>
      let last := (d (n - 1)%nat - a m * g (n - 2)%nat) / (b (n - 1)%nat - a m * w m) in
      Some (fun i => tdma_back n w g last (n - 1 - i))
  end.
End TDMA.

(** ** utils.py:6-59 [unwrap], one row, default [discont] *)
(** utils.py:35 [np.mod] with positive divisor *)
Definition np_mod (x period : R) : R := x - period * IZR (Int_part (x / period)).
(** utils.py:34 [np.diff] *)
Fixpoint diff (l : list R) : list R :=
  match l with
  | x :: ((y :: _) as l') => (y - x) :: diff l'
  | _ => []
  end.
(** utils.py:35-54: correction of one difference *)
Definition ph_correct (period dd : R) : R :=
  let interval_high := period / 2 in
  let interval_low := - interval_high in
  let ddmod0 := np_mod (dd - interval_low) period + interval_low in
  let ddmod := if Req_EM_T ddmod0 interval_low then
                 if Rlt_dec 0 dd then interval_high else ddmod0
               else ddmod0 in
  if Rlt_dec (Rabs dd) (period / 2) then 0 else ddmod - dd.
(** utils.py:56: cumulative sum of the corrections *)
Fixpoint cumsum_from (s : R) (l : list R) : list R :=
  match l with [] => [] | x :: l' => (s + x) :: cumsum_from (s + x) l' end.
(** utils.py:6-59 [unwrap], one row, default [discont] *)
Definition unwrap (period : R) (row : list R) : list R :=
  match row with
  | [] => []
  | x :: row' => x :: map2 Rplus row' (cumsum_from 0 (map (ph_correct period) (diff row)))
  end.

(** envelope_solver.py:94-95, laser_pulse.py:491 [np.angle] (zeros are unsigned) *)
Definition angle (z : C) : R :=
  let x := fst z in
  let y := snd z in
  if Rlt_dec 0 x then atan (y / x)
  else if Rlt_dec x 0 then if Rle_dec 0 y then atan (y / x) + PI else atan (y / x) - PI
  else if Rlt_dec 0 y then PI / 2 else if Rlt_dec y 0 then - (PI / 2) else 0.
(** envelope_solver.py:109-123, laser_pulse.py:411 [np.exp] of a complex number *)
Definition cexp (z : C) : C := (exp (fst z) * cos (snd z), exp (fst z) * sin (snd z)).

(** ** The envelope solvers *)
(** envelope_solver.py:18-20: arguments k0, kp, zmin, zmax, nz, rmax, nr, dt, use_phase *)
Record eargs := mkea { e_k0 : R; e_kp : R; e_zmin : R; e_zmax : R; e_nz : nat; e_rmax : R;
                       e_nr : nat; e_dt : R; e_use_phase : bool }.
(** envelope_solver.py:60: (the same lines in envelope_solver_non_centered.py). *)
Definition e_dz (e : eargs) : R := (e_zmax e - e_zmin e) * e_kp e / (INR (e_nz e) - 1).
(** envelope_solver.py:61 *)
Definition e_dr (e : eargs) : R := e_rmax e * e_kp e / INR (e_nr e).
(** envelope_solver.py:62 *)
Definition e_dtn (e : eargs) : R := e_dt e * c_SI * e_kp e.
(** envelope_solver.py:65 *)
Definition inv_dt (e : eargs) : R := 1 / e_dtn e.
(** envelope_solver.py:66 *)
Definition inv_dr (e : eargs) : R := 1 / e_dr e.
(** envelope_solver.py:67 *)
Definition inv_dz (e : eargs) : R := 1 / e_dz e.
(** envelope_solver.py:68 *)
Definition inv_dzdt (e : eargs) : R := inv_dt e * inv_dz e.
(** envelope_solver.py:69 *)
Definition k0_over_kp (e : eargs) : R := e_k0 e / e_kp e.
(** envelope_solver.py:83 *)
Definition L_base (k : nat) : R := 1 / (2 * (INR k + 0.5)).
(** envelope_solver.py:84 *)
Definition L_minus_over_2 (e : eargs) (k : nat) : R := (1 - L_base k) * inv_dr e ^ 2 * 0.5.
(** envelope_solver.py:85 *)
Definition L_plus_over_2 (e : eargs) (k : nat) : R := (1 + L_base k) * inv_dr e ^ 2 * 0.5.

(** envelope_solver.py:94-95: phase of [a] on axis, unwrapped *)
Definition phases (e : eargs) (a : carr2) : list R :=
  unwrap 6.283185307179586 (map (fun j => angle (a j O)) (seq 0 (e_nz e + 2))).
(** envelope_solver.py:72, 101-102 *)
Definition d_theta1 (e : eargs) (ph : list R) (j : nat) : R :=
  if e_use_phase e then nth (j + 1) ph 0 - nth j ph 0 else 0.
(** envelope_solver.py:73, 103 *)
Definition d_theta2 (e : eargs) (ph : list R) (j : nat) : R :=
  if e_use_phase e then nth (j + 2) ph 0 - nth (j + 1) ph 0 else 0.
(** envelope_solver.py:106 *)
Definition D_jkn (e : eargs) (ph : list R) (j : nat) : R :=
  (1.5 * d_theta1 e ph j - 0.5 * d_theta2 e ph j) * inv_dz e.

Section SOLVERS.
Open Scope C_scope.
(** envelope_solver.py:76-77 *)
Definition C_minus (e : eargs) : C :=
  RtoC (-2 * inv_dr e ^ 2 * 0.5) - Ci * RtoC (k0_over_kp e) * RtoC (inv_dt e)
  + RtoC (1.5 * inv_dzdt e) - RtoC (inv_dt e ^ 2).
(** envelope_solver.py:78-79 *)
Definition C_plus (e : eargs) : C :=
  RtoC (-2 * inv_dr e ^ 2 * 0.5) + Ci * RtoC (k0_over_kp e) * RtoC (inv_dt e)
  - RtoC (1.5 * inv_dzdt e) - RtoC (inv_dt e ^ 2).
(** envelope_solver.py:109-123: right-hand side at slice j; [r] stands for [a_old] in the
    terms at the old time, [n1] and [n2] for the new values at j+1 and j+2. *)
Definition rhs_centered (e : eargs) (chi : nat -> nat -> R) (ph : list R) (a a_old : carr2)
    (n1 n2 : carr) (j k : nat) : C :=
  - RtoC (2 * inv_dt e ^ 2) * a j k
  - (C_minus e - RtoC (chi j k * 0.5) - Ci * RtoC (inv_dt e * D_jkn e ph j)) * a_old j k
  - RtoC 2 * cexp (- Ci * RtoC (d_theta1 e ph j)) * RtoC (inv_dzdt e)
      * (n1 k - a_old (j + 1)%nat k)
  + RtoC 0.5 * cexp (- Ci * RtoC (d_theta2 e ph j + d_theta1 e ph j)) * RtoC (inv_dzdt e)
      * (n2 k - a_old (j + 2)%nat k)
  - (if Nat.ltb 0 k then RtoC (L_minus_over_2 e k) * a_old j (k - 1)%nat else RtoC 0)
  - (if Nat.ltb (k + 1) (e_nr e) then RtoC (L_plus_over_2 e k) * a_old j (k + 1)%nat else RtoC 0).
(** envelope_solver.py:126 *)
Definition main_centered (e : eargs) (chi : nat -> nat -> R) (ph : list R) (j k : nat) : C :=
  C_plus e - RtoC (chi j k * 0.5) + Ci * RtoC (inv_dt e * D_jkn e ph j).

(** envelope_solver_non_centered.py:76-77 *)
Definition C_minus_nc (e : eargs) : C :=
  RtoC (-2 * inv_dr e ^ 2 * 0.5) - RtoC 2 * Ci * RtoC (k0_over_kp e) * RtoC (inv_dt e)
  + RtoC (3 * inv_dzdt e).
(** envelope_solver_non_centered.py:78-79 *)
Definition C_plus_nc (e : eargs) : C :=
  RtoC (-2 * inv_dr e ^ 2 * 0.5) + RtoC 2 * Ci * RtoC (k0_over_kp e) * RtoC (inv_dt e)
  - RtoC (3 * inv_dzdt e).
(** envelope_solver_non_centered.py:109-122 *)
Definition rhs_non_centered (e : eargs) (chi : nat -> nat -> R) (ph : list R) (a a_old : carr2)
    (n1 n2 : carr) (j k : nat) : C :=
  - (C_minus_nc e - RtoC (chi j k * 0.5) - RtoC 2 * Ci * RtoC (inv_dt e * D_jkn e ph j)) * a j k
  - RtoC 4 * cexp (- Ci * RtoC (d_theta1 e ph j)) * RtoC (inv_dzdt e)
      * (n1 k - a (j + 1)%nat k)
  + RtoC 1 * cexp (- Ci * RtoC (d_theta2 e ph j + d_theta1 e ph j)) * RtoC (inv_dzdt e)
      * (n2 k - a (j + 2)%nat k)
  - (if Nat.ltb 0 k then RtoC (L_minus_over_2 e k) * a j (k - 1)%nat else RtoC 0)
  - (if Nat.ltb (k + 1) (e_nr e) then RtoC (L_plus_over_2 e k) * a j (k + 1)%nat else RtoC 0).
(** envelope_solver_non_centered.py:125 *)
Definition main_non_centered (e : eargs) (chi : nat -> nat -> R) (ph : list R) (j k : nat) : C :=
  C_plus_nc e - RtoC (chi j k * 0.5) + RtoC 2 * Ci * RtoC (inv_dt e * D_jkn e ph j).
End SOLVERS.

(** envelope_solver.py:90-91: a, a_old, a_new_jp1, a_new_jp2 during the loop over z *)
Record zst := mkz { z_a : carr2; z_old : carr2; z_jp1 : carr; z_jp2 : carr }.
(** envelope_solver.py:98-140, envelope_solver_non_centered.py:98-139: body of the loop over z;
    [centered] selects the solver *)
Definition z_step (centered : bool) (e : eargs) (chi : nat -> nat -> R) (ph : list R)
    (s : zst) (j : nat) : option zst :=
  let rhs := (if centered then rhs_centered else rhs_non_centered)
               e chi ph (z_a s) (z_old s) (z_jp1 s) (z_jp2 s) j in
  let d_main := (if centered then main_centered else main_non_centered) e chi ph j in
  let d_upper := fun i => RtoC (L_plus_over_2 e i) in
  let d_lower := fun i => RtoC (L_minus_over_2 e (i + 1)) in
  let a_old' := set_row (z_old s) (j + 2) (z_a s (j + 2)%nat) in
  let a' := set_row (z_a s) (j + 2) (z_jp2 s) in
  match TDMA (e_nr e) d_lower d_main d_upper rhs with
  | Some p => Some (mkz a' a_old' p (z_jp1 s))
  | None => None
  end.
(** envelope_solver.py:98: a loop whose body can fail *)
Fixpoint ofold {A B} (f : B -> A -> option B) (l : list A) (b : B) : option B :=
  match l with
  | [] => Some b
  | x :: l' => match f b x with Some b' => ofold f l' b' | None => None end
  end.
(** envelope_solver.py:88-146: one time iteration on (a, a_old) *)
Definition t_step (centered : bool) (e : eargs) (chi : nat -> nat -> R)
    (s : carr2 * carr2) : option (carr2 * carr2) :=
  let '(a, a_old) := s in
  let ph := phases e a in
  match ofold (z_step centered e chi ph) (rev (seq 0 (e_nz e)))
          (mkz a a_old (fun _ => RtoC 0) (fun _ => RtoC 0)) with
  | None => None
  | Some z =>
      let a_old' := set_row (set_row (z_old z) 0 (z_a z 0%nat)) 1 (z_a z 1%nat) in
      Some (set_row (set_row (z_a z) 0 (z_jp1 z)) 1 (z_jp2 z), a_old')
  end.
(** envelope_solver.py:18-146, envelope_solver_non_centered.py:18-145 [evolve_envelope] and
    [evolve_envelope_non_centered]: [nt] iterations *)
Fixpoint evolve_envelope (centered : bool) (e : eargs) (chi : nat -> nat -> R) (nt : nat)
    (s : carr2 * carr2) : option (carr2 * carr2) :=
  match nt with
  | O => Some s
  | S nt' => match t_step centered e chi s with
             | Some s' => evolve_envelope centered e chi nt' s'
             | None => None
             end
  end.

(** ** laser_pulse.py: life cycle *)
(** laser_pulse.py:163-164: a complex array with its size *)
Record sarr := mksa { s_rows : nat; s_cols : nat; s_val : carr2 }.
(** laser_pulse.py:117-126: dictionary [solver_params] *)
Record sparams := mksp { sp_zmin : R; sp_zmax : R; sp_rmax : R; sp_nz : nat; sp_nr : nat;
                         sp_nt : nat; sp_dt : R; sp_use_phase : bool }.
(** laser_pulse.py:59-71: arguments of [set_envelope_solver_params] *)
Record setargs := mkset { a_xi_min : R; a_xi_max : R; a_r_max : R; a_nz : nat; a_nr : nat;
                          a_dt : R; a_nt : nat; a_subgrid_nz : option nat;
                          a_subgrid_nr : option nat; a_use_phase : bool }.
(** laser_pulse.py:49-53: Attributes of a pulse: [p_main] is the size of the main grid when
    a subgrid is used (entries of [subgrid_params]); [p_env] holds (_a_env, _a_env_old).
    [use_subgrid] and [_a_env] do not exist before they are first set ([None]). *)
Record pulse := mkpl { p_l0 : R; p_pol : string; p_a_env : option sarr;
                       p_params : option sparams; p_n_steps : nat; p_sub : option bool;
                       p_main : nat * nat; p_env : option (sarr * sarr) }.
(** laser_pulse.py:44-53 [__init__] *)
Definition new_pulse (l0 : R) (pol : string) : pulse := mkpl l0 pol None None 0 None (0, 0)%nat None.

(** laser_pulse.py:106, 137, 150: how a call ends *)
Inductive outcome := Fine | ValueErr | AttributeErr | MemoryErr.
(** laser_pulse.py:131-135 [!=] on floats *)
Definition neq (x y : R) : bool := if Req_EM_T x y then false else true.

(** laser_pulse.py:110-126: use_subgrid and the new dictionary *)
Definition params_of (s : setargs) : bool * sparams :=
  let sub := match a_subgrid_nz s, a_subgrid_nr s with None, None => false | _, _ => true end in
  let snz := match a_subgrid_nz s with Some n => n | None => a_nz s end in
  let snr := match a_subgrid_nr s with Some n => n | None => a_nr s end in
  (sub, mksp (a_xi_min s) (a_xi_max s) (a_r_max s) (if sub then snz else a_nz s)
          (if sub then snr else a_nr s) (a_nt s) (a_dt s / INR (a_nt s)) (a_use_phase s)).
(** laser_pulse.py:59-145 [set_envelope_solver_params] *)
Definition set_envelope_solver_params (p : pulse) (s : setargs) : outcome * pulse :=
  if Nat.ltb (a_nt s) 1 then (ValueErr, p)
  else
    let '(sub, sp) := params_of s in
    let main := if sub then (a_nz s, a_nr s) else p_main p in
    let upd params n := mkpl (p_l0 p) (p_pol p) (p_a_env p) params n (Some sub) main (p_env p) in
    match p_params p, p_n_steps p with
    | Some old, S _ =>
        if andb (neq (sp_zmin sp) (sp_zmin old)) (andb (neq (sp_zmax sp) (sp_zmax old))
          (andb (neq (sp_rmax sp) (sp_rmax old)) (andb (negb (Nat.eqb (sp_nz sp) (sp_nz old)))
            (negb (Nat.eqb (sp_nr sp) (sp_nr old))))))
        then (ValueErr, upd (Some old) (p_n_steps p))
        else if neq (sp_dt sp) (sp_dt old) then (Fine, upd (Some sp) 0%nat)
        else (Fine, upd (Some sp) (p_n_steps p))
    | _, _ => (Fine, upd (Some sp) (p_n_steps p))
    end.

Section LIFE.
(** The envelope function of the class, on (xi, r) at z_pos = 0, and the interpolation of
    the envelope from the subgrid to the main grid and of chi the other way round
    (lines 241-318, by [interpolate_rz_field], see Model_Interp); sizes as in the code. *)
Variable envelope_function : R -> R -> C.
Variable to_main : sparams -> nat * nat -> carr2 -> carr2.
Variable to_sub : sparams -> nat * nat -> (nat -> nat -> R) -> (nat -> nat -> R).

(** laser_pulse.py:283-305 [_update_output_envelope] *)
Definition output (sub : bool) (sp : sparams) (main : nat * nat) (env : sarr) : sarr :=
  if sub then mksa (fst main) (snd main) (to_main sp main (s_val env))
  else mksa (s_rows env - 2) (s_cols env) (s_val env).

(** laser_pulse.py:160 *)
Definition node_xi (sp : sparams) (i : nat) : R :=
  sp_zmin sp + INR i * ((sp_zmax sp - sp_zmin sp) / (INR (sp_nz sp) - 1)).
(** laser_pulse.py:159-161 *)
Definition node_rad (sp : sparams) (k : nat) : R :=
  let dr := sp_rmax sp / INR (sp_nr sp) in
  dr / 2 + INR k * ((sp_rmax sp - dr / 2 - dr / 2) / (INR (sp_nr sp) - 1)).
(** laser_pulse.py:147-166 [initialize_envelope] *)
Definition initialize_envelope (p : pulse) : outcome * pulse :=
  match p_params p, p_sub p with
  | Some sp, Some sub =>
      match p_a_env p with
      | Some _ => (Fine, p)
      | None =>
          let old := mksa (sp_nz sp + 2) (sp_nr sp) (fun _ _ => RtoC 0) in
          let env := mksa (sp_nz sp + 2) (sp_nr sp)
                       (fun i k => if Nat.ltb i (sp_nz sp)
                                   then envelope_function (node_xi sp i) (node_rad sp k)
                                   else RtoC 0) in
          (Fine, mkpl (p_l0 p) (p_pol p) (Some (output sub sp (p_main p) env)) (Some sp)
                   (p_n_steps p) (Some sub) (p_main p) (Some (env, old)))
      end
  | _, _ => (ValueErr, p)
  end.

(** laser_pulse.py:187 *)
Definition wave_number (l0 : R) : R := 2 * PI / l0.
(** laser_pulse.py:188 *)
Definition plasma_wave_number (n_p e_ch m_e eps_0 : R) : R :=
  sqrt (e_ch ^ 2 * n_p / (m_e * eps_0)) / c_SI.
(** laser_pulse.py:197-202: the keyword arguments taken from [solver_params] *)
Definition eargs_of (sp : sparams) (k0 kp : R) : eargs :=
  mkea k0 kp (sp_zmin sp) (sp_zmax sp) (sp_nz sp) (sp_rmax sp) (sp_nr sp) (sp_dt sp)
       (sp_use_phase sp).
Variables e_ch m_e eps_0 : R.
(** laser_pulse.py:172-206 [evolve]; the solver gets the arrays and the parameters; if the
    parameters do not fit the arrays, or the size of the output has changed since it was
    created, memory outside of the arrays is accessed (then the state is not modelled) *)
Definition evolve (p : pulse) (chi : nat -> nat -> R) (n_p : R) : outcome * pulse :=
  match p_params p, p_sub p, p_env p with
  | Some sp, Some sub, Some (env, old) =>
      let k0 := wave_number (p_l0 p) in
      let kp := plasma_wave_number n_p e_ch m_e eps_0 in
      let chi' := if sub then to_sub sp (p_main p) chi else chi in
      let centered := negb (Nat.eqb (p_n_steps p) 0) in
      let fits := match p_a_env p with
                  | None => true
                  | Some o => andb (Nat.eqb (s_rows o) (if sub then fst (p_main p) else s_rows env - 2))
                                   (Nat.eqb (s_cols o) (if sub then snd (p_main p) else s_cols env))
                  end in
      if andb (andb (Nat.eqb (sp_nz sp + 2) (s_rows env)) (Nat.eqb (sp_nr sp) (s_cols env))) fits then
        match evolve_envelope centered (eargs_of sp k0 kp) chi' (sp_nt sp)
                (s_val env, s_val old) with
        | Some (a, a_old) =>
            let env' := mksa (s_rows env) (s_cols env) a in
            (Fine, mkpl (p_l0 p) (p_pol p) (Some (output sub sp (p_main p) env'))
                     (Some sp) (S (p_n_steps p)) (Some sub) (p_main p)
                     (Some (env', mksa (s_rows old) (s_cols old) a_old)))
        | None => (MemoryErr, p)
        end
      else (MemoryErr, p)
  | _, _, _ => (AttributeErr, p)
  end.
End LIFE.

(** laser_pulse.py:208-227 [get_group_velocity] *)
Definition get_group_velocity (e_ch m_e eps_0 l0 n_p : R) : R :=
  let w_p := sqrt (n_p * e_ch ^ 2 / (m_e * eps_0)) in
  let k := 2 * PI / l0 in
  k * c_SI ^ 2 / sqrt (w_p ^ 2 + k ^ 2 * c_SI ^ 2) / c_SI.

(** ** Pulse classes *)
(** laser_pulse.py:49-50, 229-236: a pulse as a user sees it: wavelength, polarisation,
    envelope(xi, r, z_pos) *)
Record profile := mkpf { f_l0 : R; f_pol : string; f_env : R -> R -> R -> C }.
(** laser_pulse.py:55-57, 332-349 [pulse_1 + pulse_2], [SummedPulse]; [None]: ValueError *)
Definition add_pulses (p1 p2 : profile) : option profile :=
  if Req_EM_T (f_l0 p1) (f_l0 p2) then
    Some (mkpf (f_l0 p1) "linear"
            (fun xi r z => Cplus (f_env p1 xi r z) (f_env p2 xi r z)))
  else None.

Section PROFILES.
(** laser_pulse.py:405, 489 *)
Definition s_z (tau : R) : R := tau * c_SI / (2 * sqrt (2 * ln 2)) * sqrt 2.
(** laser_pulse.py:396, 476 *)
Definition z_rayleigh (w_0 l_0 : R) : R := PI * w_0 ^ 2 / l_0.
(** laser_pulse.py:399-414 [GaussianPulse._envelope_function] *)
Definition gaussian_env (xi_c a_0 w_0 tau z_foc l_0 cep_phase : R) (xi r z_pos : R) : C :=
  let z := xi - xi_c + z_pos in
  let diff_factor := Cplus (RtoC 1) (Cmult Ci (RtoC ((z - z_foc) / z_rayleigh w_0 l_0))) in
  let exp_cep := Copp (Cmult Ci (RtoC cep_phase)) in
  let exp_r := Cdiv (RtoC (- r ^ 2)) (Cmult (RtoC (w_0 ^ 2)) diff_factor) in
  let exp_z := RtoC (- (xi - xi_c) ^ 2 / (2 * s_z tau ^ 2)) in
  Cmult (Cdiv (RtoC a_0) diff_factor) (cexp (Cplus (Cplus exp_cep exp_r) exp_z)).
(** laser_pulse.py:379-397 [GaussianPulse.__init__] *)
Definition GaussianPulse (xi_c a_0 w_0 tau z_foc l_0 cep_phase : R) (pol : string) : profile :=
  mkpf l_0 pol (gaussian_env xi_c a_0 w_0 tau z_foc l_0 cep_phase).
(** laser_pulse.py:475: scipy's [genlaguerre(p, 0)] *)
Definition laguerre (p : nat) (x : R) : R :=
  sum_f_R0 (fun k => Binomial.C p k * (- x) ^ k / INR (fact k)) p.
(** laser_pulse.py:484-504 [LaguerreGaussPulse._envelope_function]; [z_foc = None] not modelled *)
Definition laguerre_env (xi_c : R) (p : nat) (a_0 w_0 tau z_foc l_0 cep_phase : R)
    (xi r z_pos : R) : C :=
  let z := xi - xi_c + z_pos in
  let diff_factor := Cplus (RtoC 1) (Cmult Ci (RtoC ((z - z_foc) / z_rayleigh w_0 l_0))) in
  let w := w_0 * Cmod diff_factor in
  let psi := angle diff_factor in
  let scaled_radius_squared := 2 * r ^ 2 / w ^ 2 in
  let exp_argument :=
    Cminus (Cplus (Cplus (Copp (Cmult Ci (RtoC cep_phase)))
                   (Cdiv (RtoC (- r ^ 2)) (Cmult (RtoC (w_0 ^ 2)) diff_factor)))
              (RtoC (- (xi - xi_c) ^ 2 / (2 * s_z tau ^ 2))))
           (Cmult Ci (RtoC (2 * INR p * psi))) in
  Cmult (RtoC a_0)
    (Cmult (Cdiv (cexp exp_argument) diff_factor) (RtoC (laguerre p scaled_radius_squared))).
(** laser_pulse.py:454-482 [LaguerreGaussPulse.__init__] *)
Definition LaguerreGaussPulse (xi_c : R) (p : nat) (a_0 w_0 tau z_foc l_0 cep_phase : R)
    (pol : string) : profile :=
  mkpf l_0 pol (laguerre_env xi_c p a_0 w_0 tau z_foc l_0 cep_phase).
(** laser_pulse.py:574-575: weight of the mode n *)
Definition flattened_coef (N n : nat) : R :=
  (-1) ^ n * sum_f_R0 (fun i => 0.5 ^ (n + i) * Binomial.C (n + i) n) (N - n) / (INR N + 1).
(** laser_pulse.py:568, 573-578: the mode n; integer N *)
Definition flattened_mode (xi_c a_0 w_0 tau : R) (N : nat) (z_foc l_0 cep_phase : R)
    (pol : string) (n : nat) : profile :=
  LaguerreGaussPulse xi_c n (flattened_coef N n * a_0) (w_0 * sqrt (INR N + 1)) tau z_foc l_0
    (cep_phase + 2 * INR n * PI / 2) pol.
(** laser_pulse.py:572, 579-582: sum of the modes *)
Fixpoint flattened_sum (mode : nat -> profile) (n : nat) : option profile :=
  match n with
  | O => Some (mode O)
  | S n' => match flattened_sum mode n' with
            | Some p => add_pulses p (mode n)
            | None => None
            end
  end.
(** laser_pulse.py:547-589 [FlattenedGaussianPulse] with integer N *)
Definition FlattenedGaussianPulse (xi_c a_0 w_0 tau : R) (N : nat) (z_foc l_0 cep_phase : R)
    (pol : string) : option profile :=
  match flattened_sum (flattened_mode xi_c a_0 w_0 tau N z_foc l_0 cep_phase pol) N with
  | Some p => Some (mkpf l_0 pol (f_env p))
  | None => None
  end.
End PROFILES.
