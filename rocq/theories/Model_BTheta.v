(** Model of the azimuthal magnetic field of the plasma electrons:
    wake_t/physics_models/plasma_wakefields/qs_rz_baxevanis/b_theta.py. Arithmetic is exact
    (reals) up to [rnd], by which every stored number can be rounded; divisions by zero are
    not modelled. The working arrays K, U, T, P are kept in the order of increasing radius
    (entry k is K[idx[k]]) and put into the order of the particles at the end. *)
From Coq Require Import Reals ZArith List Bool Arith.
From Verif Require Import Model_Push Model_Interp Model_Psi.
Import ListNotations.
Open Scope R_scope.

(** b_theta.py:13-14, 86-87, 147-148: The arrays that are passed to the functions. *)
Record plasma := mkpl { e_r : list R; e_pr : list R; e_q : list R; e_gamma : list R;
  e_psi : list R; e_dr_psi : list R; e_dxi_psi : list R; e_b0 : list R; e_na2 : list R }.

(** b_theta.py:237-262: r_i, A_i, B_i, C_i *)
Record coef := mkc { c_r : R; c_A : R; c_B : R; c_C : R }.
(** b_theta.py:237-262 (and 414-439) *)
Definition coefficients (p : plasma) (i : nat) : coef :=
  let r_i := nth i (e_r p) 0 in let pr_i := nth i (e_pr p) 0 in let q_i := nth i (e_q p) 0 in
  let gamma_i := nth i (e_gamma p) 0 in let psi_i := nth i (e_psi p) 0 in
  let dr_psi_i := nth i (e_dr_psi p) 0 in let dxi_psi_i := nth i (e_dxi_psi p) 0 in
  let b_theta_0_i := nth i (e_b0 p) 0 in let nabla_a2_i := nth i (e_na2 p) 0 in
  let a := 1 + psi_i in let a2 := a * a in let a3 := a2 * a in
  let b := 1 / (r_i * a) in let c := 1 / (r_i * a2) in let pr_i2 := pr_i * pr_i in
  mkc r_i (q_i * b)
    (q_i * (- (gamma_i * dr_psi_i) * c + (pr_i2 * dr_psi_i) / (r_i * a3) + (pr_i * dxi_psi_i) * c
            + pr_i2 / (r_i * r_i * a2) + b_theta_0_i * b + nabla_a2_i * c * 0.5))
    (q_i * (pr_i2 * c - (gamma_i / a - 1) / r_i)).

(** ** From the axis *)
Section Axis.
  Variable rnd : R -> R.
  (** b_theta.py:206-229: K_i, U_i *)
  Definition hom_step (c : coef) (s : R * R) : R * R :=
    let l_i := 1 + 0.5 * c_A c * c_r c in
    let m_i := 0.5 * c_A c / c_r c in
    let n_i := -0.5 * c_A c * c_r c ^ 3 in
    let o_i := 1 - 0.5 * c_A c * c_r c in
    (rnd (l_i * fst s + m_i * snd s), rnd (n_i * fst s + o_i * snd s)).
  (** b_theta.py:206-229: K and U for all particles. *)
  Fixpoint homs (l : list coef) (s : R * R) : list (R * R) :=
    match l with [] => [] | c :: l' => hom_step c s :: homs l' (hom_step c s) end.
  (** b_theta.py:264-277: T_i, P_i *)
  Definition inh_step (c : coef) (s : R * R) : R * R :=
    let l_i := 1 + 0.5 * c_A c * c_r c in
    let m_i := 0.5 * c_A c / c_r c in
    let n_i := -0.5 * c_A c * c_r c ^ 3 in
    let o_i := 1 - 0.5 * c_A c * c_r c in
    (rnd (l_i * fst s + m_i * snd s + 0.5 * c_B c + 0.25 * c_A c * c_C c),
     rnd (n_i * fst s + o_i * snd s +
          c_r c * (c_C c - 0.5 * c_B c * c_r c - 0.25 * c_A c * c_C c * c_r c))).
  (** b_theta.py:236-277: T and P for all particles from i_start on. *)
  Fixpoint inhs (l : list coef) (s : R * R) : list (R * R) :=
    match l with [] => [] | c :: l' => inh_step c s :: inhs l' (inh_step c s) end.
  (** b_theta.py:293-300: the test of the precision. *)
  Definition precise (T_old P_old K_old U_old : R) : bool :=
    andb (if Rle_dec (0.5 * Rabs (T_old - K_old)) (Rabs (T_old + K_old)) then true else false)
         (if Rle_dec (0.5 * Rabs (P_old - U_old)) (Rabs (P_old + U_old)) then true else false).
  (** b_theta.py:286-308: the entries that are accepted; [first]: i_sort == i_start. *)
  Fixpoint accept (d : R) (first : bool) (tp ku : list (R * R)) : list (R * R) :=
    match tp, ku with
    | (T, P) :: tp', (K, U) :: ku' =>
        let K_old := rnd (K * d) in let U_old := rnd (U * d) in
        if orb first (orb (match tp' with [] => true | _ => false end) (precise T P K_old U_old))
        then (rnd (T + K_old), rnd (P + U_old)) :: accept d false tp' ku'
        else []
    | _, _ => []
    end.
  (** b_theta.py:233-316: the while loop. [prev]: (T_im1, P_im1); [rest], [ku]: the
      particles from i_start on and their K and U. [None]: more than [fuel] passes. *)
  Fixpoint passes (fuel : nat) (K_N a_0 : R) (prev : R * R) (rest : list coef) (ku : list (R * R))
      : option (list (R * R) * R) :=
    match rest with
    | [] => Some ([], a_0)
    | _ =>
        match fuel with
        | O => None
        | S f =>
            let tp := inhs rest prev in
            let a_0_diff := rnd (- fst (last tp prev) / K_N) in
            let done := accept a_0_diff true tp ku in
            match passes f K_N (rnd (a_0 + a_0_diff)) (last done prev)
                    (skipn (length done) rest) (skipn (length done) ku) with
            | None => None
            | Some (more, a) => Some (done ++ more, a)
            end
        end
    end.
  (** b_theta.py:146-318 [calculate_ai_bi_from_axis]: T, P, a_0, with at most [fuel] passes. *)
  Definition ai_bi_from_axis (fuel : nat) (p : plasma) (idx : list nat)
      : option (list R * list R * R) :=
    let cs := map (coefficients p) idx in
    let ku := homs cs (1, 0) in
    let zero := repeat 0 (length (e_r p)) in
    match passes fuel (fst (last ku (1, 0))) 0 (0, 0) cs ku with
    | None => None
    | Some (tp, a_0) => Some (put idx (map fst tp) zero, put idx (map snd tp) zero, a_0)
    end.

  (** b_theta.py:85-143 [calculate_b_theta]. At least one particle. *)
  Definition calculate_b_theta (fuel : nat) (r_fld : list R) (p : plasma) (idx : list nat)
      (b_theta : arr2) (k : Z) : option arr2 :=
    match ai_bi_from_axis fuel p idx with
    | None => None
    | Some (a, b, a_0) =>
        let v := on_grid (fun r_j => a_0 * r_j)
                   (fun i r_j => nth (nth i idx 0%nat) a 0 * r_j + nth (nth i idx 0%nat) b 0 / r_j)
                   (take idx (e_r p)) 0 r_fld in
        Some (set_row b_theta (k + 2) v)
    end.

  (** b_theta.py:52-76: loop over the sorted radii with their a_i and b_i. *)
  Fixpoint at_loop (dr_p : R) (prev : option (R * (R * R))) (rs : list R) (ab : list (R * R))
      : list R :=
    match rs, ab with
    | r_i :: rs', (a_i, b_i) :: ab' =>
        let r_left := match prev with Some (r_im1, _) => (r_im1 + r_i) / 2 | None => 0 end in
        let b_theta_left := match prev with
                            | Some (_, (a_im1, b_im1)) => a_im1 * r_left + b_im1 / r_left
                            | None => 0 end in
        let r_ip1 := match rs' with r_ip1 :: _ => r_ip1 | [] => r_i + dr_p / 2 end in
        let r_right := (r_i + r_ip1) / 2 in
        let b_theta_right := a_i * r_right + b_i / r_right in
        between r_left r_right b_theta_left b_theta_right r_i
        :: at_loop dr_p (Some (r_i, (a_i, b_i))) rs' ab'
    | _, _ => []
    end.
  (** b_theta.py:12-82 [calculate_b_theta_at_particles]: b_theta_pp, all entries of which are
      assigned. *)
  Definition b_theta_at_particles (fuel : nat) (p : plasma) (idx : list nat) (dr_p : R)
      : option (list R) :=
    match ai_bi_from_axis fuel p idx with
    | None => None
    | Some (a, b, _) =>
        let v := at_loop dr_p None (take idx (e_r p)) (combine (take idx a) (take idx b)) in
        Some (put idx (map clip3 v) (repeat 0 (length (e_r p))))
    end.
End Axis.

(** ** From the edge *)
(** b_theta.py:321-488 [calculate_ai_bi_from_edge]; not called by any code. The loops run
    over the particles from the outermost one inwards. *)
Section Edge.
  Variable rnd : R -> R.
  (** b_theta.py:386-406: the coefficients q_i/a with a = 1 + psi_i are A_i*r_i. Each entry
      is the value outside of the particle; the last pair is the value on axis. *)
  Definition edge_hom (x : R * coef) (s : R * R) : R * R :=
    let '(qa, c) := x in
    let l_i := 1 - 0.5 * qa in
    let m_i := -0.5 * qa / c_r c ^ 2 in
    let n_i := 0.5 * qa * c_r c ^ 2 in
    let o_i := 1 + 0.5 * qa in
    (rnd (l_i * fst s + m_i * snd s), rnd (n_i * fst s + o_i * snd s)).
  (** b_theta.py:441-454 *)
  Definition edge_inh (x : R * coef) (s : R * R) : R * R :=
    let '(qa, c) := x in
    let l_i := 1 - 0.5 * qa in
    let m_i := -0.5 * qa / c_r c ^ 2 in
    let n_i := 0.5 * qa * c_r c ^ 2 in
    let o_i := 1 + 0.5 * qa in
    (rnd (l_i * fst s + m_i * snd s - 0.5 * c_B c + 0.25 * c_A c * c_C c),
     rnd (n_i * fst s + o_i * snd s -
          c_r c * (c_C c - 0.5 * c_B c * c_r c + 0.25 * c_A c * c_C c * c_r c))).
  (** b_theta.py:386-406, 413-454: Values before each step, and the one after all. *)
  Fixpoint trace (f : R * coef -> R * R -> R * R) (l : list (R * coef)) (s : R * R)
      : list (R * R) * (R * R) :=
    match l with
    | [] => ([], s)
    | c :: l' => let '(t, e) := trace f l' (f c s) in (s :: t, e)
    end.
  (** b_theta.py:462-476 *)
  Fixpoint edge_accept (d : R) (first : bool) (tp ku : list (R * R)) : list (R * R) :=
    match tp, ku with
    | (T, P) :: tp', (K, U) :: ku' =>
        let K_old := rnd (K * d) in let U_old := rnd (U * d) in
        if orb first (precise T P K_old U_old)
        then (rnd (T + K_old), rnd (P + U_old)) :: edge_accept d false tp' ku'
        else []
    | _, _ => []
    end.
  (** b_theta.py:410-485: the while loop; the result includes (T_ip1, P_ip1). *)
  Fixpoint edge_passes (fuel : nat) (ku_0 prev : R * R) (rest : list (R * coef))
      (ku : list (R * R)) : option (list (R * R) * (R * R)) :=
    match rest with
    | [] => Some ([], prev)
    | _ =>
        match fuel with
        | O => None
        | S f =>
            let '(tp, e) := trace edge_inh rest prev in
            let b_N_diff := rnd (- snd e / snd ku_0) in
            let done := edge_accept b_N_diff true tp ku in
            let n := length done in
            let next :=
              match skipn n tp, skipn n ku with
              | (T, P) :: _, (K, U) :: _ => (rnd (T + K * b_N_diff), rnd (P + U * b_N_diff))
              | _, _ => (rnd (fst e + fst ku_0 * b_N_diff), rnd (snd e + snd ku_0 * b_N_diff))
              end in
            match edge_passes f ku_0 next (skipn n rest) (skipn n ku) with
            | None => None
            | Some (more, s) => Some (done ++ more, s)
            end
        end
    end.
  (** b_theta.py:321-488 [calculate_ai_bi_from_edge]: T, P, a_0. *)
  Definition ai_bi_from_edge (fuel : nat) (p : plasma) (idx : list nat)
      : option (list R * list R * R) :=
    let back := rev idx in
    let cs := map (fun i => (nth i (e_q p) 0 / (1 + nth i (e_psi p) 0), coefficients p i)) back in
    let '(ku, ku_0) := trace edge_hom cs (0, 1) in
    let zero := repeat 0 (length (e_r p)) in
    match edge_passes fuel ku_0 (0, 0) cs ku with
    | None => None
    | Some (tp, s) => Some (put back (map fst tp) zero, put back (map snd tp) zero, fst s)
    end.
End Edge.
