(** Model of wake_t/utilities/bunch_generation.py, bunch_saving.py and of
    wake_t/diagnostics/bunch_analysis.py. Arithmetic is exact (reals); divisions by zero and
    square roots of negative numbers are not modelled, except that of np.average. Random
    numbers come from a generator with a state; what the functions of aptools do is a
    parameter. *)
From Coq Require Import Reals ZArith String List Bool.
Import ListNotations.
Open Scope R_scope.

(** bunch_generation.py:96-107, 302, 308, 319: the exceptions. *)
Inductive exn := ValueError | ZeroDivisionError.
(** bunch_generation.py:96-107, 302, 308, 319: result of a call. *)
Inductive outcome (A : Type) := Done (v : A) | Raised (e : exn).
Arguments Done {A}. Arguments Raised {A}.

(** bunch_generation.py:113-114, 322-336: The arguments given to the constructor
    [ParticleBunch] and its attribute [prop_distance]; a name that is None is replaced by an
    automatic one (particle_bunch.py:131-136). *)
Record made := mkb { b_w : list R; b_x : list R; b_y : list R; b_xi : list R; b_px : list R;
  b_py : list R; b_pz : list R; b_name : option string; b_q : R; b_m : R; b_prop : R }.

(** ** bunch_generation.py *)
(** bunch_generation.py:78 [int(x)]: towards zero. *)
Definition int_of (x : R) : Z := if Rle_dec 0 x then Int_part x else (- Int_part (- x))%Z.
(** bunch_generation.py:102-110: arithmetic on two arrays. *)
Fixpoint zip_with (f : R -> R -> R) (a b : list R) : list R :=
  match a, b with x :: a', y :: b' => f x y :: zip_with f a' b' | _, _ => [] end.

(** bunch_generation.py:15-35: Parameters en_x, en_y, ene, ene_sp, s_t, xi_c, q_tot, n_part,
    x_off, y_off, theta_x, theta_y, name, q_species, m_species, common to all generators. *)
Record params := mkp { g_enx : R; g_eny : R; g_ene : R; g_enesp : R; g_st : R; g_xic : R; g_qtot : R;
  g_npart : R; g_xoff : R; g_yoff : R; g_thx : R; g_thy : R; g_name : option string; g_q : R; g_m : R }.

Section Generators.
  (** State of np.random; standard normal numbers and standard normal numbers truncated at
      -3 and 3. Assumption on scipy: truncnorm.rvs(-3, 3, loc, scale, n) is loc + scale * (n
      of the latter) for scale >= 0 and raises ValueError else; np.random.normal(loc, scale,
      n) is loc + scale * (n of the former), and raises ValueError for scale < 0. *)
  Variable rng : Type.
  Variables (standard_normal truncated : nat -> rng -> list R * rng).
  (** ct.c *)
  Variable light : R.

  (** bunch_generation.py:84-89: s_xp, s_yp. *)
  Definition sigma_prime (em a b : R) : R := sqrt (em * ((1 + a ^ 2) / b)).
  (** bunch_generation.py:86-91: p_x, p_y. *)
  Definition correlation (em a b : R) : R := - a * em / (sqrt (em * b) * sigma_prime em a b).
  (** bunch_generation.py:86-87, 101, 103: x, y. *)
  Definition positions (em b off : R) (u : list R) : list R := map (fun u => sqrt (em * b) * u + off) u.
  (** bunch_generation.py:102, 104: xp, yp. *)
  Definition slopes (em a b : R) (u v : list R) : list R :=
    let p := correlation em a b in
    zip_with (fun u v => sigma_prime em a b * (p * u + sqrt (1 - p ^ 2) * v)) u v.
  (** bunch_generation.py:15-114 [get_gaussian_bunch_from_twiss]; standard_normal raises
      ValueError for a negative number. *)
  Definition get_gaussian_bunch_from_twiss (P : params) (a_x a_y b_x b_y : R) (s : rng)
      : outcome (made * rng) :=
    if Z.ltb (int_of (g_npart P)) 0 then Raised ValueError
    else
      let n := Z.to_nat (int_of (g_npart P)) in
      let ene := g_ene P in
      let ene_sp_abs := g_enesp P / 100 * ene in
      let s_z := g_st P * 1e-15 * light in
      let em_x := g_enx P / ene in
      let em_y := g_eny P / ene in
      let (u_x, s) := standard_normal n s in
      let (v_x, s) := standard_normal n s in
      let (u_y, s) := standard_normal n s in
      let (v_y, s) := standard_normal n s in
      if Rlt_dec s_z 0 then Raised ValueError
      else
        let (t, s) := truncated n s in
        if Rlt_dec ene_sp_abs 0 then Raised ValueError
        else
          let (z, s) := standard_normal n s in
          let pz := map (fun z => ene + ene_sp_abs * z) z in
          let momentum theta xp := zip_with (fun xp pz => xp * pz + theta * ene) xp pz in
          Done (mkb (repeat (Rabs (g_qtot P / 1e12 / (INR n * g_q P))) n)
            (positions em_x b_x (g_xoff P) u_x) (positions em_y b_y (g_yoff P) u_y)
            (map (fun t => g_xic P + s_z * t) t)
            (momentum (g_thx P) (slopes em_x a_x b_x u_x v_x))
            (momentum (g_thy P) (slopes em_y a_y b_y u_y v_y)) pz
            (g_name P) (g_q P) (g_m P) 0, s).
  (** bunch_generation.py:117-180 [get_gaussian_bunch_from_size] *)
  Definition get_gaussian_bunch_from_size (P : params) (s_x s_y : R) (s : rng) : outcome (made * rng) :=
    get_gaussian_bunch_from_twiss P 0 0 (s_x ^ 2 * g_ene P / g_enx P) (s_y ^ 2 * g_ene P / g_eny P) s.
  (** ge.matched_plasma_beta_function (ene, n_p, k_x), density in 1/cm^3 *)
  Variable matched_beta : R -> option R -> option R -> outcome R.
  (** bunch_generation.py:183-249 [get_matched_bunch] *)
  Definition get_matched_bunch (P : params) (n_p k_x : option R) (s : rng) : outcome (made * rng) :=
    match matched_beta (g_ene P) (option_map (fun n => n * 1e-6) n_p) k_x with
    | Raised e => Raised e
    | Done b_m => get_gaussian_bunch_from_twiss P 0 0 b_m b_m s
    end.
End Generators.

(** ** Files *)
(** bunch_generation.py:317-331, bunch_saving.py:42-52: aptools ParticleDistribution *)
Record distribution := mkdist { d_x : list R; d_y : list R; d_z : list R; d_px : list R; d_py : list R;
  d_pz : list R; d_w : list R; d_q : R; d_m : R }.
(** bunch_generation.py:319, bunch_analysis.py:130-137: np.sum. *)
Definition sum (l : list R) : R := fold_right Rplus 0 l.
(** bunch_generation.py:319, bunch_analysis.py:130-133: np.average with weights: raises
    ZeroDivisionError if they add up to zero. *)
Definition average (x w : list R) : outcome R :=
  if Req_EM_T (sum w) 0 then Raised ZeroDivisionError else Done (sum (zip_with Rmult x w) / sum w).
Section Files.
  (** State of the file system; [save_distribution d path format species] and
      [read_distribution path format species], the species only for openPMD;
      get_available_species. *)
  Variables (path disk : Type).
  Variable save_distribution : distribution -> path -> string -> option string -> disk -> outcome disk.
  Variable read_distribution : path -> string -> option string -> disk -> outcome distribution.
  Variable available_species : path -> disk -> list string.

  (** bunch_saving.py:11-53 [save_bunch_to_file]; [name] is the attribute of the bunch. *)
  Definition save_bunch_to_file (b : made) (name : string) (format : string) (p : path)
      (species : option string) (d : disk) : outcome disk :=
    let kwargs := if String.eqb format "openpmd"
                  then Some (match species with Some s => s | None => name end) else None in
    save_distribution (mkdist (b_x b) (b_y b) (b_xi b) (b_px b) (b_py b) (b_pz b) (b_w b) (b_q b) (b_m b))
      p format kwargs d.
  (** bunch_generation.py:252-337 [get_from_file]; the numbers in the lists of the file are
      finite. *)
  Definition get_from_file (p : path) (format : string) (preserve : bool) (name species : option string)
      (d : disk) : outcome made :=
    let chosen := if String.eqb format "openpmd" then
        match species with
        | Some s => Done (Some s)
        | None => match available_species p d with [s] => Done (Some s) | _ => Raised ValueError end
        end
      else Done None in
    match chosen with
    | Raised e => Raised e
    | Done kwargs =>
        let name := match name, kwargs with None, Some s => Some s | _, _ => name end in
        match read_distribution p format kwargs d with
        | Raised e => Raised e
        | Done D =>
            match average (d_z D) (d_w D) with
            | Raised e => Raised e
            | Done z_avg => Done (mkb (d_w D) (d_x D) (d_y D) (map (fun z => z - z_avg) (d_z D)) (d_px D) (d_py D)
                (d_pz D) name (d_q D) (d_m D) (if preserve then z_avg else 0))
            end
        end
    end.
End Files.

(** ** bunch_analysis.py *)
Section Analysis.
  (** Functions of aptools.data_analysis.beam_diagnostics with their arguments in the order of the
      calls; the slices (n_slices, len_slice) are an abstract argument. *)
  Variable slicing : Type.
  Variable twiss_parameters : list R -> list R -> list R -> list R -> list R -> R * R * R.
  Variables (mean_energy relative_rms_energy_spread : list R -> list R -> list R -> list R -> R).
  Variable slice_energy_spread : list R -> list R -> list R -> list R -> list R -> slicing -> R.
  Variable emittance : list R -> list R -> list R -> list R -> list R -> R.
  Variable slice_emittance : list R -> list R -> list R -> list R -> list R -> list R -> slicing -> R.
  Variables (rms_length rms_size : list R -> list R -> R).
  Variable peak_current : list R -> list R -> slicing -> R.

  (** particle_bunch.py:114-120, bunch_analysis.py:21: the charges of a bunch. *)
  Definition charges (b : made) : list R := map (fun w => w * b_q b) (b_w b).
  (** bunch_analysis.py:111-140 [_get_distribution_parameters] *)
  Definition get_distribution_parameters (x y z px py pz q : list R) (sl : slicing) : outcome (list R) :=
    let '(a_x, be_x, g_x) := twiss_parameters x px pz py q in
    let '(a_y, be_y, g_y) := twiss_parameters y py pz px q in
    let ene := mean_energy px py pz q in
    match average x q, average y q, average px q, average py q with
    | Done x_avg, Done y_avg, Done px_avg, Done py_avg =>
        Done [px_avg / ene; py_avg / ene; x_avg; y_avg; rms_size x q; rms_size y q; a_x; a_y; be_x; be_y; g_x; g_y;
              emittance x px py pz q; emittance y py px pz q; slice_emittance z x px py pz q sl;
              slice_emittance z y py px pz q sl; ene; relative_rms_energy_spread px py pz q;
              slice_energy_spread z px py pz q sl; peak_current z q sl; rms_length z q; sum q]
    | Raised e, _, _, _ => Raised e | _, Raised e, _, _ => Raised e
    | _, _, Raised e, _ => Raised e | _, _, _, Raised e => Raised e
    end.
  (** bunch_analysis.py:20-22, 63-65: its 22 numbers, or the exception of np.average. *)
  Definition params_of (b : made) (sl : slicing) : outcome (list R) :=
    get_distribution_parameters (b_x b) (b_y b) (b_xi b) (b_px b) (b_py b) (b_pz b) (charges b) sl.
  (** bunch_analysis.py:143-172 [_store_bunch_parameters_into_dict]: keys and values, the
      values in the order of the arguments. *)
  Definition store_bunch_parameters_into_dict {A} (dist theta_x theta_y x_avg y_avg s_x s_y a_x a_y b_x b_y
      g_x g_y em_x em_y em_x_sl_avg em_y_sl_avg ene ene_sp ene_sp_sl_avg i_peak s_z q_tot : A)
      : list (string * A) :=
    [("prop_dist", dist); ("theta_x", theta_x); ("theta_y", theta_y); ("x_avg", x_avg); ("y_avg", y_avg);
     ("sigma_x", s_x); ("sigma_y", s_y); ("sigma_z", s_z); ("alpha_x", a_x); ("alpha_y", a_y);
     ("beta_x", b_x); ("beta_y", b_y); ("gamma_x", g_x); ("gamma_y", g_y); ("emitt_x", em_x);
     ("emitt_y", em_y); ("avg_slice_emitt_x", em_x_sl_avg); ("avg_slice_emitt_y", em_y_sl_avg);
     ("avg_ene", ene); ("rel_ene_spread", ene_sp); ("avg_slice_rel_ene_spread", ene_sp_sl_avg);
     ("i_peak", i_peak); ("q_tot", q_tot)]%string.
  (** bunch_analysis.py:13-26 [analyze_bunch] *)
  Definition analyze_bunch (b : made) (sl : slicing) : outcome (list (string * R)) :=
    match params_of b sl with
    | Raised e => Raised e
    | Done l => let v i := nth i l 0 in
        Done (store_bunch_parameters_into_dict (b_prop b) (v 0%nat) (v 1%nat) (v 2%nat) (v 3%nat) (v 4%nat) (v 5%nat)
          (v 6%nat) (v 7%nat) (v 8%nat) (v 9%nat) (v 10%nat) (v 11%nat) (v 12%nat) (v 13%nat) (v 14%nat) (v 15%nat)
          (v 16%nat) (v 17%nat) (v 18%nat) (v 19%nat) (v 20%nat) (v 21%nat))
    end.
  (** bunch_analysis.py:60-65: the tuples of the loop. *)
  Fixpoint all_params (l : list made) (sl : slicing) : outcome (list (list R)) :=
    match l with
    | [] => Done []
    | b :: l' =>
        match params_of b sl with
        | Raised e => Raised e
        | Done v => match all_params l' sl with Raised e => Raised e | Done r => Done (v :: r) end
        end
    end.
  (** bunch_analysis.py:29-76 [analyze_bunch_list]: the assignments of lines 66-69 put entry k
      of the tuple into the array of the k-th name. *)
  Definition analyze_bunch_list (l : list made) (sl : slicing) : outcome (list (string * list R)) :=
    match all_params l sl with
    | Raised e => Raised e
    | Done rows =>
        let dist := map b_prop l in
        let theta_x := map (fun r => nth 0 r 0) rows in let theta_y := map (fun r => nth 1 r 0) rows in
        let x_avg := map (fun r => nth 2 r 0) rows in let y_avg := map (fun r => nth 3 r 0) rows in
        let s_x := map (fun r => nth 4 r 0) rows in let s_y := map (fun r => nth 5 r 0) rows in
        let a_x := map (fun r => nth 6 r 0) rows in let a_y := map (fun r => nth 7 r 0) rows in
        let b_x := map (fun r => nth 8 r 0) rows in let b_y := map (fun r => nth 9 r 0) rows in
        let g_x := map (fun r => nth 10 r 0) rows in let g_y := map (fun r => nth 11 r 0) rows in
        let em_x := map (fun r => nth 12 r 0) rows in let em_y := map (fun r => nth 13 r 0) rows in
        let em_x_sl_avg := map (fun r => nth 14 r 0) rows in let em_y_sl_avg := map (fun r => nth 15 r 0) rows in
        let ene := map (fun r => nth 16 r 0) rows in let ene_sp := map (fun r => nth 17 r 0) rows in
        let ene_sp_sl_avg := map (fun r => nth 18 r 0) rows in let i_peak := map (fun r => nth 19 r 0) rows in
        let s_z := map (fun r => nth 20 r 0) rows in let q_tot := map (fun r => nth 21 r 0) rows in
        Done (store_bunch_parameters_into_dict dist theta_x theta_y x_avg y_avg s_x s_y a_x a_y b_x b_y g_x g_y
          em_x em_y em_x_sl_avg em_y_sl_avg ene ene_sp ene_sp_sl_avg i_peak s_z q_tot)
    end.
End Analysis.
