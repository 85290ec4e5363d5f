(** Vocabulary for the properties of the quasi-static plasma model. *)
From Coq Require Import Reals ZArith String List Bool Arith.
From Verif Require Import Model_Push Model_Interp Spec_Interp Model_Deposit Spec_Deposit Model_Psi Model_BTheta Model_QS.
Import ListNotations.
Open Scope R_scope.

(** ** Pushers *)
(** Polynomial with the given coefficients (lowest order first). *)
Fixpoint poly (c : list R) (t : R) : R := match c with [] => 0 | a :: l => a + t * poly l t end.

(** The electron of index [i] in a column, with the derivatives that the ab5 pusher has stored. *)
Definition electron_at (st : state) (i : nat) : electron :=
  mkel (nth i (t_r st) 0) (nth i (t_pr st) 0)
       (fst (nth i (t_mem st) (mkm 0 0 0 0, mkm 0 0 0 0))) (snd (nth i (t_mem st) (mkm 0 0 0 0, mkm 0 0 0 0))).
(** Between two pushes electrons are put at rest or not and get new fields and gamma. *)
Record event := mkev { v_stop : list bool; v_gamma : list R; v_felt : felt }.
Definition prepare (st : state) (v : event) : state :=
  mkst (t_r st) (map2 (fun (b : bool) x => if b then 0 else x) (v_stop v) (t_pr st)) (t_pz st) (v_gamma v)
    (v_felt v) (t_mem st) (t_sub2 st) (t_sub3 st) (t_sub4 st).
Definition history (U : setup) (l : list event) (st : state) : state :=
  fold_left (fun st v => evolve_plasma_ab5 U (prepare st v)) l st.
(** All arrays of an event have [n] entries. *)
Definition event_of (n : nat) (v : event) : Prop :=
  length (v_stop v) = n /\ length (v_gamma v) = n /\ length (f_src (v_felt v)) = n /\
  length (f_bt (v_felt v)) = n /\ length (f_psi (v_felt v)) = n /\ length (f_drpsi (v_felt v)) = n.
(** Radial force on the electron [i] at positive radius. *)
Definition pull (v : event) (i : nat) : R :=
  let at_ l := nth i l 0 in
  let '(_, na2, b0) := nth i (f_src (v_felt v)) (0, 0, 0) in
  at_ (v_gamma v) * at_ (f_drpsi (v_felt v)) / (1 + at_ (f_psi (v_felt v)))
  - (at_ (f_bt (v_felt v)) + b0) - na2 / (2 * (1 + at_ (f_psi (v_felt v)))).
(** Five-step Adams-Bashforth formula; [d] the present derivative, [m] the four before. *)
Definition adams (x h d : R) (m : memory) : R :=
  x + h * (1901 / 720 * d - 1387 / 360 * m2 m + 109 / 30 * m3 m - 637 / 360 * m4 m + 251 / 720 * m5 m).
(** A push without reflection at the axis: the coordinate can be negative; [s] is the side on which
    the electron is (the force on the other side is the opposite one). *)
Definition free_push (dxi : R) (i : nat) (s : R) (v : event) (e : electron) : electron :=
  let pr := if nth i (v_stop v) false then 0 else l_pr e in
  let dr := pr / (1 + nth i (f_psi (v_felt v)) 0) in
  let dpr := s * pull v i in
  mkel (adams (l_r e) dxi dr (l_dr e)) (adams pr dxi dpr (l_dpr e))
       (mkm dr (m2 (l_dr e)) (m3 (l_dr e)) (m4 (l_dr e)))
       (mkm dpr (m2 (l_dpr e)) (m3 (l_dpr e)) (m4 (l_dpr e))).
(** [e'] is where the electron [e] gets to without reflections, and [s] its side then. *)
Inductive passes_axis (dxi : R) (i : nat) (e : electron) : list event -> R -> electron -> Prop :=
  | at_first : passes_axis dxi i e [] 1 e
  | and_then l s e' v s' : passes_axis dxi i e l s e' -> (s' = 1 \/ s' = -1) ->
      0 <= s' * l_r (free_push dxi i s v e') ->
      passes_axis dxi i e (l ++ [v]) s' (free_push dxi i s v e').
Definition times_memory (s : R) (m : memory) : memory := mkm (s * m2 m) (s * m3 m) (s * m4 m) (s * m5 m).
(** Mirror image if s = -1. *)
Definition image (s : R) (e : electron) : electron :=
  mkel (s * l_r e) (s * l_pr e) (times_memory s (l_dr e)) (times_memory s (l_dpr e)).

(** Runge-Kutta step of fourth order for columns: positions and momenta [x], [u], which change with
    the rates given by the functions [f1] (at the start), [f2], [f3] (half way) and [f4]. *)
Definition step_to (h : R) (x d : list R) : list R := map2 (fun x d => x + h * d) x d.
Definition weighted_mean (a b c d : list R) : list R :=
  map2 (fun a r => a / 6 + r) a (map2 (fun b r => b / 3 + r) b (map2 (fun c d => c / 3 + d / 6) c d)).
Definition rates := (list R * list R)%type.
Definition runge_kutta (h : R) (k1 : rates) (f2 f3 f4 : list R -> list R -> result rates)
    (x u : list R) : result (list R * list R) :=
  do k2 <- f2 (step_to (h / 2) x (fst k1)) (step_to (h / 2) u (snd k1));
  do k3 <- f3 (step_to (h / 2) x (fst k2)) (step_to (h / 2) u (snd k2));
  do k4 <- f4 (step_to h x (fst k3)) (step_to h u (snd k3));
  Ok (step_to h x (weighted_mean (fst k1) (fst k2) (fst k3) (fst k4)),
      step_to h u (weighted_mean (snd k1) (snd k2) (snd k3) (snd k4))).
Definition sign_of (x : R) : R := if Rlt_dec x 0 then -1 else 1.
Definition flipped (s l : list R) : list R := map2 Rmult s l.
(** Rates of change of a column at positive radii. *)
Definition column_rates (argsort : list R -> list nat) (U : setup) (xi : R) (old : list (R * R * R))
    (r pr : list R) : result rates :=
  do (f, gamma) <- at_particles argsort U xi r pr old;
  Ok (map2 (fun p psi => p / (1 + psi)) pr (f_psi f),
      map (pull (mkev [] gamma f)) (seq 0 (length pr))).
(** Rates of change of electrons on both sides: those on the other side move as their mirror images
    do. *)
Definition signed_rates (argsort : list R -> list nat) (U : setup) (xi : R) (old : list (R * R * R))
    (x u : list R) : result rates :=
  let s := map sign_of x in
  do k <- column_rates argsort U xi old (flipped s x) (flipped s u);
  Ok (flipped s (fst k), flipped s (snd k)).
(** Rates of change at the start, from the fields of the present slice. *)
Definition rates_now (st : state) : rates :=
  (map2 (fun p psi => p / (1 + psi)) (t_pr st) (f_psi (t_felt st)),
   map (pull (mkev [] (t_gamma st) (t_felt st))) (seq 0 (length (t_pr st)))).
(** All arrays of a column have [n] entries. *)
Definition column_of (n : nat) (st : state) : Prop :=
  length (t_r st) = n /\ length (t_pr st) = n /\ length (t_mem st) = n /\
  length (f_src (t_felt st)) = n /\ length (t_sub2 st) = n /\ length (t_sub3 st) = n /\
  length (t_sub4 st) = n.

(** ** The whole plasma *)
(** The setup [U] belongs to the grid [g]: coordinates, cell sizes and arrays with guard cells. *)
Definition set_on (g : gridspec) (U : setup) : Prop :=
  proper g /\ u_geom U = args_of g /\ u_nxi U = gnz g /\ u_nr U = gnr g /\
  guards g (u_a2 U) /\ guards g (u_na2 U) /\ guards g (u_b0 U) /\
  (forall i, (Z.of_nat i < gnz g)%Z -> nth i (u_xi U) 0 = node_z g (Z.of_nat i)) /\
  u_r U = map (fun j => node_r g (Z.of_nat j)) (seq 0 (Z.to_nat (gnr g))) /\
  shape_name (u_shape U).
Definition grids_on (g : gridspec) (G : grids) : Prop :=
  guards g (g_psi G) /\ guards g (g_bt G) /\ guards g (g_rho G) /\ guards g (g_chi G).
(** Radii are not negative. *)
Definition outside_axis (st : state) : Prop := forall x, In x (t_r st) -> 0 <= x.
(** [at_slice argsort U p st0 G0 i st G]: from the column [st0] and the arrays [G0] on, the plasma
    reaches slice [i]; [st] is the column there and [G] the arrays after its deposition. *)
Inductive at_slice (argsort : list R -> list nat) (U : setup) (p : pusher) (st0 : state) (G0 : grids)
    : nat -> state -> grids -> Prop :=
  | front i st G : Z.of_nat i = (u_nxi U - 1)%Z ->
      calculate_and_deposit_plasma_column argsort U i (nth i (u_xi U) 0) st0 G0 = Ok (st, G) ->
      at_slice argsort U p st0 G0 i st G
  | behind i st G st' st'' G'' : at_slice argsort U p st0 G0 (S i) st G ->
      evolve argsort U p (nth (S i) (u_xi U) 0) st = Ok st' ->
      calculate_and_deposit_plasma_column argsort U i (nth i (u_xi U) 0) st' G = Ok (st'', G'') ->
      at_slice argsort U p st0 G0 i st'' G''.
(** Momentum (pr, pz) and energy of an electron in the potential [psi] and the laser intensity [a2]:
    mass shell and conserved quantity of the quasi-static motion. *)
Definition on_shell (a2 psi pr pz gamma : R) : Prop :=
  gamma ^ 2 = 1 + pr ^ 2 + pz ^ 2 + a2 /\ gamma - pz = 1 + psi.
(** An electron that comes with momentum [pr]: it stays on the mass shell if the gamma factor there
    is below [max]; else it is put at rest. *)
Definition limited (max a2 psi pr pr' pz' gamma' : R) : Prop :=
  exists pz gamma, on_shell a2 psi pr pz gamma /\
    (gamma < max /\ pr' = pr /\ pz' = pz /\ gamma' = gamma \/
     max <= gamma /\ pr' = 0 /\ pz' = 0 /\ gamma' = 1).
Definition electron_a2 (st : state) (k : nat) : R := fst (fst (nth k (f_src (t_felt st)) (0, 0, 0))).
Definition electron_psi (st : state) (k : nat) : R := nth k (f_psi (t_felt st)) 0.

(** The same setup with other sources. *)
Definition with_sources (U : setup) (a2 na2 b0 : arr2) : setup :=
  mkset (u_q U) (u_rmax U) (u_drp U) (u_pc U) a2 na2 b0 (u_xi U) (u_r U) (u_dxi U) (u_dr U) (u_nxi U)
    (u_nr U) (u_maxg U) (u_shape U).
(** Arrays that agree in slice [m] and ahead of it. *)
Definition same_ahead (g : gridspec) (m : Z) (a b : arr2) : Prop :=
  forall i j, (m <= i < gnz g)%Z -> (0 <= j < gnr g)%Z -> inner a i j = inner b i j.
(** Number of slices by which a plasma column reaches forward in its deposition. *)
Definition reach (s : string) : Z := if is_cubic s then 1%Z else 0%Z.

(** ** Bunches *)
(** A particle in plasma units on the grid [g]: lengths in skin depths [s], charge as density of
    particles (charge [e] each) in a ring of one cell and radius 1, over the plasma density [n_p]. *)
Definition normalized (s n_p e : R) (g : dgrid) (pq : pos * R) : pos * R :=
  let '((x, y, xi), q) := pq in
  ((x / s, y / s, xi / s), q / (e * (2 * PI * dg_dr g * dg_dz g * s ^ 3 * n_p))).
(** Charge within the radius r_j in slice [i]: the cells before cell [j] and the part of cell [j]
    that is nearer to the axis than its centre: a quarter of the disk or (about) half of a ring. *)
Definition enclosed (rho : arr2) (i j : Z) : R :=
  sum_range j (inner rho i) + (if Z.eqb j 0 then / 4 else / 2) * inner rho i j.
Definition in_grid (g : dgrid) (i j : Z) : Prop := (0 <= i < dg_nz g /\ 0 <= j < dg_nr g)%Z.
(** Radius of the centre of cell [j]. *)
Definition cell_radius (g : dgrid) (j : Z) : R := (IZR j + / 2) * dg_dr g.
Definition times_charge (c : R) (pq : pos * R) : pos * R := (fst pq, c * snd pq).
(** Particles at the same place up to a rotation around the axis. *)
Definition rotated (pq pq' : pos * R) : Prop :=
  radius (fst pq) = radius (fst pq') /\ lon (fst pq) = lon (fst pq') /\ snd pq = snd pq'.
(** Is the particle ahead of [xi]. *)
Definition ahead (xi : R) (pq : pos * R) : bool := if Rle_dec (lon (fst pq)) xi then false else true.

(** ** Wakefields *)
(** Distance of two slices and of two rings. *)
Definition slice_width (A : args) : R := (a_ximax A - a_ximin A) / (IZR (a_nxi A) - 1).
Definition ring_width (A : args) : R := a_rmax A / IZR (a_nr A).
Definition slice_at (A : args) (i : Z) : R := a_ximin A + IZR i * slice_width A.
(** Arguments as [calculate_wakefields] gets them from the wakefield object, for a plasma of at least
    one ring of particles. *)
Definition valid (skin_depth : R -> R) (A : args) : Prop :=
  0 < skin_depth (a_np A / 1000000) /\ 0 < a_rmax A /\ a_ximin A < a_ximax A /\
  (3 <= a_nr A)%Z /\ (3 <= a_nxi A)%Z /\ 0 < a_ppc A /\
  ring_width A / a_ppc A <= (match a_rplasma A with Some r => r | None => a_rmax A end) /\
  shape_name (a_shape A) /\ (a_pusher A = "rk4"%string \/ a_pusher A = "ab5"%string) /\
  a_rfld A = map (fun j => (INR j + / 2) * ring_width A) (seq 0 (Z.to_nat (a_nr A))) /\
  a_xifld A = map (fun i => slice_at A (Z.of_nat i)) (seq 0 (Z.to_nat (a_nxi A))).
(** Size of an array with and without guard cells. *)
Definition laser_array (A : args) (a : arr2) : Prop := rows a = a_nxi A /\ cols a = a_nr A.
Definition field_array (A : args) (a : arr2) : Prop := rows a = (a_nxi A + 4)%Z /\ cols a = (a_nr A + 4)%Z.
(** Fields that agree from slice [m] on. *)
Definition agree_from (A : args) (m : Z) (a b : arr2) : Prop :=
  forall i j, (m <= i < a_nxi A)%Z -> (0 <= j < a_nr A)%Z -> inner a i j = inner b i j.
(** The same arguments with another pusher. *)
Definition with_pusher (A : args) (p : string) : args :=
  mkargs (a_rmax A) (a_ximin A) (a_ximax A) (a_nr A) (a_nxi A) (a_ppc A) (a_np A) (a_rplasma A) (a_pc A) (a_shape A)
    (a_maxg A) p (a_rfld A) (a_xifld A).
(** Pusher that is used. *)
Definition pusher_of (s : string) (p : pusher) : Prop := s = "rk4"%string /\ p = RK4 \/ s = "ab5"%string /\ p = AB5.
(** Column of electrons and arrays of zeros before the first slice. *)
Definition first_column (skin_depth : R -> R) (A : args) : state := start (the_column skin_depth A).
Definition no_fields (A : args) : grids := let z := zeros2 (a_nxi A) (a_nr A) in mkgr z z z z.
