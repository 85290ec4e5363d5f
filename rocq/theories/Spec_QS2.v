(** Vocabulary for the fields that the plasma electrons and the grid get in one slice, and for the
    whole path of an electron. *)
From Coq Require Import Reals ZArith String List Bool Arith.
From Coquelicot Require Import Coquelicot.
From Verif Require Import Model_Push Model_Interp Spec_Interp Model_Deposit Spec_Deposit Model_Psi Spec_Psi Model_BTheta Spec_BTheta
  Model_QS Spec_QS.
Import ListNotations.
Open Scope R_scope.

(** Rings of electrons at distinct radii, their charges and the size of the plasma. *)
Definition rings (U : setup) (r pr : list R) : Prop :=
  r <> [] /\ NoDup r /\ (forall x, In x r -> 0 < x) /\ length pr = length r /\ length (u_q U) = length r /\
  (forall x, In x (u_q U) -> 0 <= x) /\ 0 < u_rmax U /\ 0 < u_drp U.
(** Electrons with the fields that they feel, as in the equations for the magnetic field. *)
Definition electrons_in (U : setup) (r pr gamma : list R) (f : felt) : plasma :=
  mkpl r pr (u_q U) gamma (f_psi f) (f_drpsi f) (f_dxipsi f)
    (map (fun s => snd s) (f_src f)) (map (fun s => snd (fst s)) (f_src f)).
(** The fields [f] and energies [gamma] of electrons with radii [r] and momenta [pr] in the slice at
    [xi]; [idx] orders the radii. Where the grid ends electrons keep the sources [old]. *)
Record in_fields (g : gridspec) (U : setup) (xi : R) (idx : list nat) (r pr : list R) (old : list (R * R * R))
    (f : felt) (gamma : list R) : Prop := {
  by_sources : forall i, (i < length r)%nat ->
    let x := nth i r 0 in let '(a2, na2, b0) := nth i (f_src f) (0, 0, 0) in
    covered g xi x /\ interpolates g false (inner (u_a2 U)) xi x a2 /\
      interpolates g true (inner (u_na2 U)) xi x na2 /\ interpolates g true (inner (u_b0 U)) xi x b0 \/
    ~ covered g xi x /\ (a2, na2, b0) = nth i old (0, 0, 0);
  by_potential : forall k, (k < length r)%nat ->
    let i := nth k idx 0%nat in let x := nth i r 0 in
    let phi := potential r (u_q U) (u_rmax U) (u_pc U) in
    let left := mid_left idx r k in let right := mid_right (u_drp U) idx r k in
    let far := Rmax (mid_right (u_drp U) idx r (length r - 1)) (u_rmax U) in
    nth i (f_psi f) 0 = Rmax (- (9 / 10)) (chord phi left right x - phi far) /\
    nth i (f_drpsi f) 0 = chord (slope r (u_q U) (u_rmax U) (u_pc U)) left right x;
  by_change : f_dxipsi f = snd (psi_at_particles r pr (u_q U) idx (u_rmax U) (u_drp U) (u_pc U));
  by_energy : forall i, (i < length r)%nat -> exists pz,
    on_shell (fst (fst (nth i (f_src f) (0, 0, 0)))) (nth i (f_psi f) 0) (nth i pr 0) pz (nth i gamma 0);
  by_magnetic : exists field w, solves (electrons_in U r pr gamma f) field w /\
    forall k, (k < length r)%nat -> nth (nth k idx 0%nat) (f_bt f) 0 =
      bounded 3 (chord field (mid_left idx r k) (mid_right (u_drp U / 2) idx r k) (nth (nth k idx 0%nat) r 0))
}.
(** The fields on the grid in slice [i]: the potential of the electrons and ions, zero at the edge of
    the plasma, and the magnetic field. *)
Definition grid_fields (U : setup) (i : Z) (r pr gamma : list R) (f : felt) (G : grids) : Prop :=
  forall m, is_largest r m ->
  let phi := potential r (u_q U) (u_rmax U) (u_pc U) in
  exists field w, solves (electrons_in U r pr gamma f) field w /\
  forall j, (0 <= j < u_nr U)%Z -> let x := nth (Z.to_nat j) (u_r U) 0 in
    inner (g_psi G) i j = phi x - phi (Rmax m (u_rmax U)) /\ inner (g_bt G) i j = field x.
(** All lists of radii get sorted. *)
Definition sorts (argsort : list R -> list nat) : Prop := forall l, orders (argsort l) l.
(** What happens to the electrons in a slice: fields, energies, and which of them are put at rest. *)
Definition event_in (st : state) (v : event) : Prop :=
  v_felt v = t_felt st /\ v_gamma v = t_gamma st /\
  forall k, nth k (v_stop v) false = true -> nth k (t_pr st) 0 = 0 /\ nth k (t_pz st) 0 = 0 /\ nth k (t_gamma st) 0 = 1.
