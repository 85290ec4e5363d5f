(** Vocabulary for the properties of tracking through transfer-map elements. *)
From Coq Require Import QArith Qreals Reals List Arith.
From Verif Require Import Model_Push Model_Bunch Spec_Bunch Model_Optics Spec_Optics Model_CSR
  Spec_CSR Model_TM.
Import ListNotations.
Open Scope R_scope.

(** Coordinates relative to a reference trajectory that passes through (xr, 0) at the angle
    [th] to the axis with the energy [g]: (x, px/p0, y, py/p0, -xi, (gamma - g)/(g beta)). *)
Definition enter (xr th g : R) (p : part) : list R :=
  [ cos th * (x p - xr) - sin th * xi p;
    (cos th * px p - sin th * pz p) / sqrt (g ^ 2 - 1);
    y p;
    py p / sqrt (g ^ 2 - 1);
    - (cos th * xi p + sin th * (x p - xr));
    (sqrt (1 + px p ^ 2 + py p ^ 2 + pz p ^ 2) - g) / (g * rel_beta g) ].
(** The particle with given coordinates relative to the reference trajectory. *)
Definition leave (xr th g : R) (v : list R) : part :=
  let p0 := sqrt (g ^ 2 - 1) in
  let ux := nth 1 v 0 * p0 in
  let uy := nth 3 v 0 * p0 in
  let gamma := g + nth 5 v 0 * g * rel_beta g in
  let uz := sqrt (gamma ^ 2 - ux ^ 2 - uy ^ 2 - 1) in
  let s := - nth 4 v 0 in
  mkp (xr + cos th * nth 0 v 0 + sin th * s) (nth 2 v 0) (cos th * s - sin th * nth 0 v 0)
    (cos th * ux + sin th * uz) uy (cos th * uz - sin th * ux).

(** The reference particle. *)
Definition on_reference (xr th g : R) : part :=
  mkp xr 0 0 (sin th * sqrt (g ^ 2 - 1)) 0 (cos th * sqrt (g ^ 2 - 1)).

(** The reference trajectory inside an element of length L that bends by [theta]. *)
Definition ref_theta (th0 theta L d : R) : R := th0 + theta * d / L.
Definition ref_x (x0 th0 theta L d : R) : R :=
  if Req_EM_T theta 0 then x0 + d * sin th0
  else x0 + L / theta * (cos th0 - cos (ref_theta th0 theta L d)).

(** The map of a piece of length [l] of an element. *)
Definition piece (e : elem) (g l : R) (v : list R) : list R :=
  track_col l (Q2R (e_length e)) (- e_theta e) (e_k1 e) (e_k2 e) g (e_order e) v.
(** The energy used as reference: that of the element or else the mean of the bunch. *)
Definition reference_energy (h : heap) (b : bunch) (e : elem) : R :=
  match e_gamma_ref e with
  | Some g => g
  | None => sum (map2 Rmult (map (fun p => sqrt (1 + px p ^ 2 + py p ^ 2 + pz p ^ 2))
                               (particles h b)) (rd h (b_w b))) / sum (rd h (b_w b))
  end.

(** Everything but the coordinates. *)
Definition same_kind (h : heap) (b : bunch) (h' : heap) (b' : bunch) : Prop :=
  rd h' (b_w b') = rd h (b_w b) /\ b_name b' = b_name b /\ q_species b' = q_species b /\
  m_species b' = m_species b.
(** [ob] is the bunch [b] after the distance [d], where the reference trajectory is at [xr] with
    the angle [th]; [m]: its particles relative to the reference trajectory. *)
Definition carried (h : heap) (b : bunch) (g d xr th : R) (m : list (list R)) (h' : heap)
    (ob : bunch) : Prop :=
  particles h' ob = map (leave xr th g) m /\ prop_distance ob = prop_distance b + d /\
  x_ref ob = xr /\ theta_ref ob = th /\ same_kind h b h' ob.

(** Two bunches in the same place with the same particles. *)
Definition same_place (h : heap) (b : bunch) (h' : heap) (b' : bunch) : Prop :=
  particles h' b' = particles h b /\ prop_distance b' = prop_distance b /\
  x_ref b' = x_ref b /\ theta_ref b' = theta_ref b /\ same_kind h b h' b'.
(** What tracking leaves alone in the bunch it is given. *)
Definition kept (b b' : bunch) : Prop :=
  b_w b' = b_w b /\ b_tags b' = b_tags b /\ t_flight b' = t_flight b /\
  z_injection b' = z_injection b /\ b_name b' = b_name b /\ q_species b' = q_species b /\
  m_species b' = m_species b.

(** The six coordinate arrays. *)
Definition coords (b : bunch) : list addr := [b_x b; b_y b; b_xi b; b_px b; b_py b; b_pz b].

(** [st i]: the beam after [i] steps of length [l]; [dir]: 1, or -1 when tracking backwards. *)
Definition evolves (c : csr) (e : elem) (g l dir : R) (q : list R) (n : nat)
    (st : nat -> list (list R)) : Prop :=
  forall i, (i < n)%nat ->
    let m := map (piece e g l) (st i) in
    if e_csr_on e then apply_csr c e (INR (i + 1) * l * dir) g q m = Some (st (S i))
    else st (S i) = m.
Fixpoint iter {A} (n : nat) (f : A -> A) (a : A) : A :=
  match n with O => a | S k => f (iter k f a) end.

(** CSR is off, or the calculator has the history of a lattice that does not contain the
    element and has not been cleared. *)
Definition ready (c : csr) (e : elem) : Prop :=
  e_csr_on e = false \/
  exists l, c = run noround l /\ Forall ok_op l /\ ~ In Clear l /\
    forall a, In a (lattice l) -> e_id a <> e_id e.
(** The input is one that [track] accepts. *)
Definition accepts (h : heap) (b : bunch) (e : elem) : Prop :=
  (0 < e_length e)%Q /\ e_n_out e <> Some 0%nat /\
  (e_gamma_ref e = None -> sum (rd h (b_w b)) <> 0).
(** The outcome of tracking without the state of the CSR calculator. *)
Definition forget (tr : tracked) :=
  (tr_heap tr, tr_counter tr, tr_elem tr, tr_bunch tr, tr_out tr, tr_writes tr, tr_z tr).
(** Relative coordinates of a particle that moves: energy above rest and transverse momentum. *)
Definition physical (g : R) (v : list R) : Prop :=
  let gamma := g + nth 5 v 0 * g * rel_beta g in
  0 <= gamma /\
  1 + (nth 1 v 0 * sqrt (g ^ 2 - 1)) ^ 2 + (nth 3 v 0 * sqrt (g ^ 2 - 1)) ^ 2 <= gamma ^ 2.
