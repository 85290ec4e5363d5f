(** Properties C38, C39, C74, C75: tracking through transfer-map elements. *)
From Coq Require Import QArith Qround Qreals Reals String List Arith Lqa Lra Lia.
From Coquelicot Require Import Coquelicot.
From Verif Require Import Model_Push Model_Bunch Spec_Bunch Proofs_Bunch Model_Optics Spec_Optics
  Proofs_Optics Proofs_Optics3 Model_CSR Spec_CSR Proofs_CSR Model_TM Spec_TM Proofs_TM Proofs_TM2
  Proofs_TM3 Proofs_TM4 Proofs_TM5 Proofs_TM6.
Import ListNotations.
Open Scope R_scope.

(** ** C38: the outputs *)
(** With n outputs requested, [track] returns n bunches, and the initial one before them if
    asked for. The k-th has advanced by k/n of the length, its reference trajectory is that of
    the element there, and without CSR its particles are the initial ones taken k times through
    the map of the n-th part of the element. The input bunch ends up as the last output. Each
    output goes to the diagnostics, with its time of flight. *)
Theorem C38_outputs h n0 c e b oi tr n : valid h b -> (0 < e_length e)%Q -> e_n_out e = Some n ->
  ready c e -> track noround h n0 c e b false oi = Some tr ->
  let g := reference_energy h b e in
  let L := Q2R (e_length e) in
  let sh := if oi then 1%nat else 0%nat in
  length (tr_out tr) = (n + sh)%nat /\ (0 < n)%nat /\
  (oi = true -> same_place h b (tr_heap tr) (nth 0 (tr_out tr) b)) /\
  (exists m : nat -> list (list R), forall k, (k < n)%nat ->
     let d := INR (k + 1) * (L / INR n) in
     length (m k) = length (particles h b) /\
     carried h b g d (ref_x (x_ref b) (theta_ref b) (e_theta e) L d)
       (ref_theta (theta_ref b) (e_theta e) L d) (m k) (tr_heap tr) (nth (k + sh) (tr_out tr) b) /\
     (e_csr_on e = false -> m k = map (fun p => iter (k + 1) (piece e g (L / INR n))
        (enter (x_ref b) (theta_ref b) g p)) (particles h b))) /\
  same_place (tr_heap tr) (last (tr_out tr) b) (tr_heap tr) (tr_bunch tr) /\
  map w_bunch (tr_writes tr) = tr_out tr /\
  (forall k, (k < n)%nat -> w_time (nth (k + sh) (tr_writes tr) (mkwr 0 0 b)) = INR (k + 1) * (L / INR n) / c_SI) /\
  (exists j, (0 < j)%nat /\ (e_csr_on e = false -> j = 1%nat) /\
     forall w, In w (tr_writes tr) -> w_dt w = L / INR n / INR j / c_SI).
Proof. exact (outputs_spec h n0 c e b oi tr n). Qed.
Print Assumptions C38_outputs.

(** With CSR on, the states between the outputs are also determined: [st i] is the beam after i
    steps, each one the map of the step followed by the CSR kick at its end; each output takes
    its particles from one of them. *)
Theorem C38_csr rnd h n0 c e b bt oi tr : valid h b ->
  track rnd h n0 c e b bt oi = Some tr ->
  let g := reference_energy h b e in
  let e' := set_gamma e g in
  let c' := if e_csr_on e then add_lattice_element rnd c e' else clear c in
  exists l_step nt outs st,
    determine_steps rnd (e_length e) (e_n_out e)
      (if e_csr_on e then Some (get_csr_step c' e') else None) = Some (l_step, nt, outs) /\
    st 0%nat = map (enter (x_ref b) (theta_ref b) g) (particles h b) /\
    evolves c' e' g (Q2R l_step) (if bt then -1 else 1) (get_q h b) nt st /\
    tr_elem tr = e' /\ tr_csr tr = c' /\ tr_z tr = Q2R (e_length e) /\
    Forall2 (fun j ob => exists xr th,
        carried h b g (INR (j + 1) * Q2R l_step * (if bt then -1 else 1)) xr th (st (S j)) (tr_heap tr) ob)
      (filter (fun i => existsb (Nat.eqb i) outs) (seq 0 nt))
      (skipn (if oi then 1 else 0) (tr_out tr)).
Proof.
  intros V T. cbv zeta.
  destruct (track_spec rnd h n0 c e b bt oi tr V T) as
    (ls & nt & outs & st & ini & ks & D & T0 & EV & E1 & E2 & E3 & O & I & F & _).
  assert (ED : dir_of bt = if bt then -1 else 1) by (destruct bt; unfold dir_of; ring).
  rewrite ED in EV, F. exists ls, nt, outs, st. 
  split; [exact D|]. split; [exact T0|]. split; [exact EV|]. split; [exact E1|]. split; [exact E2|].
  split; [exact E3|].
  assert (EK : skipn (if oi then 1 else 0) (tr_out tr) = ks).
  { rewrite O. destruct oi; [destruct I as (cb & -> & _)|subst ini]; reflexivity. }
  rewrite EK. clear - F. unfold js_of in F. revert F. generalize (filter (fun i => existsb (Nat.eqb i) outs) (seq 0 nt)).
  intros l F. induction F as [|j ob l' ks' H F IH]; constructor; [|exact IH]. eexists. eexists. exact H.
Qed.
Print Assumptions C38_csr.

(** To first order without CSR the number of outputs does not change the end: the particles
    are taken through the map of the whole element. *)
Theorem C38_end h n0 c e b oi tr : valid h b -> (0 < e_length e)%Q -> e_csr_on e = false ->
  e_order e <> 2%nat -> 1 < reference_energy h b e -> e_n_out e <> None \/ oi = false ->
  track noround h n0 c e b false oi = Some tr ->
  let g := reference_energy h b e in let L := Q2R (e_length e) in
  carried h b g L (ref_x (x_ref b) (theta_ref b) (e_theta e) L L)
    (ref_theta (theta_ref b) (e_theta e) L L)
    (map (fun p => piece e g L (enter (x_ref b) (theta_ref b) g p)) (particles h b))
    (tr_heap tr) (tr_bunch tr).
Proof. exact (end_spec h n0 c e b oi tr). Qed.
Print Assumptions C38_end.

(** No outputs requested: none returned, none written, and the bunch is at the end. *)
Theorem C38_none rnd h n0 c e b bt tr : valid h b -> (0 < e_length e)%Q -> e_n_out e = None ->
  track rnd h n0 c e b bt false = Some tr ->
  let g := reference_energy h b e in let L := Q2R (e_length e) in
  tr_out tr = [] /\ tr_writes tr = [] /\
  exists m, length m = length (particles h b) /\
    carried h b g L (ref_x (x_ref b) (theta_ref b) (e_theta e) L L)
      (ref_theta (theta_ref b) (e_theta e) L L) m (tr_heap tr) (tr_bunch tr) /\
    (e_csr_on e = false -> m = map (fun p => piece e g L (enter (x_ref b) (theta_ref b) g p)) (particles h b)).
Proof. exact (none_spec rnd h n0 c e b bt tr). Qed.
Print Assumptions C38_none.

(** Finding: with the initial copy requested and no number of outputs, the bunch has not moved
    after tracking, whatever the element. *)
Theorem C38_initial_refuted rnd h n0 c e b bt tr : valid h b -> e_n_out e = None ->
  track rnd h n0 c e b bt true = Some tr ->
  exists cb, tr_out tr = [cb] /\ same_place h b (tr_heap tr) cb /\ same_place h b (tr_heap tr) (tr_bunch tr).
Proof. exact (initial_spec rnd h n0 c e b bt tr). Qed.
Print Assumptions C38_initial_refuted.

(** The arrays that existed before are not written, the outputs and the bunch have coordinate
    arrays of their own, and they are all well formed; the bunch keeps its other attributes. *)
Theorem C38_independent rnd h n0 c e b bt oi tr : valid h b ->
  track rnd h n0 c e b bt oi = Some tr ->
  (forall a, (a < length h)%nat -> rd (tr_heap tr) a = rd h a) /\
  NoDup (flat_map coords (tr_out tr ++ [tr_bunch tr])) /\
  (forall a, In a (flat_map coords (tr_out tr ++ [tr_bunch tr])) ->
     (length h <= a < length (tr_heap tr))%nat) /\
  (forall ob, In ob (tr_out tr ++ [tr_bunch tr]) -> valid (tr_heap tr) ob) /\
  kept b (tr_bunch tr).
Proof.
  intros V T.
  destruct (track_spec rnd h n0 c e b bt oi tr V T) as
    (ls & nt & outs & st & ini & ks & _ & _ & _ & _ & _ & _ & _ & _ & _ & _ & K & _ & G & ND & A & _ & VA).
  split; [|split; [exact ND|split; [exact A|split; [exact VA|exact K]]]].
  intros a Ha. apply grows_rd; assumption.
Qed.
Print Assumptions C38_independent.

(** When tracking works. *)
Theorem C38_defined :
  (forall rnd h n0 c e b bt oi, e_csr_on e = false ->
    ((exists tr, track rnd h n0 c e b bt oi = Some tr) <->
     (~ (e_length e == 0)%Q /\ e_n_out e <> Some 0%nat /\
      (e_gamma_ref e = None -> sum (rd h (b_w b)) <> 0)))) /\
  (forall h n0 c e b oi, ready c e -> accepts h b e ->
     exists tr, track noround h n0 c e b false oi = Some tr).
Proof. split; [exact track_off|exact track_ready]. Qed.
Print Assumptions C38_defined.

(** The kinds of element differ in the strengths that the others set to zero. *)
Theorem C38_kinds id L g csr n order :
  (forall th, e_theta (dipole id L th g csr n order) = th /\ e_k1 (dipole id L th g csr n order) = 0 /\
     e_k2 (dipole id L th g csr n order) = 0) /\
  (forall k, e_theta (quadrupole id L k g csr n order) = 0 /\ e_k1 (quadrupole id L k g csr n order) = k /\
     e_k2 (quadrupole id L k g csr n order) = 0) /\
  (forall k, e_theta (sextupole id L k g csr n order) = 0 /\ e_k1 (sextupole id L k g csr n order) = 0 /\
     e_k2 (sextupole id L k g csr n order) = k) /\
  drift id L g csr n order = dipole id L 0 g csr n order /\
  drift id L g csr n order = quadrupole id L 0 g csr n order /\
  drift id L g csr n order = sextupole id L 0 g csr n order.
Proof. repeat split. Qed.
Print Assumptions C38_kinds.

(** The hypotheses are met. *)
Example C38_example : exists h b e tr, valid h b /\ particles h b = [slow] /\ e_n_out e = Some 2%nat /\
  e_theta e = 1 /\ (0 < e_length e)%Q /\ ready csr0 e /\ 1 < reference_energy h b e /\
  track noround h 0 csr0 e b false true = Some tr /\ length (tr_out tr) = 3%nat.
Proof.
  set (h := arrays slow 1). set (b := one_bunch 0).
  set (e := dipole 0 1 1 None false (Some 2%nat) 1).
  pose proof (one_valid [] slow 1 []) as V. cbn [app length] in V. rewrite app_nil_r in V. fold h b in V.
  pose proof (one_particles [] slow 1 []) as [P W]. cbn [app length] in P, W. rewrite app_nil_r in P, W. fold h b in P, W.
  assert (A : accepts h b e).
  { split; [reflexivity|]. split; [discriminate|]. intros _. rewrite W. cbn. lra. }
  assert (RD : ready csr0 e) by (left; reflexivity).
  destruct (track_ready h 0 csr0 e b true RD A) as [tr T].
  exists h, b, e, tr. split; [exact V|]. split; [exact P|]. split; [reflexivity|]. split; [reflexivity|].
  split; [reflexivity|]. split; [exact RD|]. split.
  { unfold reference_energy. cbn [e e_gamma_ref dipole tm_element]. rewrite P, W. cbn [map map2 sum fold_right].
    rewrite (proj1 energies). lra. }
  split; [exact T|]. exact (proj1 (outputs_spec h 0 csr0 e b true tr 2 V eq_refl eq_refl RD T)).
Qed.
(** So are those for elements with CSR after a bend in the same lattice. *)
Example C38_ready : ready (run noround [Add (dipole 1 1 1 (Some 2) true None 1)])
  (drift 2 1 (Some 2) true (Some 3%nat) 1).
Proof.
  right. exists [Add (dipole 1 1 1 (Some 2) true None 1)]. split; [reflexivity|]. split.
  { constructor; [|constructor]. split; [reflexivity|discriminate]. }
  split; [intros [F|[]]; discriminate|]. intros a [<-|[]]. discriminate.
Qed.

(** ** C39: reuse *)
(** With an explicit reference energy and CSR off, the outcome depends neither on the state of
    the CSR calculator nor on earlier uses: tracking leaves the element as it was. *)
Theorem C39_history_partial rnd h n0 c c' e b bt oi g : e_csr_on e = false -> e_gamma_ref e = Some g ->
  option_map forget (track rnd h n0 c e b bt oi) = option_map forget (track rnd h n0 c' e b bt oi) /\
  forall tr, track rnd h n0 c e b bt oi = Some tr -> tr_elem tr = e /\ tr_csr tr = clear c.
Proof. exact (track_history rnd h n0 c c' e b bt oi g). Qed.
Print Assumptions C39_history_partial.

(** Otherwise the element keeps the mean energy of the first bunch and uses it for all others. *)
Theorem C39_kept_energy rnd h n0 c e b bt oi tr : valid h b ->
  track rnd h n0 c e b bt oi = Some tr ->
  e_gamma_ref (tr_elem tr) = Some (reference_energy h b e) /\
  forall h' b', reference_energy h' b' (tr_elem tr) = reference_energy h b e.
Proof.
  intros V T.
  destruct (track_spec rnd h n0 c e b bt oi tr V T) as
    (ls & nt & outs & st & ini & ks & _ & _ & _ & E & _).
  rewrite E. split; reflexivity.
Qed.
Print Assumptions C39_kept_energy.

(** So a drift that has been used with another bunch moves the particles differently. *)
Theorem C39_refuted : exists h b1 b2 e tr1 tr2 tr3,
  valid h b1 /\ valid h b2 /\ (forall a, In a (footprint b1) -> ~ In a (footprint b2)) /\
  e_csr_on e = false /\
  track noround h 0 csr0 e b1 false false = Some tr1 /\
  track noround (tr_heap tr1) 0 (tr_csr tr1) e b2 false false = Some tr2 /\
  track noround (tr_heap tr1) 0 (tr_csr tr1) (tr_elem tr1) b2 false false = Some tr3 /\
  map xi (particles (tr_heap tr2) (tr_bunch tr2)) <> map xi (particles (tr_heap tr3) (tr_bunch tr3)).
Proof. exact reuse_refuted. Qed.
Print Assumptions C39_refuted.

(** ** C74: the reference trajectory *)
(** It has the slope of its angle, pieces of it join, only the curvature matters, and it is the
    trajectory that the CSR calculation uses. *)
Theorem C74_trajectory x0 th0 th L : L <> 0 ->
  (forall d, is_derive (fun d => ref_x x0 th0 th L d) d (sin (ref_theta th0 th L d))) /\
  (forall d, is_derive (fun d => ref_theta th0 th L d) d (th / L)) /\
  ref_x x0 th0 th L 0 = x0 /\ ref_theta th0 th L 0 = th0 /\
  (forall d1 d2, ref_theta (ref_theta th0 th L d1) th L d2 = ref_theta th0 th L (d1 + d2) /\
    ref_x (ref_x x0 th0 th L d1) (ref_theta th0 th L d1) th L d2 = ref_x x0 th0 th L (d1 + d2)) /\
  (forall th' L' d, L' <> 0 -> th' / L' = th / L ->
    ref_theta th0 th' L' d = ref_theta th0 th L d /\ ref_x x0 th0 th' L' d = ref_x x0 th0 th L d) /\
  (forall p d, t_x p = x0 -> t_ex p = sin th0 -> t_ez p = cos th0 ->
    t_x (arc_point p L th d) = ref_x x0 th0 th L d /\
    t_ex (arc_point p L th d) = sin (ref_theta th0 th L d) /\
    t_ez (arc_point p L th d) = cos (ref_theta th0 th L d)).
Proof.
  intros HL. split; [intros d; apply ref_derive; exact HL|].
  split; [intros d; unfold ref_theta; auto_derive; [exact I|field; exact HL]|].
  assert (T0 : ref_theta th0 th L 0 = th0) by (unfold ref_theta; field; exact HL).
  split; [unfold ref_x; rewrite T0; destruct (Req_EM_T th 0); ring|].
  split; [exact T0|]. split; [intros d1 d2; apply ref_add; exact HL|].
  split; [intros; apply ref_scale; assumption|]. intros; apply ref_arc; assumption.
Qed.
Print Assumptions C74_trajectory.

(** The reference particle follows it: it has the coordinates 0, which every map keeps. *)
Theorem C74_reference_particle xr th g e l xr' th' : 1 < g ->
  leave xr' th' g (piece e g l (enter xr th g (on_reference xr th g))) = on_reference xr' th' g.
Proof. intros Hg. rewrite enter_reference, piece_zero by exact Hg. apply leave_reference. exact Hg. Qed.
Print Assumptions C74_reference_particle.

(** Changing to the relative coordinates and back changes nothing, for particles that move
    forwards along the reference trajectory. *)
Theorem C74_coordinates xr th g : 1 < g ->
  (forall p, 0 <= cos th * pz p + sin th * px p -> leave xr th g (enter xr th g p) = p) /\
  (forall v, length v = 6%nat -> physical g v -> enter xr th g (leave xr th g v) = v).
Proof.
  intros Hg. split; [intros p; apply leave_enter; exact Hg|].
  intros v Hv [H1 H2]. apply enter_leave; assumption.
Qed.
Print Assumptions C74_coordinates.

(** Splitting: to first order, without CSR, tracking through two elements with the same
    strengths gives the bunch that tracking through one of their total length gives. *)
Theorem C74_split h n0 n1 n2 c c1 c2 e1 e2 e b g tr1 tr2 tr :
  valid h b -> (0 < e_length e1)%Q -> (0 < e_length e2)%Q ->
  (e_length e == e_length e1 + e_length e2)%Q ->
  e_csr_on e1 = false -> e_csr_on e2 = false -> e_csr_on e = false ->
  e_order e1 = e_order e -> e_order e2 = e_order e -> e_order e <> 2%nat ->
  e_k1 e1 = e_k1 e -> e_k1 e2 = e_k1 e ->
  e_theta e1 / Q2R (e_length e1) = e_theta e / Q2R (e_length e) ->
  e_theta e2 / Q2R (e_length e2) = e_theta e / Q2R (e_length e) ->
  1 < g -> e_gamma_ref e1 = Some g -> e_gamma_ref e2 = Some g -> e_gamma_ref e = Some g ->
  track noround h n0 c e1 b false false = Some tr1 ->
  track noround (tr_heap tr1) n1 c1 e2 (tr_bunch tr1) false false = Some tr2 ->
  track noround h n2 c2 e b false false = Some tr ->
  (forall p, In p (particles h b) ->
     physical g (piece e1 g (Q2R (e_length e1)) (enter (x_ref b) (theta_ref b) g p))) ->
  particles (tr_heap tr2) (tr_bunch tr2) = particles (tr_heap tr) (tr_bunch tr) /\
  prop_distance (tr_bunch tr2) = prop_distance (tr_bunch tr) /\
  x_ref (tr_bunch tr2) = x_ref (tr_bunch tr) /\ theta_ref (tr_bunch tr2) = theta_ref (tr_bunch tr).
Proof. exact (split_spec h n0 n1 n2 c c1 c2 e1 e2 e b g tr1 tr2 tr). Qed.
Print Assumptions C74_split.

(** A drift. *)
Theorem C74_drift id L go csr n g l x px y py t d : 1 < g ->
  piece (drift id L go csr n 1) g l [x; px; y; py; t; d] =
  [x + l * px; px; y + l * py; py; t - l / (rel_beta g ^ 2 * g ^ 2) * d; d].
Proof. exact (drift_piece id L go csr n g l x px y py t d). Qed.
Print Assumptions C74_drift.
Example C74_physical : physical 2 [1; 0; 0; 0; 0; 0] /\
  physical 2 (piece (drift 0 1 None false None 1) 2 1 [1; 0; 0; 0; 0; 0]).
Proof. rewrite drift_piece by lra. unfold physical. cbn [nth]. split; split; lra. Qed.

(** ** C75: backwards *)
(** Tracking backwards moves the reference along the trajectory by the negative distance, and
    mirrors its displacement in bends; the particles go through the same maps as forwards. *)
Theorem C75_backward h n0 c e b oi tr n : valid h b -> (0 < e_length e)%Q -> e_n_out e = Some n ->
  e_csr_on e = false -> track noround h n0 c e b true oi = Some tr ->
  let g := reference_energy h b e in let L := Q2R (e_length e) in
  let sh := if oi then 1%nat else 0%nat in
  forall k, (k < n)%nat ->
    let d := INR (k + 1) * (L / INR n) in
    exists xr, (e_theta e <> 0 -> xr = 2 * x_ref b - ref_x (x_ref b) (theta_ref b) (e_theta e) L (- d)) /\
      (e_theta e = 0 -> xr = ref_x (x_ref b) (theta_ref b) (e_theta e) L (- d)) /\
      carried h b g (- d) xr (ref_theta (theta_ref b) (e_theta e) L (- d))
        (map (fun p => iter (k + 1) (piece e g (L / INR n)) (enter (x_ref b) (theta_ref b) g p))
          (particles h b)) (tr_heap tr) (nth (k + sh) (tr_out tr) b).
Proof. exact (back_spec h n0 c e b oi tr n). Qed.
Print Assumptions C75_backward.

(** So tracking forwards and then backwards does not bring the particles back: in a drift they
    go on, although the bunch is said to be where it was. *)
Theorem C75_refuted : exists h b e tr1 tr2, valid h b /\ e_csr_on e = false /\
  track noround h 0 csr0 e b false false = Some tr1 /\
  track noround (tr_heap tr1) 0 csr0 e (tr_bunch tr1) true false = Some tr2 /\
  prop_distance (tr_bunch tr2) = prop_distance b /\
  map x (particles (tr_heap tr2) (tr_bunch tr2)) <> map x (particles h b).
Proof. exact back_refuted. Qed.
Print Assumptions C75_refuted.
