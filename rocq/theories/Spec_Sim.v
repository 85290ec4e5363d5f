(** Vocabulary for the properties of whole simulations. *)
From Coq Require Import QArith Reals Qreals String List.
From Coquelicot Require Import Coquelicot.
From Verif Require Model_RZ.
From Verif Require Import Model_Push Model_Interp Model_Bunch Spec_Bunch Model_Tracker Model_Run Model_Sim.
Import ListNotations.
Open Scope R_scope.

(** ** Rotations about the axis and reflections *)
(** Linear map of the (x, y) plane: rows of the matrix. *)
Record plane := mkpl { m11 : R; m12 : R; m21 : R; m22 : R }.
Definition orthogonal (M : plane) : Prop :=
  m11 M ^ 2 + m21 M ^ 2 = 1 /\ m12 M ^ 2 + m22 M ^ 2 = 1 /\ m11 M * m12 M + m21 M * m22 M = 0.
Definition rotation (angle : R) : plane := mkpl (cos angle) (- sin angle) (sin angle) (cos angle).
Definition reflection : plane := mkpl 1 0 0 (-1).
Definition det (M : plane) : R := m11 M * m22 M - m12 M * m21 M.
Definition turn_pos (M : plane) (p : pos) : pos :=
  let '(x, y, xi) := p in (m11 M * x + m12 M * y, m21 M * x + m22 M * y, xi).
(** Position and momentum are turned. *)
Definition turn (M : plane) (p : part) : part :=
  mkp (m11 M * x p + m12 M * y p) (m21 M * x p + m22 M * y p) (xi p)
      (m11 M * px p + m12 M * py p) (m21 M * px p + m22 M * py p) (pz p).
(** The electric field turns like a vector, the magnetic field like a pseudovector. *)
Definition turn_em (M : plane) (f : em) : em :=
  mke (m11 M * ex f + m12 M * ey f) (m21 M * ex f + m22 M * ey f) (ez f)
      (det M * (m11 M * bx f + m12 M * by_ f)) (det M * (m21 M * bx f + m22 M * by_ f))
      (det M * bz f).
(** The field looks the same after a rotation or reflection. *)
Definition axisymmetric (f : field) : Prop := forall M ps t b, orthogonal M ->
  length ps = length b ->
  f (map (turn_pos M) ps) t (map (turn_em M) b) = map (turn_em M) (f ps t b).

(** All fields of an element: those on a grid always are, the others by assumption. *)
Definition symmetric_fields (fields : list efield) : Prop :=
  forall c, In (Analytic c) fields -> axisymmetric (analytical c).

(** ** Comparing bunches *)
(** Bunch as the constructor or a push leaves it. *)
Definition sound (hb : tracked) : Prop :=
  valid (fst hb) (snd hb) /\ fits (fst hb) (snd hb).
Definition parts (hb : tracked) : list part := particles (fst hb) (snd hb).
Definition weights (hb : tracked) : list R := rd (fst hb) (b_w (snd hb)).
(** Everything but particles and weights. *)
Definition same_attributes (b b' : bunch) : Prop :=
  b_tags b = b_tags b' /\ prop_distance b = prop_distance b' /\ t_flight b = t_flight b' /\
  z_injection b = z_injection b' /\ x_ref b = x_ref b' /\ theta_ref b = theta_ref b' /\
  b_name b = b_name b' /\ q_species b = q_species b' /\ m_species b = m_species b'.

(** The second bunch is the first one, turned. *)
Definition turned (M : plane) (hb hb' : tracked) : Prop :=
  sound hb /\ sound hb' /\ same_attributes (snd hb) (snd hb') /\
  parts hb' = map (turn M) (parts hb) /\ weights hb' = weights hb.

(** Sum over the macroparticles of a function of the coordinates, times the weight. *)
Definition weighted (l : list part) (w : list R) (g : part -> R) : R :=
  fold_right Rplus 0 (map2 (fun p v => v * g p) l w).
(** Two bunches of macroparticles that represent the same distribution: they occupy the same
    points of phase space, and all weighted sums are equal. *)
Definition same_distribution (hb hb' : tracked) : Prop :=
  sound hb /\ sound hb' /\ same_attributes (snd hb) (snd hb') /\
  (forall p, In p (parts hb) <-> In p (parts hb')) /\
  (forall g, weighted (parts hb) (weights hb) g = weighted (parts hb') (weights hb') g).

(** ** Fields and bunches in a run *)
(** The fields as an analytical one: what is gathered from them where that does not fail. *)
Definition frozen (fields : list efield) : field := fun ps t b =>
  match gather_all fields ps t b with Ok v => v | Fault _ => b end.
(** One field alone, at given positions. *)
Definition alone (e : efield) (ps : list pos) (t : R) : result (list em) :=
  let nothing := map (fun _ => em0) ps in
  match e with
  | Wake _ _ o => w_gather (Model_RZ.as_rz o) ps nothing
  | Analytic c => Ok (analytical c ps t nothing)
  end.
Definition em_add (f g : em) : em :=
  mke (ex f + ex g) (ey f + ey g) (ez f + ez g) (bx f + bx g) (by_ f + by_ g) (bz f + bz g).
(** An analytical field that adds to what is in the arrays. *)
Definition additive (c : components) : Prop := forall p t v,
  c_ex c p t v = v + c_ex c p t 0 /\ c_ey c p t v = v + c_ey c p t 0 /\ c_ez c p t v = v + c_ez c p t 0 /\
  c_bx c p t v = v + c_bx c p t 0 /\ c_by c p t v = v + c_by c p t 0 /\ c_bz c p t v = v + c_bz c p t 0.
(** Number of fields on a grid among the first [i]. *)
Definition wakes_before (i : nat) (fields : list efield) : nat :=
  length (filter (fun f => match f with Wake _ _ _ => true | Analytic _ => false end) (firstn i fields)).
(** Position and charge of the macroparticles. *)
Definition carried (hb : tracked) : list (pos * R) :=
  combine (map (fun p => (x p, y p, xi p)) (parts hb)) (map (fun w => w * q_species (snd hb)) (weights hb)).
(** A bunch as the constructor or a push leaves it; with an injection position it needs at least one
    particle. *)
Definition trackable (hb : tracked) : Prop :=
  sound hb /\ (z_injection (snd hb) = None \/ parts hb <> []).

(** ** Comparing runs *)
(** Both fail or neither. *)
Definition both {A B} (r : A -> B -> Prop) (a : option A) (b : option B) : Prop :=
  match a, b with Some u, Some v => r u v | None, None => True | _, _ => False end.
(** The same thing happened at the same time. *)
Definition same_event {B B'} (r : B -> B' -> Prop) (e : event B) (e' : event B') : Prop :=
  match e, e' with
  | EPush i t dt sync, EPush i' t' dt' sync' => i = i' /\ t = t' /\ dt = dt' /\ sync = sync'
  | EField j t, EField j' t' => j = j' /\ t = t'
  | EDiag t l, EDiag t' l' => t = t' /\ Forall2 r l l'
  | _, _ => False
  end.
(** Two states with the same clocks and events, with bunches and outputs related by [r] and fields
    related by [rf]. *)
Definition same_state {B B' F F'} (rf : F -> F' -> Prop) (r : B -> B' -> Prop)
    (s : state B F) (s' : state B' F') : Prop :=
  Forall2 r (bs s) (bs s') /\ rf (fs s) (fs s') /\ tobj s = tobj s' /\ dtobj s = dtobj s' /\
  Forall2 (Forall2 r) (out s) (out s') /\ Forall2 (same_event r) (log s) (log s').
(** The same outcome (end, exception, or not yet finished) in such states. *)
Definition same_run {B B' F F'} (rf : F -> F' -> Prop) (r : B -> B' -> Prop)
    (o : Model_Tracker.outcome B F) (o' : Model_Tracker.outcome B' F') : Prop :=
  match o, o' with
  | Continue s, Continue s' => same_state rf r s s'
  | Model_Tracker.Done s, Model_Tracker.Done s' => same_state rf r s s'
  | Model_Tracker.Raise e s, Model_Tracker.Raise e' s' => e = e' /\ same_state rf r s s'
  | _, _ => False
  end.
