(** Vocabulary for the properties of particle bunches. *)
From Coq Require Import Reals String List Arith.
From Verif Require Import Model_Push Spec_Push Model_Bunch.
Import ListNotations.
Open Scope R_scope.

(** The arrays a bunch refers to. *)
Definition footprint (b : bunch) : list addr :=
  [b_x b; b_y b; b_xi b; b_px b; b_py b; b_pz b; b_w b].
(** Seven different existing arrays of equal length. *)
Definition valid (h : heap) (b : bunch) : Prop :=
  NoDup (footprint b) /\ (forall a, In a (footprint b) -> (a < length h)%nat) /\
  (forall a, In a (footprint b) -> length (rd h a) = length (rd h (b_x b))).
(** What the bunch contains. *)
Definition contents (h : heap) (b : bunch) : list part * list R :=
  (particles h b, rd h (b_w b)).
(** The scratch arrays, once allocated, have one entry per particle. *)
Definition fits (h : heap) (b : bunch) : Prop :=
  (forall f, b_fld b = Some f -> length f = length (rd h (b_x b))) /\
  (forall c d k, b_rk b = Some (c, d, k) ->
     length c = length (rd h (b_x b)) /\ length d = length (rd h (b_x b)) /\
     length k = length (rd h (b_x b))).

Definition known (pusher : string) : Prop := pusher = "rk4"%string \/ pusher = "boris"%string.

(** The operations of the class that change a bunch.  Arrays and matrix rows
    handed over by the caller are addresses. *)
Inductive op :=
| Evolve (fields : list field) (t dt : R) (pusher : string)
| Reposition (xi_c : R)
| SetQ (q_new : list R)
| SetPhaseSpace (ax ay axi apx apy apz : addr)
| SetFromMatrix (m : nat -> addr)
| SetFromAlternative (m : nat -> addr) (gamma_ref : R)
| SetBunchMatrix (m : nat -> addr)
| IncreaseProp (d : R).
(** The arrays handed over. *)
Definition handed (o : op) : list addr :=
  match o with
  | SetPhaseSpace ax ay axi apx apy apz => [ax; ay; axi; apx; apy; apz]
  | SetFromMatrix m => map m [0; 1; 2; 3; 4; 5]%nat
  | SetFromAlternative m _ => map m [0; 1; 2; 3; 4; 5]%nat
  | SetBunchMatrix m => map m [0; 1; 2; 3; 4; 5; 6]%nat
  | _ => []
  end.
Definition apply_op (s : heap * bunch) (o : op) : heap * bunch :=
  let '(h, b) := s in
  match o with
  | Evolve fields t dt pusher =>
      match evolve h b fields t dt pusher with Done s' => s' | Raise _ s' => s' end
  | Reposition xi_c =>
      match reposition_xi h b xi_c with Done h' => (h', b) | Raise _ h' => (h', b) end
  | SetQ q => set_q h b q
  | SetPhaseSpace ax ay axi apx apy apz => (h, set_phase_space b ax ay axi apx apy apz)
  | SetFromMatrix m => (h, set_phase_space_from_matrix b m)
  | SetFromAlternative m g => set_phase_space_from_alternative_matrix h b m g
  | SetBunchMatrix m => set_bunch_matrix h b m
  | IncreaseProp d => (h, increase_prop_distance b d)
  end.
Definition apply_ops (ops : list op) (s : heap * bunch) : heap * bunch :=
  fold_left apply_op ops s.

(** A sequence of pushes: fields, time, step, pusher. *)
Definition push := (list field * R * R * string)%type.
Fixpoint pushes (h : heap) (b : bunch) (l : list push) : outcome (heap * bunch) :=
  match l with
  | [] => Done (h, b)
  | (fields, t, dt, pusher) :: r =>
      match evolve h b fields t dt pusher with
      | Done (h', b') => pushes h' b' r
      | Raise e s => Raise e s
      end
  end.
Definition dt_of (p : push) : R := snd (fst p).

(** The pushers with fresh scratch arrays. *)
Definition fresh_push (q m : R) (l : list part) (p : push) : list part :=
  let '(fields, t, dt, pusher) := p in
  let z := map (fun _ => mkp 0 0 0 0 0 0) l in
  let f := map (fun _ => em0) l in
  if String.eqb pusher "rk4"
  then fst (apply_rk4_pusher q m fields t dt l (mkrk z z z f))
  else fst (apply_boris_pusher q m fields t dt l f).
