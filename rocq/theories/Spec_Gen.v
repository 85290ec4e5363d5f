(** What C50, C51, C54, C83 and C84 say about bunches, independently of the code. *)
From Coq Require Import Reals ZArith String List.
Import ListNotations.
From Verif Require Import Model_Gen.
Open Scope R_scope.

(** Total charge (C) of a bunch: number of real particles times their charge. *)
Definition total_charge (b : made) : R := b_q b * fold_right Rplus 0 (b_w b).
(** -1, 0 or 1 *)
Definition sign_of (x : R) : R := if Rlt_dec x 0 then -1 else if Rlt_dec 0 x then 1 else 0.

(** Mean of numbers, of products, and weighted mean. *)
Definition mean (l : list R) : R := fold_right Rplus 0 l / INR (length l).
Fixpoint products (a b : list R) : list R :=
  match a, b with x :: a', y :: b' => x * y :: products a' b' | _, _ => [] end.
Definition mean2 (a b : list R) : R := mean (products a b).
Definition covariance (a b : list R) : R := mean2 a b - mean a * mean b.
Definition weighted_mean (x w : list R) : R := fold_right Rplus 0 (products x w) / fold_right Rplus 0 w.

(** Slopes of the particles with respect to the axis of the bunch: [p0] is the mean transverse
    momentum. *)
Fixpoint slopes_of (p0 : R) (p pz : list R) : list R :=
  match p, pz with a :: p', b :: pz' => (a - p0) / b :: slopes_of p0 p' pz' | _, _ => [] end.

(** The six lists of random numbers in the order in which they are drawn: one plane, the other,
    positions, momenta. *)
Record draws := mkdraws { r_ux : list R; r_vx : list R; r_uy : list R; r_vy : list R; r_t : list R;
  r_z : list R }.
Definition drawn {rng} (normal trunc : nat -> rng -> list R * rng) (n : nat) (s : rng) (d : draws) (s' : rng) :=
  exists s1 s2 s3 s4 s5, normal n s = (r_ux d, s1) /\ normal n s1 = (r_vx d, s2) /\
    normal n s2 = (r_uy d, s3) /\ normal n s3 = (r_vy d, s4) /\ trunc n s4 = (r_t d, s5) /\
    normal n s5 = (r_z d, s').
(** A generator that returns as many numbers as asked for. *)
Definition gives {rng} (f : nat -> rng -> list R * rng) := forall n s, length (fst (f n s)) = n.
(** Numbers with mean 0, variance 1 and no correlation. *)
Definition standard (u v : list R) := mean u = 0 /\ mean v = 0 /\ mean2 u u = 1 /\ mean2 v v = 1 /\ mean2 u v = 0.

(** What a user asks for: emittances and energy positive, spreads and number not negative, a charged
    species. *)
Record sensible (P : params) := { s_enx : 0 < g_enx P; s_eny : 0 < g_eny P; s_ene : 0 < g_ene P;
  s_sp : 0 <= g_enesp P; s_st : 0 <= g_st P; s_n : (1 <= int_of (g_npart P))%Z; s_q : g_q P <> 0 }.

(** Value of a key of a dictionary *)
Fixpoint lookup {A} (k : string) (d : list (string * A)) : option A :=
  match d with [] => None | (k', v) :: d' => if String.eqb k k' then Some v else lookup k d' end.

(** A library that stores what it is given, and a file with only this species. *)
Definition faithful {path disk} (save : distribution -> path -> string -> option string -> disk -> outcome disk)
    (read : path -> string -> option string -> disk -> outcome distribution) (species : path -> disk -> list string) :=
  forall D p f s d d', save D p f s d = Done d' ->
    read p f s d' = Done D /\ (forall sp, s = Some sp -> species p d' = [sp]).

(** A bunch with the number of particles, equal weights, species, name and charge asked for
    ([g_qtot] in pC; its sign is ignored, the charge has that of the species). *)
Definition carries (P : params) (b : made) : Prop :=
  length (b_w b) = Z.to_nat (int_of (g_npart P)) /\
  (exists w, 0 <= w /\ List.Forall (eq w) (b_w b)) /\
  b_q b = g_q P /\ b_m b = g_m P /\ b_name b = g_name P /\
  total_charge b = sign_of (g_q P) * Rabs (g_qtot P) * 1e-12.
(** Twiss parameters and geometric emittance [em] of positions and slopes. *)
Definition has_twiss (x xp : list R) (em a b : R) : Prop :=
  covariance x x = em * b /\ covariance x xp = - (em * a) /\ covariance xp xp = em * ((1 + a ^ 2) / b).
(** The particles of one plane: position and slope from the axis of the bunch obey
    x = sqrt (em b) u and b x' + a x = sqrt (em b) v. *)
Definition made_of (em a b off p0 : R) (x p pz u v : list R) (i : nat) : Prop :=
  let x_i := nth i x 0 - off in
  let xp_i := (nth i p 0 - p0) / nth i pz 0 in
  x_i = sqrt (em * b) * nth i u 0 /\ b * xp_i + a * x_i = sqrt (em * b) * nth i v 0.

(** Particles after a phase advance [ph] in a linear focusing field with matched beta function [b]:
    x'' = - x / b^2. *)
Fixpoint rotate (b ph : R) (x xp : list R) : list R * list R :=
  match x, xp with
  | u :: x', v :: xp' => let (l, m) := rotate b ph x' xp' in
      (cos ph * u + b * sin ph * v :: l, - (sin ph / b) * u + cos ph * v :: m)
  | _, _ => ([], [])
  end.
