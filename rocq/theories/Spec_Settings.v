(** Vocabulary for the property of the CSR settings. *)
From Coq Require Import QArith List.
From Verif Require Import Model_CSR Model_Settings.
Import ListNotations.
Open Scope Q_scope.

(** What a program does with the calculator. *)
Inductive call :=
| SetSettings (step traj_step : option Q) (bins : option nat)
| Reset
| Track (e : elem).
Definition perform (rnd : Q -> Q) (c : csr) (k : call) : csr :=
  match k with
  | SetSettings a b n => set_csr_settings c a b n
  | Reset => reset_csr_calculator c
  | Track e => enter_element rnd c e
  end.
(** The calculator after these calls, since the import of the package. *)
Definition program (rnd : Q -> Q) (l : list call) : csr := fold_left (perform rnd) l csr0.
(** 0.1 m, 0.5 mm, 2000 bins, unless given. *)
Definition filled_in (a b : option Q) (n : option nat) : Q * Q * nat :=
  (match a with Some x => x | None => 1 # 10 end, match b with Some x => x | None => 5 # 10000 end,
   match n with Some x => x | None => 2000%nat end).
(** The settings of the latest call. *)
Fixpoint in_force (start : Q * Q * nat) (l : list call) : Q * Q * nat :=
  match l with
  | [] => start
  | SetSettings a b n :: r => in_force (filled_in a b n) r
  | _ :: r => in_force start r
  end.
(** Calls that empty the calculator. *)
Definition empties (k : call) : bool :=
  match k with Reset => true | Track e => negb (e_csr_on e) | _ => false end.
Fixpoint entered (l : list call) : list elem :=
  match l with [] => [] | Track e :: r => e :: entered r | _ :: r => entered r end.
