(** Model of the module-level CSR calculator: the functions at the end of
    wake_t/physics_models/collective_effects/csr.py and its use on entering a transfer-map element
    (wake_t/beamline_elements/tm_elements.py).  There is one calculator for all elements
    (csr.py:426-431 [get_csr_calculator], tm_elements.py:70): its state is threaded through. *)
From Coq Require Import QArith List.
From Verif Require Import Model_CSR.
Import ListNotations.
Open Scope Q_scope.

(** csr.py:434-453 [set_csr_settings]; [None]: omitted argument *)
Definition set_csr_settings (c : csr) (csr_step csr_traj_step : option Q) (n_bins : option nat) : csr :=
  set_settings c
    (match csr_step with Some a => a | None => 1 # 10 end)
    (match csr_traj_step with Some a => a | None => 5 # 10000 end)
    (match n_bins with Some n => n | None => 2000%nat end).
(** csr.py:456-463 [reset_csr_calculator] *)
Definition reset_csr_calculator (c : csr) : csr := clear c.
(** tm_elements.py:115-119: a bunch enters an element *)
Definition enter_element (rnd : Q -> Q) (c : csr) (e : elem) : csr :=
  if e_csr_on e then add_lattice_element rnd c e else clear c.
