(** What a user expects from the laser profiles of the code when they are evaluated at
    different positions: energy, diffraction and far field. *)
From Coq Require Import Reals.
From Coquelicot Require Import Coquelicot.
From Verif Require Import Model_Laser.
Open Scope R_scope.

(** [I] is the integral of |a|^2 r dr over the transverse plane (up to constants, the energy of
    a slice of the pulse, in all polarisations). *)
Definition transverse_energy (a : R -> C) (I : R) : Prop :=
  is_RInt_gen (fun r => Cmod (a r) ^ 2 * r) (at_point 0) (Rbar_locally p_infty) I.

(** Derivative of a complex function of a real variable. *)
Definition cderive (f : R -> C) (x : R) (d : C) : Prop :=
  is_derive (fun t => fst (f t)) x (fst d) /\ is_derive (fun t => snd (f t)) x (snd d).
(** Paraxial wave equation in vacuum, wavenumber k:
    d^2 a/dr^2 + (1/r) da/dr + 2 i k da/dz = 0. *)
Definition paraxial (k : R) (a : R -> R -> C) : Prop :=
  exists a_r a_rr a_z : R -> R -> C,
    (forall r z, cderive (fun r => a r z) r (a_r r z)) /\
    (forall r z, cderive (fun r => a_r r z) r (a_rr r z)) /\
    (forall r z, cderive (fun z => a r z) z (a_z r z)) /\
    forall r z, r <> 0 ->
      Cplus (Cplus (a_rr r z) (Cdiv (a_r r z) (RtoC r))) (Cmult (Cmult Ci (RtoC (2 * k))) (a_z r z)) = RtoC 0.

(** Spot size (radius of the lowest mode) at [z] for the waist [w] at [z_foc]. *)
Definition spot_size (w l_0 z_foc z : R) : R := w * sqrt (1 + ((z - z_foc) / (PI * w ^ 2 / l_0)) ^ 2).
(** The flattened Gaussian of order N: exp(-x^2) (1 + x^2 + x^4/2! + ... + x^(2N)/N!). *)
Definition flattened_gaussian (N : nat) (x : R) : R :=
  exp (- x ^ 2) * sum_f_R0 (fun m => (x ^ 2) ^ m / INR (fact m)) N.

(** A pulse created with the library's Gaussian, Laguerre-Gauss or flattened profile and the
    wavelength l_0. *)
Definition library_pulse (l_0 : R) (p : profile) : Prop :=
  exists xi_c n a_0 w_0 tau z_foc cep pol, w_0 <> 0 /\ tau <> 0 /\
    (p = GaussianPulse xi_c a_0 w_0 tau z_foc l_0 cep pol \/
     p = LaguerreGaussPulse xi_c n a_0 w_0 tau z_foc l_0 cep pol \/
     FlattenedGaussianPulse xi_c a_0 w_0 tau n z_foc l_0 cep pol = Some p).
