(** Model of the equilibria and of the initial states of geometryXYVxVy and geometryVparMu at one point of the grid:
    src/geometryXYVxVy/initialisation/maxwellianequilibrium.cpp ("mxy"), singlemodeperturbinitialisation.cpp ("sxy"),
    src/geometryVparMu/initialisation/maxwellianequilibrium.cpp ("mvm"), noperturbinitialisation.cpp ("npi").
    The equilibria of geometryXVx, the kinetic source and the collisions are in XVxModel.  Exact real arithmetic. *)
From Verif Require Import Lib.
Open Scope R_scope.

(** mxy 73-96: compute_maxwellian *)
Definition maxwellian_xy (density temperature mean_velocity vx vy : R) : R :=
  let inv_2pi := 1 / (2 * PI * temperature) in
  density * inv_2pi * exp (- ((vx - mean_velocity) * (vx - mean_velocity) + (vy - mean_velocity) * (vy - mean_velocity)) / (2 * temperature)).
(** sxy 83-107: perturbation_initialisation; Lx, Ly: the lengths of the domain *)
Definition perturbation_xy (mode : Z) (amplitude Lx Ly x y : R) : R :=
  let kx := IZR mode * 2 * PI / Lx in
  let ky := IZR mode * 2 * PI / Ly in
  amplitude * (cos (kx * x) + cos (ky * y)).
(** sxy 44-55: the distribution function *)
Definition perturbed_xy (feq pert : R) : R :=
  let val := feq * (1 + pert) in
  if Rlt_dec val (/ 10 ^ 60) then / 10 ^ 60 else val.
(** mvm 74-103: compute_maxwellian *)
Definition maxwellian_vm (mass density temperature mean_velocity magnetic_field vpar mu : R) : R :=
  let mass_on_2piT := mass / (2 * PI * temperature) in
  let coeff_maxw := sqrt mass_on_2piT * mass_on_2piT in
  let energy := (0.5 * (vpar - mean_velocity) * (vpar - mean_velocity) + mu * magnetic_field) / temperature in
  coeff_maxw * density * exp (- energy).
(** npi 24-30 *)
Definition no_perturbation (feq : R) : R := if Rlt_dec feq (/ 10 ^ 60) then / 10 ^ 60 else feq.
