(** Specification vocabulary for the right-hand sides, moments and initial conditions in (x, v). *)
From Verif Require Export XVxModel QuadSpec.
Open Scope R_scope.

(** velocity integral of a distribution function at one species and position *)
Definition dens (nv : nat) (q : nat -> R) (f : fdist) (isp ix : nat) : R :=
  Rsum nv (fun iv => q iv * f isp ix iv).

(** a mesh on which the length and the trapezoid coefficients are defined *)
Definition valid_mesh (per : bool) (pts : list R) (fr : Z) (n : nat) : Prop :=
  increasing pts /\ (0 <= fr)%Z /\
  if per then (1 <= n)%nat /\ (Z.to_nat fr + n < length pts)%nat
  else (2 <= n)%nat /\ (Z.to_nat fr + n <= length pts)%nat.

(** k-th central moment of a Maxwellian on the velocity grid *)
Definition maxwell_moment (nv : nat) (q v : nat -> R) (n V T : R) (k : nat) : R :=
  Rsum nv (fun i => q i * ((v i - V) ^ k * maxwellian n T V (v i))).

(** the velocity grid integrates the Maxwellian of density n, velocity V and temperature T as the
    whole line does, up to the fourth moment *)
Definition exact_moments (nv : nat) (q v : nat -> R) (n V T : R) : Prop :=
  maxwell_moment nv q v n V T 0 = n /\ maxwell_moment nv q v n V T 1 = 0 /\
  maxwell_moment nv q v n V T 2 = n * T /\ maxwell_moment nv q v n V T 3 = 0 /\
  maxwell_moment nv q v n V T 4 = 3 * n * T * T.

(** the parameters mask_tanh accepts *)
Definition good_parameters (extent stiffness : R) : Prop := 0 < stiffness /\ 0 <= extent <= 1 / 2.

(** two species, the electron (charge -1) at index [e] and an ion of charge qi at the other one *)
Definition two_species (s : species_info) (e : nat) (qi : R) : Prop :=
  (e < 2)%nat /\ ielec s = Z.of_nat e /\ charge s (Z.of_nat e) = Ok (-1) /\
  charge s (Z.of_nat (1 - e)) = Ok qi /\ 0 < qi.
