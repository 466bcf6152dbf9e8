(** Vocabulary of C65 (gyroaverage). *)
From Verif Require Export GyroModel PolarSpec.
Open Scope R_scope.

(** the [k]-th of [n] equally spaced points of the circle of radius [rho] about [c] *)
Definition orbit_point (c : pt) (rho : R) (n k : nat) : pt :=
  (fst c + rho * cos (2 * PI * INR k / INR n), snd c + rho * sin (2 * PI * INR k / INR n)).
(** mean of a function of the physical point over these [n] points *)
Definition orbit_mean (f : pt -> R) (c : pt) (rho : R) (n : nat) : R :=
  Rsum n (fun k => f (orbit_point c rho n k)) / INR n.
(** the physical position of a grid point *)
Definition position (gs : gyro_setup) (ir it : nat) : pt := gs_to_phys gs (gs_r gs ir, gs_t gs it).
(** the function of the physical plane represented by the nodal values [A] *)
Definition reconstruction {C} (ai : interpolator2 C) (gs : gyro_setup) (A : nat -> nat -> R) (x : pt) : R :=
  i2_eval ai (i2_build ai (grid2 (gs_nr gs) (gs_nt gs) A)) (gs_to_log gs x).

(** schedules: every point / ring / batch at least once *)
Definition all_pairs (nr nt : nat) (order : list (nat * nat)) : Prop :=
  forall ir it, In (ir, it) order <-> (ir < nr)%nat /\ (it < nt)%nat.
Definition every (n : nat) (l : list nat) : Prop := forall i, In i l <-> (i < n)%nat.
Definition once (n : nat) (l : list nat) : Prop := NoDup l /\ every n l.

(** second degree polynomial of the plane and its Laplacian *)
Definition quadratic (a b c d e f : R) (x : pt) : R :=
  a + b * fst x + c * snd x + d * fst x * fst x + e * fst x * snd x + f * snd x * snd x.
Definition distance (p q : pt) : R := sqrt ((fst p - fst q) ^ 2 + (snd p - snd q) ^ 2).
