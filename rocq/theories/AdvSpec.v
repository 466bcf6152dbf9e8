(** Specification vocabulary for the one dimensional semi-Lagrangian advections. *)
From Verif Require Export AdvModel.
Open Scope R_scope.

(** the function which interpolates the values of a line (no derivatives given) *)
Definition interpolant {C} (itp : interpolator C) (n : nat) (f : nat -> R) (y : R) : R :=
  i_eval itp (i_build itp None None (line n f)) y.
(** the interpolant takes the values of the line at the grid points *)
Definition interpolates {C} (itp : interpolator C) (n : nat) (x : nat -> R) : Prop :=
  forall f i, (i < n)%nat -> interpolant itp n f (x i) = f i.
(** the interpolant of the values of [g] at the grid points is [g] at [y] *)
Definition exact_at {C} (itp : interpolator C) (n : nat) (x : nat -> R) (g : R -> R) (y : R) : Prop :=
  interpolant itp n (fun i => g (x i)) y = g y.
(** the interpolant depends linearly on the values *)
Definition linear_interpolator {C} (itp : interpolator C) (n : nat) : Prop :=
  forall a b f g y, interpolant itp n (fun i => a * f i + b * g i) y =
    a * interpolant itp n f y + b * interpolant itp n g y.
(** every line of the batch is visited *)
Definition all_lines (nb : nat) (order : list nat) : Prop := forall ib, In ib order <-> (ib < nb)%nat.
Definition all_points (nb n : nat) (order : list (nat * nat)) : Prop :=
  forall ib ix, In (ib, ix) order <-> (ib < nb)%nat /\ (ix < n)%nat.
(** displacement during dt of a species: v dt sqrt(m_e / m_s) and q E dt sqrt(m_e / m_s) *)
Definition spatial_displacement (mass : nat -> R) (ielec isp : nat) (v dt : R) : R :=
  v * dt * sqrt (mass ielec / mass isp).
Definition velocity_displacement (mass charge : nat -> R) (ielec isp : nat) (E dt : R) : R :=
  charge isp * E * dt * sqrt (mass ielec / mass isp).
