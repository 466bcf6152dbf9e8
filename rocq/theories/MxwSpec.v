(** Vocabulary of the properties of the equilibria (C95 - C98): integrals over unbounded velocities. *)
From Coquelicot Require Import Coquelicot.
From Verif Require Import Lib.
Open Scope R_scope.

(** f is integrable on every bounded interval, and the integrals over [a, b] tend to l when a -> -oo and b -> +oo *)
Definition whole_line (f : R -> R) (l : R) : Prop :=
  (forall a b, ex_RInt f a b) /\ forall eps, 0 < eps -> exists M, forall a b, a <= - M -> M <= b -> Rabs (RInt f a b - l) < eps.
(** the same over [0, +oo) *)
Definition half_line (f : R -> R) (l : R) : Prop :=
  (forall a b, ex_RInt f a b) /\ forall eps, 0 < eps -> exists M, forall b, M <= b -> Rabs (RInt f 0 b - l) < eps.
(** iterated integrals over the plane, in the order dy dx, and over vpar in R, mu >= 0 *)
Definition whole_plane (f : R -> R -> R) (l : R) : Prop := exists g, (forall x, whole_line (f x) (g x)) /\ whole_line g l.
Definition velocity_space (f : R -> R -> R) (l : R) : Prop := exists g, (forall v, half_line (f v) (g v)) /\ whole_line g l.
(** the k-th central moment of the normal distribution of variance T: 1, 0, T, 0, 3 T^2, 0, 15 T^3, ... *)
Fixpoint normal_moment (T : R) (k : nat) : R :=
  match k with O => 1 | S O => 0 | S (S j) => T * INR (S j) * normal_moment T j end.
