(** Specification of a uniform mesh of doubles. *)
From Flocq Require Import Core IEEE754.BinarySingleNaN.
From Verif Require Export UniMeshModel UniSpec.
Open Scope R_scope.

(** the ends of a mesh and its number of cells: finite, in order, neither denormal nor huge *)
Definition mesh_ends (mn mx : F64) (n : nat) : Prop :=
  is_num mn /\ is_num mx /\ num mn < num mx /\ Rabs (num mn) <= bpow radix2 890 /\ Rabs (num mx) <= bpow radix2 890 /\
  (1 <= Z.of_nat n <= max_cells)%Z /\ bpow radix2 (-890) <= (num mx - num mn) / INR n.
(** the length of a cell is at least 2^-40 times the size of the ends *)
Definition mesh_resolved (mn mx : F64) (n : nat) : Prop :=
  Rabs (num mn) + Rabs (num mx) <= bpow radix2 40 * ((num mx - num mn) / INR n).
(** the points are finite and increasing, the ends are exact, the points are equidistant up to rounding *)
Definition uniform_mesh (mn mx : F64) (n : nat) (l : list F64) : Prop :=
  break_points l /\ length l = (n + 1)%nat /\ nth_error l 0 = Some mn /\ nth_error l n = Some mx /\
  forall i y, nth_error l i = Some y ->
    Rabs (num y - (num mn + INR i * ((num mx - num mn) / INR n))) <= 4 * epsilon * (Rabs (num mn) + Rabs (num mx)).
(** the points are finite, never decrease and stay between the ends, which are exact *)
Definition ordered_mesh (mn mx : F64) (n : nat) (l : list F64) : Prop :=
  Forall is_num l /\ length l = (n + 1)%nat /\ nth_error l 0 = Some mn /\ nth_error l n = Some mx /\
  (forall i y, nth_error l i = Some y -> num mn <= num y <= num mx) /\
  (forall i j y z, (i <= j)%nat -> nth_error l i = Some y -> nth_error l j = Some z -> num y <= num z).
