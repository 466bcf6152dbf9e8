(** Specification of the periodic wrapping in floating point, in real arithmetic. *)
From Flocq Require Import Core IEEE754.BinarySingleNaN.
From Verif Require Export FltModel.
Open Scope R_scope.

(** a finite double and the real it denotes *)
Definition is_num (x : F64) : Prop := is_finite x = true.
Definition num (x : F64) : R := B2R x.

(** [r] is the coordinate [c] moved by a whole number of periods, up to [tol] *)
Definition same_point (period tol r c : R) : Prop := exists k : Z, Rabs (r - (c + IZR k * period)) <= tol.

(** a period which is neither denormal nor huge *)
Definition sane (L : R) : Prop := bpow radix2 (-900) <= L <= bpow radix2 900.

(** break points: at least two, finite, increasing *)
Definition break_points (knots : list F64) : Prop :=
  (2 <= length knots)%nat /\ Forall is_num knots /\
  forall i j x y, (i < j)%nat -> nth_error knots i = Some x -> nth_error knots j = Some y -> num x < num y.
Definition in_cells (knots : list F64) (x : F64) : Prop :=
  is_num x /\ exists a b, nth_error knots 0 = Some a /\ nth_error knots (length knots - 1) = Some b /\ num a <= num x <= num b.
(** the knots at the ends of cell [i] enclose [x] *)
Definition cell_of (knots : list F64) (x : F64) (i : nat) : Prop :=
  exists a b, nth_error knots i = Some a /\ nth_error knots (i + 1) = Some b /\ num a <= num x <= num b.
