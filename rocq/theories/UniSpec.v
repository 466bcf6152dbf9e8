(** Specification: a uniform grid of doubles, the stencils which surround a coordinate. *)
From Flocq Require Import Core IEEE754.BinarySingleNaN.
From Verif Require Export UniModel FltSpec.
Open Scope R_scope.

(** the largest finite value of the indices considered *)
Definition max_cells : Z := 2 ^ 28.
(** origin and step of a grid: finite, the step positive and neither denormal nor huge *)
Definition uniform_grid (origin step : F64) : Prop :=
  is_num origin /\ is_num step /\ Rabs (num origin) <= bpow radix2 900 /\ bpow radix2 (-900) <= num step <= bpow radix2 900.
(** [y] is the knot number [i] as the program computes it: rounded product, rounded sum *)
Definition is_knot (origin step : F64) (i : Z) (y : R) : Prop :=
  y = round radix2 (FLT_exp (-1074) 53) ZnearestE
        (num origin + round radix2 (FLT_exp (-1074) 53) ZnearestE (IZR i * num step)).
(** a coordinate between the first and the last knot (number [n]) *)
Definition on_grid (origin step : F64) (n : Z) (x : F64) : Prop :=
  is_num x /\ exists a b, is_knot origin step 0 a /\ is_knot origin step n b /\ a <= num x <= b.
(** the stencil of the knots [f] to [f + deg] is made of knots of the grid *)
Definition in_grid (n deg f : Z) : Prop := (0 <= f /\ f + deg <= n)%Z.
(** the first knot of the stencil is not above [x], the last one not below *)
Definition starts_before (origin step : F64) (f : Z) (x : F64) : Prop := exists a, is_knot origin step f a /\ a <= num x.
Definition ends_after (origin step : F64) (l : Z) (x : F64) : Prop := exists b, is_knot origin step l b /\ num x <= b.
(** the largest degree considered *)
Definition max_degree : Z := 2 ^ 20.
(** the size of the numbers from which the knots up to [l] are computed *)
Definition magnitude (origin step : F64) (l : Z) : R := Rabs (num origin) + IZR l * num step.
(** the step is at least 2^-40 times that size: the doubles resolve the cells *)
Definition resolved (origin step : F64) (l : Z) : Prop := magnitude origin step l <= bpow radix2 40 * num step.
(** the machine epsilon of double *)
Definition epsilon : R := bpow radix2 (-52).
(** a coordinate between the knots [f] and [l] *)
Definition between (origin step : F64) (f l : Z) (x : F64) : Prop :=
  is_num x /\ exists a b, is_knot origin step f a /\ is_knot origin step l b /\ a <= num x <= b.
