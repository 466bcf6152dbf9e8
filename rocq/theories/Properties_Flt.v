(** Periodic coordinates in IEEE binary64: C129 (restrict_to_idx_range), C130 (wrapping of a spline or Lagrange
    evaluator), C131 (search of the knot of a non-uniform periodic Lagrange basis). *)
From Coq Require Import Lia Lra ZArith Reals List.
From Flocq Require Import Core IEEE754.BinarySingleNaN.
From Verif Require Import FltMain FltWrap FltSearch FltSpec FltBase.
Import ListNotations.
Open Scope R_scope.

(** * C129 *)
(** if the end of the domain, x_min + length, is computed exactly, the loops end and the result is in the domain; within
    ten periods of x_min it is the coordinate moved by whole periods, up to rounding *)
Theorem C129_partial : forall far x_min len coord, is_num x_min -> is_num len -> is_num coord ->
  0 < num len <= bpow radix2 900 -> Rabs (num x_min) <= bpow radix2 20 * num len -> Rabs (num coord) <= bpow radix2 900 ->
  num (f_add x_min len) = num x_min + num len ->
  (10 * num len < Rabs (num coord - num x_min) ->
     is_num (far (f_sub coord x_min) len) /\ Rabs (num (far (f_sub coord x_min) len)) <= 10 * num len) ->
  exists r, (forall fuel, (38 <= fuel)%nat -> restrict_f64 far fuel x_min len coord = Some r) /\
    is_num r /\ num x_min <= num r < num x_min + num len /\
    (Rabs (num coord - num x_min) <= 10 * num len ->
       same_point (num len) (bpow radix2 (-40) * (Rabs (num x_min) + num len)) (num r) (num coord)).
Proof. exact restrict_range. Qed.
Example C129_partial_ex : is_num f_2pi /\ 0 < num f_2pi <= bpow radix2 900 /\ num (f_add (b64 0) f_2pi) = num (b64 0) + num f_2pi /\
  match restrict_f64 no_far 38 (b64 0) f_2pi (b64 (-7)) with Some r => B2SF r = B2SF (f_lit 6267176156158512 (-50)) | None => False end.
Proof. exact ex_restrict. Qed.
Print Assumptions C129_partial.

(** a domain which starts at 0: a coordinate of the domain is returned unchanged *)
Theorem C129_inside : forall far x_min len coord fuel, is_num x_min -> is_num len -> is_num coord ->
  num x_min = 0 -> 0 < num len <= bpow radix2 900 -> 0 <= num coord < num len ->
  exists r, restrict_f64 far fuel x_min len coord = Some r /\ is_num r /\ num r = num coord.
Proof. exact restrict_inside. Qed.
Print Assumptions C129_inside.

(** FINDING (src/utils/ddc_helper.hpp 92-113): restrict_to_idx_range can return a coordinate below the domain.  On the
    domain [0.2, 1.2) (x_min = 0.2, length = 1.0) the coordinate 1.2 becomes 0.19999999999999996: the last subtraction
    is rounded and nothing checks the lower end again. *)
Theorem C129_refuted : ~ (forall far fuel x_min len coord r, is_num x_min -> is_num len -> is_num coord -> 0 < num len ->
  num x_min <= num coord <= num x_min + 2 * num len -> restrict_f64 far fuel x_min len coord = Some r -> num x_min <= num r).
Proof. exact restrict_range_false. Qed.
Print Assumptions C129_refuted.

(** FINDING (src/utils/ddc_helper.hpp 108-111): when the period is below the spacing of the doubles at x_min (x_min =
    2^60, length = 1) the loop of restrict_to_idx_range does not end: subtracting the period changes nothing. *)
Theorem C129_ends_refuted : ~ (forall far x_min len coord, is_num x_min -> is_num len -> is_num coord -> 0 < num len ->
  num x_min <= num coord <= num x_min + num len -> exists fuel r, restrict_f64 far fuel x_min len coord = Some r).
Proof. exact restrict_ends_false. Qed.
Print Assumptions C129_ends_refuted.

(** * C130 *)
(** the wrapped coordinate is the coordinate moved by whole periods and lies in the domain, both up to 2^-28 periods *)
Theorem C130_partial : forall rmin rmax c, is_num rmin -> is_num rmax -> is_num c -> sane (num (f_length rmin rmax)) ->
  Rabs (num rmin) <= bpow radix2 20 * num (f_length rmin rmax) -> Rabs (num c) <= bpow radix2 20 * num (f_length rmin rmax) ->
  let L := num (f_length rmin rmax) in
  is_num (wrap_f64 rmin rmax c) /\
  same_point L (bpow radix2 (-28) * L) (num (wrap_f64 rmin rmax c)) (num c) /\
  num rmin - bpow radix2 (-28) * L <= num (wrap_f64 rmin rmax c) <= num rmin + L + bpow radix2 (-28) * L.
Proof. exact wrap_close. Qed.
Example C130_partial_ex : sane (num (f_length (b64 (-1)) (b64 2))) /\ Rabs (num (b64 (-1))) <= bpow radix2 20 * num (f_length (b64 (-1)) (b64 2)) /\
  wrap_f64 (b64 (-1)) (b64 2) (b64 12) = b64 0.
Proof. exact ex_wrap_close. Qed.
Print Assumptions C130_partial.

(** a domain [0, 2^e]: the result is in the domain and is the correctly rounded wrapped coordinate *)
Theorem C130_power_of_two : forall rmin rmax c e, is_num rmin -> is_num rmax -> is_num c ->
  num rmin = 0 -> num rmax = bpow radix2 e -> (-900 <= e <= 50)%Z ->
  num c = 0 \/ bpow radix2 (-900) <= Rabs (num c) -> Rabs (num c) <= bpow radix2 52 * num rmax ->
  let r := wrap_f64 rmin rmax c in
  is_num r /\ 0 <= num r <= num rmax /\
  exists k : Z, 0 <= num c + IZR k * num rmax <= num rmax /\ num r = rnd (num c + IZR k * num rmax).
Proof. exact wrap_power_of_two. Qed.
Example C130_power_of_two_ex : is_num (b64 0) /\ is_num (b64 1) /\ num (b64 1) = bpow radix2 0 /\ is_num (f_lit (-7) (-2)) /\
  wrap_f64 (b64 0) (b64 1) (f_lit (-7) (-2)) = f_lit 1 (-2).
Proof. exact ex_wrap. Qed.
Print Assumptions C130_power_of_two.

(** FINDING (src/utils/ddc_helper.hpp 128-140 and src/interpolation/lagrange_evaluator.hpp 458-467): the wrapping with
    floor can return a coordinate below the domain.  On the domain [0, 1.1] the coordinate 7.7 becomes -8.88e-16: the
    quotient 7.7 / 1.1 is rounded to 7 and the product 7 * 1.1 is rounded above 7.7. *)
Theorem C130_refuted : ~ (forall rmin rmax c, is_num rmin -> is_num rmax -> is_num c -> num rmin < num rmax ->
  num rmin <= num c <= num rmin + 8 * (num rmax - num rmin) -> num rmin <= num (wrap_f64 rmin rmax c)).
Proof. exact wrap_range_false. Qed.
Print Assumptions C130_refuted.

(** * C131 *)
(** a coordinate of the domain: the search ends, no assertion fails, the cell found encloses the coordinate *)
Theorem C131_partial : forall asserts fuel deg knots x, break_points knots -> in_cells knots x -> (length knots <= fuel)%nat ->
  exists (i : nat) s, periodic_knot asserts fuel deg knots x = Ok (Some (Z.of_nat i + s)%Z) /\ cell_of knots x i /\
    (s = 0 \/ s = 1 /\ Z.even deg = true)%Z.
Proof. exact periodic_found. Qed.
Example C131_partial_ex : break_points knots_11 /\ in_cells knots_11 (f_lit 3 (-2)) /\
  periodic_knot true 3 3 knots_11 (f_lit 3 (-2)) = Ok (Some 1%Z) /\ periodic_knot true 3 2 knots_11 (f_lit 7 (-3)) = Ok (Some 2%Z) /\
  periodic_knot true 3 3 knots_11 (f_lit 5 (-1)) = Ok (Some 0%Z).
Proof. exact ex_found. Qed.
Print Assumptions C131_partial.

(** break points from 0 to a power of two: every coordinate is found *)
Theorem C131_power_of_two : forall asserts fuel deg knots x a b e, break_points knots -> is_num x ->
  nth_error knots 0 = Some a -> nth_error knots (length knots - 1) = Some b -> num a = 0 -> num b = bpow radix2 e -> (-900 <= e <= 50)%Z ->
  num x = 0 \/ bpow radix2 (-900) <= Rabs (num x) -> Rabs (num x) <= bpow radix2 52 * num b -> (length knots <= fuel)%nat ->
  exists (i : nat) s y k, periodic_knot asserts fuel deg knots x = Ok (Some (Z.of_nat i + s)%Z) /\ cell_of knots y i /\
    (s = 0 \/ s = 1 /\ Z.even deg = true)%Z /\ is_num y /\
    0 <= num x + IZR k * num b <= num b /\ num y = rnd (num x + IZR k * num b).
Proof. exact periodic_found_pow2. Qed.
Example C131_power_of_two_ex : break_points knots_1 /\ num (b64 1) = bpow radix2 0 /\
  periodic_knot true 3 3 knots_1 (f_lit (-5) (-2)) = Ok (Some 1%Z).
Proof. exact ex_found_pow2. Qed.
Print Assumptions C131_power_of_two.

(** below the first break point the search never ends, or an assertion fails if assertions are enabled *)
Theorem C131_below : forall knots x a fuel deg, break_points knots -> is_num x -> nth_error knots 0 = Some a -> num x < num a ->
  getclosest_f64 false fuel deg knots x = Ok None /\ getclosest_f64 true fuel deg knots x = AssertFail.
Proof. exact closest_below. Qed.
Print Assumptions C131_below.

(** FINDING (src/interpolation/lagrange_evaluator.hpp 458-476 and 599-613): a periodic non-uniform Lagrange evaluator does
    not return for some coordinates.  With the break points 0, 0.5, 1.1 and the coordinate 7.7, the wrapped coordinate is
    below the first break point (C130) and the bisection loops for ever... *)
Theorem C131_refuted : ~ (forall deg knots x, break_points knots -> is_num x ->
  exists fuel i, periodic_knot false fuel deg knots x = Ok (Some i)).
Proof. exact periodic_found_false. Qed.
Print Assumptions C131_refuted.

(** FINDING (src/interpolation/lagrange_evaluator.hpp 601-602): ... and aborts when KOKKOS_ASSERT is enabled. *)
Theorem C131_asserts_refuted : ~ (forall deg knots x, break_points knots -> is_num x ->
  forall fuel, periodic_knot true fuel deg knots x <> AssertFail).
Proof. exact periodic_asserts_false. Qed.
Print Assumptions C131_asserts_refuted.
