(** Model in IEEE binary64 of the periodic wrapping of coordinates (restrict_to_idx_range and
    restrict_to_bspline_domain of src/utils/ddc_helper.hpp, LagrangeEvaluator::eval of
    src/interpolation/lagrange_evaluator.hpp) and of the search of the closest non-uniform knot.

    Every operation is rounded to nearest, ties to even; no contraction into fused multiply-adds. *)
From Flocq Require Import Core IEEE754.BinarySingleNaN.
From Verif Require Export Lib EdgeModel.
Open Scope Z_scope.

(** double *)
Notation F64 := (binary_float 53 1024) (only parsing).
(** the operators +, -, * of double *)
Definition f_add : F64 -> F64 -> F64 := @Bplus 53 1024 prec64_gt_0 prec64_lt_emax mode_NE.
Definition f_sub : F64 -> F64 -> F64 := @Bminus 53 1024 prec64_gt_0 prec64_lt_emax mode_NE.
Definition f_mul : F64 -> F64 -> F64 := @Bmult 53 1024 prec64_gt_0 prec64_lt_emax mode_NE.
(** floor of <cmath> and Kokkos::floor *)
Definition f_floor : F64 -> F64 := @Bnearbyint 53 1024 prec64_lt_emax mode_DN.
(** fabs *)
Definition f_abs : F64 -> F64 := @Babs 53 1024.
(** the literal m * 2^e *)
Definition f_lit (m e : Z) : F64 := binary_normalize 53 1024 prec64_gt_0 prec64_lt_emax mode_NE m e false.

(** ** restrict_to_idx_range *)
(** ddc_helper.hpp 108-109: while (coord < x_min) coord += length.  [None]: more than [fuel] iterations. *)
Fixpoint loop_up (fuel : nat) (x_min len c : F64) : option F64 :=
  if Bltb c x_min then match fuel with O => None | S f => loop_up f x_min len (f_add c len) end else Some c.
(** ddc_helper.hpp 110-111: while (coord >= x_max) coord -= length *)
Fixpoint loop_down (fuel : nat) (x_max len c : F64) : option F64 :=
  if Bleb x_max c then match fuel with O => None | S f => loop_down f x_max len (f_sub c len) end else Some c.

(** ddc_helper.hpp 92-113; [far] is what lines 101-105 (acos, cos, sin) make of the coordinate: the mathematical
    functions are not specified by IEEE 754, so [far] is a parameter *)
Definition restrict_f64 (far : F64 -> F64 -> F64) (fuel : nat) (x_min len coord : F64) : option F64 :=
  let x_max := f_add x_min len in
  let c := f_sub coord x_min in
  let c := if Bltb (f_mul (b64 10) len) (f_abs c) then far c len else c in
  let c := f_add c x_min in
  match loop_up fuel x_min len c with
  | None => None
  | Some c => loop_down fuel x_max len c
  end.

(** ** restrict_to_bspline_domain and the periodic branch of eval *)
(** lagrange_basis_uniform.hpp 189-192, lagrange_basis_non_uniform.hpp 195-198: length(), rmax() - rmin() *)
Definition f_length (rmin rmax : F64) : F64 := f_sub rmax rmin.
(** ddc_helper.hpp 128-140 and lagrange_evaluator.hpp 459-467 (the same text) *)
Definition wrap_f64 (rmin rmax c : F64) : F64 :=
  if Bltb c rmin || Bltb rmax c
  then f_sub c (f_mul (f_floor (b64_div (f_sub c rmin) (f_length rmin rmax))) (f_length rmin rmax))
  else c.

(** ** getclosest of a non-uniform basis *)
(** ddc::coordinate of the break point [i]; the break points are those of break_point_domain(), 0 is its front *)
Definition coordinate (knots : list F64) (i : Z) : res F64 := rd knots i.

(** lagrange_evaluator.hpp 603-613; [Ok None]: more than [fuel] iterations *)
Fixpoint search_f64 (fuel : nat) (knots : list F64) (x : F64) (first last elm : Z) : res (option Z) :=
  let* lo := coordinate knots elm in
  let* hi := coordinate knots (elm + 1) in
  if Bltb x lo || Bltb hi x then
    match fuel with
    | O => Ok None
    | S f =>
        let '(first, last) := if Bltb x lo then (first, elm) else (elm, last) in
        search_f64 f knots x first last (first + Z.quot (last - first) 2)
    end
  else Ok (Some elm).

(** lagrange_evaluator.hpp 582-588 and 600-619, degree [deg]; [asserts]: whether KOKKOS_ASSERT is enabled *)
Definition getclosest_f64 (asserts : bool) (fuel : nat) (deg : Z) (knots : list F64) (x : F64) : res (option Z) :=
  let last := Z.of_nat (length knots) - 1 in
  let* rmin := coordinate knots 0 in
  let* rmax := coordinate knots last in
  let* _ := if asserts then check (Bleb rmin x) else Ok tt in
  let* _ := if asserts then check (Bleb x rmax) else Ok tt in
  let* found := search_f64 fuel knots x 0 last (0 + Z.quot (last - 0) 2) in
  match found with
  | None => Ok None
  | Some elm =>
      let* hi := coordinate knots (elm + 1) in
      let* lo := coordinate knots elm in
      let cell_len := f_sub hi lo in
      Ok (Some (elm + (deg + 1) mod 2 *
                      (if Bltb (b64_div cell_len (b64 2)) (f_sub x lo) then 1 else 0)))
  end.

(** lagrange_evaluator.hpp 454-477 then 491: the knot found for a coordinate by a periodic evaluator *)
Definition periodic_knot (asserts : bool) (fuel : nat) (deg : Z) (knots : list F64) (coord : F64) : res (option Z) :=
  let last := Z.of_nat (length knots) - 1 in
  let* rmin := coordinate knots 0 in
  let* rmax := coordinate knots last in
  getclosest_f64 asserts fuel deg knots (wrap_f64 rmin rmax coord).
