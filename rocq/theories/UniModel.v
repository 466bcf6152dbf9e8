(** Model in IEEE binary64 of the choice of the Lagrange stencil on a uniform grid: getclosest and find_stencil of
    src/interpolation/lagrange_evaluator.hpp, the assertions of eval_basis of src/interpolation/lagrange_basis_uniform.hpp.

    Modelled: the non-periodic and the periodic branches, check_if_node.  The indices are those of the break points, 0 is the front.
    Not modelled: float as DataType, the wrapping of the coordinate before find_stencil (wrap_f64 of FltModel). *)
From Flocq Require Import Core IEEE754.BinarySingleNaN.
From Verif Require Export FltModel.
Open Scope Z_scope.

(** round of <cmath> and Kokkos::round: to the nearest integer, halfway cases away from zero *)
Definition f_round : F64 -> F64 := @Bnearbyint 53 1024 prec64_lt_emax mode_NA.
(** static_cast<int>(double): undefined when the truncated value does not fit *)
Definition f_int (x : F64) : res Z :=
  if is_finite x && (- 2147483648 <=? Btrunc x) && (Btrunc x <=? 2147483647) then Ok (Btrunc x) else Ub.

(** lagrange_basis_uniform.hpp 125-128: the grid of the knots, a DDC uniform point sampling initialised with the origin
    and the step; its coordinate(i) is origin + i * step (the source of DDC is not available: trusted) *)
Definition knot_f64 (origin step : F64) (i : Z) : F64 := f_add origin (f_mul (b64 i) step).

(** lagrange_evaluator.hpp 588-599: the uniform branch of getclosest *)
Definition closest_uniform (deg : Z) (origin step x : F64) : res Z :=
  let q := b64_div (f_sub x (knot_f64 origin step 0)) step in
  if Z.even deg then f_int (f_round q) else f_int q.

(** lagrange_evaluator.hpp 489-522 (non-periodic), [n]: the index of the last knot *)
Definition find_stencil_f64 (deg : Z) (origin step : F64) (n : Z) (x : F64) : res Z :=
  let* closest := closest_uniform deg origin step x in
  let d := - (deg / 2) - deg mod 2 * (if Bltb x (knot_f64 origin step closest) then 1 else 0) in
  if d <? 0 - closest then Ok 0
  else
    let first := closest + d in
    let last_possible := n - deg in
    Ok (if last_possible <? first then last_possible else first).

(** lagrange_evaluator.hpp 555-557 then lagrange_basis_uniform.hpp 234-235: eval_basis is called on the stencil;
    its first two assertions (KOKKOS_ASSERT) *)
Definition stencil_f64 (asserts : bool) (deg : Z) (origin step : F64) (n : Z) (x : F64) : res Z :=
  let* f := find_stencil_f64 deg origin step n x in
  let* _ := if asserts then check (Bleb (knot_f64 origin step f) x) else Ok tt in
  let* _ := if asserts then check (Bleb x (knot_f64 origin step (f + deg))) else Ok tt in
  Ok f.

(** ** check_if_node *)
(** lagrange_basis_uniform.hpp 369-389: the offset and the node (-1: none); the two assertions are KOKKOS_ASSERT *)
Definition check_if_node_f64 (asserts : bool) (deg : Z) (origin step : F64) (poly_start : Z) (x : F64) : res (F64 * Z) :=
  let inv_dx := b64_div (b64 1) step in
  let offset := f_mul (f_sub x (knot_f64 origin step poly_start)) inv_dx in
  let eps := f_mul (f_lit 1 (-52)) (b64 (deg + 1)) in
  let* icell := f_int offset in
  let local_offset := f_sub offset (b64 icell) in
  let node := if Bleb local_offset eps then icell
              else if Bleb (Bopp eps) (f_sub local_offset (b64 1)) then icell + 1 else -1 in
  let* _ := if asserts then check (-1 <=? node) else Ok tt in
  let* _ := if asserts then check (node <=? deg) else Ok tt in
  Ok (offset, node).

(** ** The periodic branches *)
(** lagrange_evaluator.hpp 488-512 (periodic): the first knot and the coordinate on return; length() is that of
    lagrange_basis_uniform.hpp 189-192, rmin() and rmax() are the knots 0 and [n] *)
Definition find_stencil_periodic_f64 (deg : Z) (origin step : F64) (n : Z) (x : F64) : res (Z * F64) :=
  let length := f_length (knot_f64 origin step 0) (knot_f64 origin step n) in
  let* closest := closest_uniform deg origin step x in
  let d := - (deg / 2) - deg mod 2 * (if Bltb x (knot_f64 origin step closest) then 1 else 0) in
  let first := closest + (n - 0) * (if d <? 0 - closest then 1 else 0) + d in
  Ok (first, if closest <? first then f_add x length else x).
(** lagrange_evaluator.hpp 555-557 then lagrange_basis_uniform.hpp 229-235: the first knot and the coordinate used *)
Definition stencil_periodic_f64 (asserts : bool) (deg : Z) (origin step : F64) (n : Z) (x : F64) : res (Z * F64) :=
  let length := f_length (knot_f64 origin step 0) (knot_f64 origin step n) in
  let* r := find_stencil_periodic_f64 deg origin step n x in
  let '(f, x) := r in
  let x := if Bltb x (knot_f64 origin step f) then f_add x length else x in
  let* _ := if asserts then check (Bleb (knot_f64 origin step f) x) else Ok tt in
  let* _ := if asserts then check (Bleb x (knot_f64 origin step (f + deg))) else Ok tt in
  Ok (f, x).
