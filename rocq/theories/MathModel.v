(** Model of src/math_tools (finite differences, small tensors, integer helpers, spline cache) and
    of the periodic restriction of coordinates in src/utils/ddc_helper.hpp. *)
From Verif Require Export Lib QuadModel.
From Coq Require Export Ratan.
Open Scope R_scope.

(** ** Finite differences, along the differentiated dimension (the batch dimensions only repeat the
    same computation on independent slices).  [pts]: coordinates of the discrete space, [fr],[n]:
    the index range; [f]: the field, [d]: the output, both indexed from [fr]. *)

(** central_fdm_partial_derivatives.hpp 178-191: fdm_centred (values already read) *)
Definition fdm_centred (f1 f2 f3 h1 h2 : R) : R :=
  let c3 := h1 / (h2 * (h1 + h2)) in
  let c2 := 1 / h1 - 1 / h2 in
  let c1 := - c3 - c2 in
  c1 * f1 + c2 * f2 + c3 * f3.

(** central_fdm_partial_derivatives.hpp 82-100: front node *)
Definition fdm_front (pts f : list R) (fr : Z) (d : list R) : res (list R) :=
  let ix := fr in
  let* x0 := rd pts ix in let* x1 := rd pts (ix + 1) in let* x2 := rd pts (ix + 2) in
  let h1 := x1 - x0 in
  let h2 := x2 - x1 in
  let c3 := - h1 / (h2 * (h1 + h2)) in
  let c2 := 1 / h1 + 1 / h2 in
  let c1 := - c3 - c2 in
  let* f0 := rd f (ix - fr) in let* f1 := rd f (ix + 1 - fr) in let* f2 := rd f (ix + 2 - fr) in
  wr d (ix - fr) (c1 * f0 + c2 * f1 + c3 * f2).

(** central_fdm_partial_derivatives.hpp 103-121: back node *)
Definition fdm_back (pts f : list R) (fr : Z) (n : nat) (d : list R) : res (list R) :=
  let ix := (fr + Z.of_nat n - 1)%Z in
  let* x0 := rd pts ix in let* x1 := rd pts (ix - 1) in let* x2 := rd pts (ix - 2) in
  let h1 := x0 - x1 in
  let h2 := x1 - x2 in
  let c3 := h1 / (h2 * (h1 + h2)) in
  let c2 := - (h1 + h2) / (h1 * h2) in
  let c1 := - c3 - c2 in
  let* f0 := rd f (ix - fr) in let* f1 := rd f (ix - 1 - fr) in let* f2 := rd f (ix - 2 - fr) in
  wr d (ix - fr) (c1 * f0 + c2 * f1 + c3 * f2).

(** central_fdm_partial_derivatives.hpp 123-154: the two nodes next to the periodic boundary;
    total_interval_length of a periodic non-uniform sampling (ddc_helper.hpp 61-65) is
    |coordinate(front + n) - coordinate(front)|; the uniform overload (43-46) computes the same
    number from the step. *)
Definition total_interval_length (pts : list R) (fr : Z) (n : nat) : res R :=
  let* a := rd pts fr in let* b := rd pts (fr + Z.of_nat n) in Ok (Rabs (b - a)).
Definition fdm_periodic_ends (pts f : list R) (fr : Z) (n : nat) (d : list R) : res (list R) :=
  let ix_front := fr in
  let ix_back := (fr + Z.of_nat n - 1)%Z in
  let* domain_length := total_interval_length pts fr n in
  let* xb := rd pts ix_back in let* xb1 := rd pts (ix_back - 1) in
  let* xf := rd pts ix_front in let* xf1 := rd pts (ix_front + 1) in
  let h1 := xb - xb1 in
  let h2 := xf - xb + domain_length in
  let h3 := xf1 - xf in
  let* vb1 := rd f (ix_back - 1 - fr) in let* vb := rd f (ix_back - fr) in
  let* vf := rd f (ix_front - fr) in let* vf1 := rd f (ix_front + 1 - fr) in
  let* d := wr d (ix_back - fr) (fdm_centred vb1 vb vf h1 h2) in
  wr d (ix_front - fr) (fdm_centred vb vf vf1 h2 h3).

(** central_fdm_partial_derivatives.hpp 158-174: central nodes (idxrange.remove(1,1)) *)
Definition fdm_central (pts f : list R) (fr : Z) (n : nat) (d : list R) : res (list R) :=
  range_policy (Z.of_nat n - 2) (fun k d =>
    let ix := (fr + 1 + Z.of_nat k)%Z in
    let* x0 := rd pts (ix - 1) in let* x1 := rd pts ix in let* x2 := rd pts (ix + 1) in
    let* f0 := rd f (ix - 1 - fr) in let* f1 := rd f (ix - fr) in let* f2 := rd f (ix + 1 - fr) in
    wr d (ix - fr) (fdm_centred f0 f1 f2 (x1 - x0) (x2 - x1))) d.

(** central_fdm_partial_derivatives.hpp 70-175 *)
Definition central_fdm (per : bool) (pts f : list R) (fr : Z) (n : nat) (d : list R) : res (list R) :=
  let* d := (if per then fdm_periodic_ends pts f fr n d
             else let* d := fdm_front pts f fr d in fdm_back pts f fr n d) in
  fdm_central pts f fr n d.

(** central_fdm_partial_derivatives_with_boundary_values.hpp 95-114 and 117-136 *)
Definition fdm_front_bvalue (pts f : list R) (fr : Z) (bl : R) (d : list R) : res (list R) :=
  let ix := fr in
  let* x0 := rd pts ix in let* x1 := rd pts (ix + 1) in let* x2 := rd pts (ix + 2) in
  let h1 := x1 - x0 in
  let h2 := x2 - x1 in
  let c3 := - h1 / (h2 * (h1 + h2)) in
  let c2 := 1 / h1 + 1 / h2 in
  let* f1 := rd f (ix + 1 - fr) in let* f2 := rd f (ix + 2 - fr) in
  let value_left := c2 * f1 + c3 * f2 in
  let value_right := - c2 * bl - c3 * bl in
  wr d (ix - fr) ((value_right + value_left) / 2).
Definition fdm_back_bvalue (pts f : list R) (fr : Z) (n : nat) (br : R) (d : list R) : res (list R) :=
  let ix := (fr + Z.of_nat n - 1)%Z in
  let* x0 := rd pts ix in let* x1 := rd pts (ix - 1) in let* x2 := rd pts (ix - 2) in
  let h1 := x0 - x1 in
  let h2 := x1 - x2 in
  let c3 := h1 / (h2 * (h1 + h2)) in
  let c2 := - (h1 + h2) / (h1 * h2) in
  let* f1 := rd f (ix - 1 - fr) in let* f2 := rd f (ix - 2 - fr) in
  let value_left := c2 * f1 + c3 * f2 in
  let value_right := - c2 * br - c3 * br in
  wr d (ix - fr) ((value_left + value_right) / 2).
(** central_fdm_partial_derivatives_with_boundary_values.hpp 77-160; the central part (139-159)
    is the same computation as in the class without boundary values *)
Definition central_fdm_bvalue (pts f : list R) (fr : Z) (n : nat) (bl br : R) (d : list R) : res (list R) :=
  let* d := fdm_front_bvalue pts f fr bl d in
  let* d := fdm_back_bvalue pts f fr n br d in
  fdm_central pts f fr n d.

(** ** Periodic restriction (ddc_helper.hpp 88-112) *)
(** std::copysign(x, y) (exact reals: no signed zero) *)
Definition copysign (x y : R) : R := if Rlt_dec y 0 then - Rabs x else Rabs x.

(** [while (cond x) x = step x;] with at most [fuel] iterations, None if not finished *)
Fixpoint while_loop (fuel : nat) (cond : R -> bool) (step : R -> R) (x : R) : option R :=
  if cond x then
    match fuel with O => None | S k => while_loop k cond step (step x) end
  else Some x.
Definition Rltb (x y : R) : bool := if Rlt_dec x y then true else false.
Definition Rleb (x y : R) : bool := if Rle_dec x y then true else false.

(** lines 98-105: the shift by x_min and the reduction by the trigonometric functions *)
Definition fold_far (coord length : R) : R :=
  if Rlt_dec (10 * length) (Rabs coord) then
    let periodic_factor := 2 * PI / length in
    let coord_2pi := coord * periodic_factor in
    let coord_2pi := copysign (acos (cos coord_2pi)) (sin coord_2pi) in
    if Rlt_dec coord_2pi 0 then (coord_2pi + 2 * PI) / periodic_factor
    else coord_2pi / periodic_factor
  else coord.

Definition restrict_to_idx_range (fuel : nat) (x_min length coord : R) : option R :=
  let x_max := x_min + length in
  let coord := fold_far (coord - x_min) length + x_min in
  match while_loop fuel (fun c => Rltb c x_min) (fun c => c + length) coord with
  | None => None
  | Some c => while_loop fuel (fun c => Rleb x_max c) (fun c => c - length) c
  end.

(** ddc_helper.hpp 127-140: restrict_to_bspline_domain for a periodic B-spline *)
Definition restrict_to_bspline_domain (rmin length coord : R) : R :=
  if Rlt_dec coord rmin then coord - IZR (Int_part ((coord - rmin) / length)) * length
  else if Rlt_dec (rmin + length) coord then coord - IZR (Int_part ((coord - rmin) / length)) * length
  else coord.

(** ** Integer helpers (math_tools.hpp) *)
(** 102-106: modulo<int>; the double operations are exact on the int range *)
Definition modulo (x y : Z) : Z := (x - y * Int_part (IZR x / IZR y))%Z.
(** 102-106: modulo<double> *)
Definition modulo_r (x y : R) : R := x - y * IZR (Int_part (x / y)).
(** 108-115: ipow(double, size_t) *)
Definition ipow_u (a : R) (i : nat) : R := for_loop i (fun _ r => r * a) 1.
(** 117-131: ipow(double, int); -i overflows for INT_MIN *)
Definition int_min : Z := (- 2 ^ 31)%Z.
Definition int_max : Z := (2 ^ 31 - 1)%Z.
Definition ipow_i (a : R) (i : Z) : res R :=
  if (0 <? i)%Z then Ok (for_loop (Z.to_nat i) (fun _ r => r * a) 1)
  else if (i <? 0)%Z then
    if (i =? int_min)%Z then Ub
    else Ok (1 / for_loop (Z.to_nat (- i)) (fun _ r => r * a) 1)
  else Ok 1.
(** 133-140: factorial(size_t), 64-bit wrap-around; the loop runs i = 2 .. f *)
Definition two64 : Z := (2 ^ 64)%Z.
Definition factorial (f : nat) : Z :=
  for_loop (f - 1) (fun k r => (r * (Z.of_nat k + 2)) mod two64)%Z 1%Z.
(** 283-286: neg_1_pow(int); C++ % truncates towards zero *)
Definition neg_1_pow (pow : Z) : Z := (1 - 2 * Z.rem pow 2)%Z.

(** ** 2x2 and 3x3 tensors (math_tools.hpp 142-243); entries get<Row_i, Col_j> = M i j, i,j from 0 *)
Definition determinant2 (M : nat -> nat -> R) : R :=
  M 0%nat 0%nat * M 1%nat 1%nat - M 1%nat 0%nat * M 0%nat 1%nat.
Definition determinant3 (M : nat -> nat -> R) : R :=
  M 0%nat 0%nat * M 1%nat 1%nat * M 2%nat 2%nat
  + M 0%nat 1%nat * M 1%nat 2%nat * M 2%nat 0%nat
  + M 0%nat 2%nat * M 1%nat 0%nat * M 2%nat 1%nat
  - M 2%nat 0%nat * M 1%nat 1%nat * M 0%nat 2%nat
  - M 2%nat 1%nat * M 1%nat 2%nat * M 0%nat 0%nat
  - M 2%nat 2%nat * M 1%nat 0%nat * M 0%nat 1%nat.
Definition inverse2 (M : nat -> nat -> R) (i j : nat) : R :=
  let det := determinant2 M in
  match i, j with
  | 0%nat, 0%nat => M 1%nat 1%nat / det
  | 1%nat, 0%nat => - M 1%nat 0%nat / det
  | 0%nat, 1%nat => - M 0%nat 1%nat / det
  | 1%nat, 1%nat => M 0%nat 0%nat / det
  | _, _ => 0
  end.
Definition inverse3 (M : nat -> nat -> R) (i j : nat) : R :=
  let det := determinant3 M in
  match i, j with
  | 0%nat, 0%nat => (M 1%nat 1%nat * M 2%nat 2%nat - M 1%nat 2%nat * M 2%nat 1%nat) / det
  | 1%nat, 0%nat => (M 1%nat 2%nat * M 2%nat 0%nat - M 1%nat 0%nat * M 2%nat 2%nat) / det
  | 2%nat, 0%nat => (M 1%nat 0%nat * M 2%nat 1%nat - M 1%nat 1%nat * M 2%nat 0%nat) / det
  | 0%nat, 1%nat => (M 0%nat 2%nat * M 2%nat 1%nat - M 0%nat 1%nat * M 2%nat 2%nat) / det
  | 1%nat, 1%nat => (M 0%nat 0%nat * M 2%nat 2%nat - M 0%nat 2%nat * M 2%nat 0%nat) / det
  | 2%nat, 1%nat => (M 0%nat 1%nat * M 2%nat 0%nat - M 0%nat 0%nat * M 2%nat 1%nat) / det
  | 0%nat, 2%nat => (M 0%nat 1%nat * M 1%nat 2%nat - M 0%nat 2%nat * M 1%nat 1%nat) / det
  | 1%nat, 2%nat => (M 0%nat 2%nat * M 1%nat 0%nat - M 0%nat 0%nat * M 1%nat 2%nat) / det
  | 2%nat, 2%nat => (M 0%nat 0%nat * M 1%nat 1%nat - M 0%nat 1%nat * M 1%nat 0%nat) / det
  | _, _ => 0
  end.

(** ** SplineBuilder2DCache (spline_builder_2d_cache.hpp 28-31, 40-48, 58-89, 96-99).
    [build]: the spline builder (an oracle); coefficients are uninitialised at construction. *)
Inductive dim2 := Dim1 | Dim2.
Record spline_cache (C : Type) :=
  { sc_coeffs : option C; sc_dim1 : bool; sc_dim2 : bool }.
Arguments sc_coeffs {C}. Arguments sc_dim1 {C}. Arguments sc_dim2 {C}.
Definition cache_new (C : Type) : spline_cache C :=
  {| sc_coeffs := None; sc_dim1 := true; sc_dim2 := true |}.
Definition compute_coeffs {F C} (build : F -> C) (d : dim2) (field_values : F) (s : spline_cache C)
  : spline_cache C :=
  match d with
  | Dim1 => if sc_dim1 s then {| sc_coeffs := Some (build field_values); sc_dim1 := true; sc_dim2 := false |}
            else s
  | Dim2 => if sc_dim2 s then {| sc_coeffs := Some (build field_values); sc_dim1 := false; sc_dim2 := true |}
            else s
  end.
(** the result of a history of calls; the value returned by the last call is sc_coeffs *)
Definition cache_run {F C} (build : F -> C) (calls : list (dim2 * F)) : spline_cache C :=
  fold_left (fun s c => compute_coeffs build (fst c) (snd c) s) calls (cache_new C).
