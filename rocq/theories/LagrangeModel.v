(** Model of src/interpolation: Lagrange bases (uniform and non-uniform), the identity interpolation
    builder, the 1D Lagrange evaluator and its extrapolation rules.  Real arithmetic is exact; the
    tolerance of the node tests is kept with its double precision value. *)
From Verif Require Export Lib QuadModel MathModel.
Open Scope R_scope.

(** Kokkos::Experimental::epsilon_v<double> *)
Definition dbl_epsilon : R := / 2 ^ 52.
(** static_cast<int>(double): truncation towards zero *)
Definition trunc_int (t : R) : Z := if Rle_dec 0 t then Int_part t else (- Int_part (- t))%Z.
(** Kokkos::round followed by the cast: nearest integer, halves away from zero *)
Definition round_int (t : R) : Z :=
  if Rle_dec 0 t then Int_part (t + 1 / 2) else (- Int_part (- t + 1 / 2))%Z.

(** ** The bases *)
(** lagrange_basis_uniform.hpp 101-106 and lagrange_basis_non_uniform.hpp 103-106: members of Impl;
    [bknots] are the coordinates of the knots of full_domain(), [bbp] the size of
    break_point_domain(), which starts at the first knot.  Simplification: m_weights of the uniform
    basis is recomputed where it is used (see [uniform_weight]). *)
Record basis := {
  b_uniform : bool; b_periodic : bool; b_degree : nat;
  b_knots : list R; b_bp : nat; b_step : R }.

(** lagrange_basis_uniform.hpp 116-140: constructor; [rmin] and [step] are the coordinate of the front
    of the break point domain and the step of its grid, [n] its size. *)
Definition uniform_basis (per : bool) (D : nat) (rmin step : R) (n : nat) : res basis :=
  if (D + 1 <=? n)%nat then
    let nk := if per then (n + D)%nat else n in
    Ok {| b_uniform := true; b_periodic := per; b_degree := D;
          b_knots := map (fun i => rmin + INR i * step) (seq 0 nk); b_bp := n; b_step := step |}
  else AssertFail.

(** lagrange_basis_non_uniform.hpp 115-159: constructor; [pts] are the coordinates of the whole grid
    (discrete_space<Grid1D>), [fr] and [n] the front and size of the break point domain.  The knots
    are built from the whole grid; [fr] is not used. *)
Definition non_uniform_basis (per : bool) (D : nat) (pts : list R) (fr n : nat) : res basis :=
  if (D + 1 <=? n)%nat then
    let np := length pts in
    let knots :=
      if per then
        pts ++ map (fun i => nth (np - 1) pts 0 + (nth i pts 0 - nth 0 pts 0)) (seq 1 D)
      else pts in
    let nk := if per then (n + D)%nat else n in
    Ok {| b_uniform := false; b_periodic := per; b_degree := D;
          b_knots := firstn nk knots; b_bp := n; b_step := 0 |}
  else AssertFail.

(** ddc::coordinate of a knot *)
Definition knot (b : basis) (i : Z) : res R := rd (b_knots b) i.
(** uniform 171-192, non-uniform 175-197: rmin, rmax, length *)
Definition b_rmin (b : basis) : res R := knot b 0.
Definition b_rmax (b : basis) : res R := knot b (Z.of_nat (b_bp b) - 1).
Definition b_length (b : basis) : res R :=
  let* hi := b_rmax b in let* lo := b_rmin b in Ok (hi - lo).

(** the D+1 knots from poly_start on *)
Definition stencil_knots (b : basis) (s : Z) : res (list R) :=
  if ((s <? 0) || (Z.of_nat (length (b_knots b)) <? s + Z.of_nat (b_degree b) + 1))%Z then Ub
  else Ok (firstn (S (b_degree b)) (skipn (Z.to_nat s) (b_knots b))).

(** ** Evaluation of the bases *)
(** product over j <> i *)
Fixpoint prod_skip (n : nat) (i : nat) (f : nat -> R) : R :=
  match n with
  | O => 1
  | S n' => if (i =? n')%nat then prod_skip n' i f else prod_skip n' i f * f n'
  end.
(** lagrange_basis_uniform.hpp 143-151: m_weights[i] *)
Definition uniform_weight (D i : nat) : R := 1 / prod_skip (S D) i (fun j => INR i - INR j).
(** lagrange_basis_non_uniform.hpp 382-398: get_weights *)
Definition node_weight (D : nat) (xs : nat -> R) (i : nat) : R :=
  1 / prod_skip (S D) i (fun j => xs i - xs j).
(** uniform 400-415 (with [x] the offset and the nodes 0..D), non-uniform 409-423:
    calculate_values_between_nodes *)
Definition barycentric_values (D : nat) (w xs : nat -> R) (x : R) : list R :=
  map (fun i => w i / (x - xs i) / Rsum (S D) (fun j => w j / (x - xs j))) (seq 0 (S D)).
(** the values at a node: uniform 242-244, non-uniform 243-245 *)
Definition node_values (D : nat) (node : Z) : list R :=
  map (fun j => if (Z.of_nat j =? node)%Z then 1 else 0) (seq 0 (S D)).

(** lagrange_basis_uniform.hpp 369-389: check_if_node, returning the offset and the node (-1: none) *)
Definition uniform_check_node (D : nat) (step x0 x : R) : res (R * Z) :=
  let offset := (x - x0) * (1 / step) in
  let eps := dbl_epsilon * (INR D + 1) in
  let icell := trunc_int offset in
  let local_offset := offset - IZR icell in
  let node := if Rle_dec local_offset eps then icell
              else if Rle_dec (- eps) (local_offset - 1) then (icell + 1)%Z else (-1)%Z in
  if ((-1 <=? node) && (node <=? Z.of_nat D))%Z then Ok (offset, node) else AssertFail.
(** lagrange_basis_non_uniform.hpp 368-379: check_if_node *)
Fixpoint non_uniform_check_node (xs : list R) (x : R) (i : Z) : Z :=
  match xs with
  | [] => -1
  | xi :: t => if Rlt_dec (Rabs (x - xi)) (dbl_epsilon * 4) then i
               else non_uniform_check_node t x (i + 1)
  end.

(** uniform 223-246 and non-uniform 229-247: eval_basis (values.size() == D+1 by construction) *)
Definition eval_basis (b : basis) (x : R) (s : Z) : res (list R) :=
  let D := b_degree b in
  let* nodes := stencil_knots b s in
  let xs i := nth i nodes 0 in
  let* len := b_length b in
  let x1 := if b_uniform b then
              if b_periodic b then (if Rlt_dec x (xs 0%nat) then x + len else x) else x
            else x in
  if Rle_dec (xs 0%nat) x1 then
    if Rle_dec x1 (xs D) then
      if b_uniform b then
        let* on := uniform_check_node D (b_step b) (xs 0%nat) x1 in
        let '(offset, node) := on in
        Ok (if (node =? -1)%Z then barycentric_values D (uniform_weight D) INR offset
            else node_values D node)
      else
        let node := non_uniform_check_node nodes x1 0 in
        Ok (if (node =? -1)%Z then barycentric_values D (node_weight D xs) xs x1
            else node_values D node)
    else AssertFail
  else AssertFail.

(** ** Stencil selection *)
(** lagrange_evaluator.hpp 604-613: the bisection loop.  [fuel] bounds the number of iterations; a
    loop that needs more is reported as [Ub] (it would run for ever). *)
Fixpoint bisect (fuel : nat) (b : basis) (x : R) (first last elm : Z) : res Z :=
  let* lo := knot b elm in
  let* hi := knot b (elm + 1) in
  if Rlt_dec x lo then
    match fuel with
    | O => Ub
    | S f => bisect f b x first elm (first + (elm - first) / 2)
    end
  else if Rlt_dec hi x then
    match fuel with
    | O => Ub
    | S f => bisect f b x elm last (elm + (last - elm) / 2)
    end
  else Ok elm.
(** lagrange_evaluator.hpp 582-621: getclosest *)
Definition get_closest (b : basis) (x : R) : res Z :=
  let D := b_degree b in
  if b_uniform b then
    let* x0 := knot b 0 in
    Ok (if Nat.even D then round_int ((x - x0) / b_step b) else trunc_int ((x - x0) / b_step b))
  else
    let last := (Z.of_nat (b_bp b) - 1)%Z in
    let* lo := b_rmin b in
    let* hi := b_rmax b in
    if Rle_dec lo x then
      if Rle_dec x hi then
        let* elm := bisect (length (b_knots b)) b x 0 last (0 + (last - 0) / 2) in
        let* k0 := knot b elm in
        let* k1 := knot b (elm + 1) in
        Ok (elm + Z.of_nat ((D + 1) mod 2) * (if Rlt_dec ((k1 - k0) / 2) (x - k0) then 1 else 0))%Z
      else AssertFail
    else AssertFail.
(** lagrange_evaluator.hpp 488-523: find_stencil, returning the shifted coordinate and the first knot *)
Definition find_stencil (b : basis) (x : R) : res (R * Z) :=
  let D := b_degree b in
  let* closest := get_closest b x in
  let* kc := knot b closest in
  let first := 0%Z in
  let last := (Z.of_nat (b_bp b) - 1)%Z in
  let step := (- Z.of_nat (D / 2) - Z.of_nat (D mod 2) * (if Rlt_dec x kc then 1 else 0))%Z in
  if b_periodic b then
    let s := (closest + (last - first) * (if step <? first - closest then 1 else 0) + step)%Z in
    let* len := b_length b in
    Ok (if (closest <? s)%Z then x + len else x, s)
  else if (step <? first - closest)%Z then Ok (x, first)
  else
    let s := (closest + step)%Z in
    let last_possible := (last - Z.of_nat D)%Z in
    Ok (x, if (last_possible <? s)%Z then last_possible else s).

(** ** Evaluation *)
(** lagrange_evaluator.hpp 573-577: the sum over the basis *)
Fixpoint eval_sum (n : nat) (coef vals : list R) (s : Z) : res R :=
  match n with
  | O => Ok 0
  | S n' =>
      let* y := eval_sum n' coef vals s in
      let* c := rd coef (s + Z.of_nat n') in
      let* v := rd vals (Z.of_nat n') in
      Ok (y + c * v)
  end.
(** lagrange_evaluator.hpp 525-578 without derivatives: eval_no_bc *)
Definition eval_no_bc (b : basis) (coef : list R) (x : R) : res R :=
  let* st := find_stencil b x in
  let '(x1, s) := st in
  let* vals := eval_basis b x1 s in
  eval_sum (S (b_degree b)) coef vals s.

(** i_interpolation.hpp: ExtrapolationRule; constant_identity_interpolation_extrapolation_rule.hpp
    44-51 and extrapolation_rule_choice.hpp 36-63: the constant rule holds the first or the last index
    of full_domain(); ddc::NullExtrapolationRule returns 0 *)
Inductive extrapolation := NullValue | Constant.
Definition extrapolate (r : extrapolation) (front : bool) (b : basis) (coef : list R) : res R :=
  match r with
  | NullValue => Ok 0
  | Constant => rd coef (if front then 0 else Z.of_nat (length (b_knots b)) - 1)%Z
  end.
(** lagrange_evaluator.hpp 452-477: eval (222-229: operator()) *)
Definition lagrange_eval (b : basis) (lower upper : extrapolation) (coef : list R) (x : R) : res R :=
  let* lo := b_rmin b in
  let* hi := b_rmax b in
  if b_periodic b then
    if Rlt_dec x lo then eval_no_bc b coef (x - IZR (Int_part ((x - lo) / (hi - lo))) * (hi - lo))
    else if Rlt_dec hi x then eval_no_bc b coef (x - IZR (Int_part ((x - lo) / (hi - lo))) * (hi - lo))
    else eval_no_bc b coef x
  else
    if Rlt_dec x lo then extrapolate lower true b coef
    else if Rlt_dec hi x then extrapolate upper false b coef
    else eval_no_bc b coef x.

(** identity_interpolation_builder.hpp 90-126: operator(); [vals] holds the values on the interpolation
    points.  deep_copy requires equal extents; take_first(nrepeat) more points than there are is
    reported as [Ub]. *)
Definition identity_builder (b : basis) (vals : list R) : res (list R) :=
  let bp := if b_periodic b then (b_bp b - 1)%nat else b_bp b in
  if (length vals =? bp)%nat then
    if b_periodic b then
      let nrepeat := (length (b_knots b) - bp)%nat in
      if (nrepeat <=? length vals)%nat then Ok (vals ++ firstn nrepeat vals) else Ub
    else Ok vals
  else AssertFail.
