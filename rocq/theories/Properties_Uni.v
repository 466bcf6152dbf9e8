(** C132-C135: the Lagrange stencil on a uniform grid and its nodes, uniform meshes, in binary64. *)
From Coq Require Import List.
From Flocq Require Import Core IEEE754.BinarySingleNaN.
From Verif Require Import UniSpec UniMain UniNode UniWrap UniMeshSpec UniMesh UniMeshOrd.
Import ListNotations.
Open Scope R_scope.

(** * C132 *)
(** degree at least 2: the stencil is made of knots of the grid, it surrounds the coordinate, the assertions of the basis hold.
    Partial: C132_refuted shows that degree 1 is false. *)
Theorem C132_partial : forall asserts deg o h n x, uniform_grid o h -> (1 <= n <= max_cells)%Z -> on_grid o h n x -> (2 <= deg <= n)%Z ->
  exists f, stencil_f64 asserts deg o h n x = Ok f /\ in_grid n deg f /\ starts_before o h f x /\ ends_after o h (f + deg) x.
Proof. exact stencil_surrounds. Qed.
Example C132_partial_ex : uniform_grid (b64 (-1)) f_07 /\ on_grid (b64 (-1)) f_07 10 f_11m /\
  stencil_f64 true 3 (b64 (-1)) f_07 10 f_11m = Ok 1%Z /\ stencil_f64 true 2 (b64 (-1)) f_07 10 f_11m = Ok 2%Z /\
  stencil_f64 true 3 (b64 (-1)) f_07 10 (f_lit 23 (-2)) = Ok 7%Z /\ stencil_f64 true 4 (b64 (-1)) f_07 10 (b64 (-1)) = Ok 0%Z.
Proof. exact ex_stencil. Qed.
Print Assumptions C132_partial.

(** a grid which begins at 0: every degree *)
Theorem C132_origin_zero : forall asserts deg o h n x, uniform_grid o h -> (1 <= n <= max_cells)%Z -> on_grid o h n x -> (1 <= deg <= n)%Z -> num o = 0 ->
  exists f, stencil_f64 asserts deg o h n x = Ok f /\ in_grid n deg f /\ starts_before o h f x /\ ends_after o h (f + deg) x.
Proof. exact stencil_surrounds_zero. Qed.
Example C132_origin_zero_ex : num (b64 0) = 0 /\ stencil_f64 true 1 (b64 0) f_07 10 f_11m = Ok 1%Z /\ stencil_f64 true 1 (b64 0) f_07 10 (b64 7) = Ok 9%Z.
Proof. exact ex_zero. Qed.
Print Assumptions C132_origin_zero.

(** every degree, assertions disabled: the coefficients read are those of knots of the grid, the stencil does not begin after the coordinate *)
Theorem C132_starts_before : forall deg o h n x, uniform_grid o h -> (1 <= n <= max_cells)%Z -> on_grid o h n x -> (1 <= deg <= n)%Z ->
  exists f, stencil_f64 false deg o h n x = Ok f /\ in_grid n deg f /\ starts_before o h f x.
Proof. exact stencil_starts. Qed.
Print Assumptions C132_starts_before.

(** FINDING (src/interpolation/lagrange_evaluator.hpp 594-598 and src/interpolation/lagrange_basis_uniform.hpp 235): a uniform
    Lagrange evaluator of degree 1 aborts (KOKKOS_ASSERT) for a coordinate inside the domain.  With the knots -1 + 0.7 i the
    coordinate 1.0999999999999999, which is above the knot 3 (1.0999999999999996), is given to the cell 2: the quotient
    (x - origin) / step is rounded below 3. *)
Theorem C132_refuted : ~ (forall deg o h n x, uniform_grid o h -> (1 <= n <= max_cells)%Z -> on_grid o h n x -> (1 <= deg <= n)%Z ->
  exists f, stencil_f64 true deg o h n x = Ok f).
Proof. exact stencil_false. Qed.
Print Assumptions C132_refuted.
(** assertions disabled, the stencil of degree 1 can end before the coordinate *)
Theorem C132_end_refuted : ~ (forall deg o h n x f, uniform_grid o h -> (1 <= n <= max_cells)%Z -> on_grid o h n x -> (1 <= deg <= n)%Z ->
  stencil_f64 false deg o h n x = Ok f -> ends_after o h (f + deg) x).
Proof. exact stencil_end_false. Qed.
Print Assumptions C132_end_refuted.

(** * C133 *)
(** on a grid resolved by the doubles the assertions hold; without a node, the divisions by (offset - j) of the barycentric
    formula are not divisions by a number below the tolerance; with a node, the coordinate is that of the node up to rounding.
    Partial: C133_refuted shows that a grid which is not resolved fails an assertion. *)
Theorem C133_partial : forall asserts deg o h f x, uniform_grid o h -> (1 <= deg <= max_degree)%Z -> (0 <= f)%Z -> (f + deg <= max_cells)%Z ->
  resolved o h (f + deg) -> between o h f (f + deg) x ->
  exists offset node, check_if_node_f64 asserts deg o h f x = Ok (offset, node) /\ is_num offset /\ (-1 <= node <= deg)%Z /\
    (node = (-1)%Z -> forall j : Z, IZR (deg + 1) * epsilon < Rabs (num offset - IZR j)) /\
    ((0 <= node)%Z -> Rabs (num x - (num o + IZR (f + node) * num h)) <= 4 * epsilon * (magnitude o h (f + deg) + IZR (deg + 1) * num h)).
Proof. exact node_found. Qed.
Example C133_partial_ex : uniform_grid (b64 (-1)) f_07 /\ resolved (b64 (-1)) f_07 (2 + 3) /\ between (b64 (-1)) f_07 2 (2 + 3) f_11m /\
  match check_if_node_f64 true 3 (b64 (-1)) f_07 2 f_11m with Ok (_, node) => node = 1%Z | _ => False end /\
  match check_if_node_f64 true 3 (b64 (-1)) f_07 2 (b64 2) with Ok (_, node) => node = (-1)%Z | _ => False end.
Proof. exact ex_node. Qed.
Print Assumptions C133_partial.

(** origin 2^51, step 0.1 (below the spacing of the doubles): an assertion fails at a knot *)
Theorem C133_refuted : ~ (forall deg o h f x, uniform_grid o h -> (1 <= deg <= max_degree)%Z -> (0 <= f)%Z -> (f + deg <= max_cells)%Z ->
  between o h f (f + deg) x -> exists r, check_if_node_f64 true deg o h f x = Ok r).
Proof. exact node_false. Qed.
Print Assumptions C133_refuted.

(** * C134 *)
(** periodic evaluator, degree at least 2: the coefficients read are those of the knots 0 to n + degree, the coordinate is
    kept or moved by one period up to rounding, the stencil surrounds it and the assertions hold.
    Partial: C134_refuted shows that degree 1 is false. *)
Theorem C134_partial : forall asserts deg o h n x, uniform_grid o h -> (2 <= deg <= n)%Z -> (n + deg <= max_cells)%Z -> resolved o h (n + deg) -> on_grid o h n x ->
  exists f y, stencil_periodic_f64 asserts deg o h n x = Ok (f, y) /\ in_grid (n + deg) deg f /\ is_num y /\
    starts_before o h f y /\ ends_after o h (f + deg) y /\
    (y = x \/ Rabs (num y - (num x + IZR n * num h)) <= 8 * epsilon * magnitude o h (n + deg)).
Proof. exact periodic_surrounds. Qed.
Example C134_partial_ex : uniform_grid (b64 (-1)) f_07 /\ resolved (b64 (-1)) f_07 (10 + 3) /\ on_grid (b64 (-1)) f_07 10 f_11m /\
  match stencil_periodic_f64 true 3 (b64 (-1)) f_07 10 f_11m with Ok (f, _) => f = 1%Z | _ => False end /\
  match stencil_periodic_f64 true 3 (b64 (-1)) f_07 10 (f_lit (-3) (-2)) with Ok (f, _) => f = 9%Z | _ => False end.
Proof. exact ex_periodic. Qed.
Print Assumptions C134_partial.

(** FINDING (src/interpolation/lagrange_evaluator.hpp 594-598 and src/interpolation/lagrange_basis_uniform.hpp 235): the same
    coordinate as in C132 makes the periodic evaluator of degree 1 abort, on a grid resolved by the doubles. *)
Theorem C134_refuted : ~ (forall deg o h n x, uniform_grid o h -> (1 <= deg <= n)%Z -> (n + deg <= max_cells)%Z -> resolved o h (n + deg) -> on_grid o h n x ->
  exists r, stencil_periodic_f64 true deg o h n x = Ok r).
Proof. exact periodic_false. Qed.
Print Assumptions C134_refuted.

(** * C135 *)
(** cells resolved by the doubles: the points are finite and increasing, the ends are exact, the points are equidistant up to rounding.
    Partial: C135_refuted shows that cells below the spacing of the doubles give equal points. *)
Theorem C135_partial : forall mn mx n, mesh_ends mn mx n -> mesh_resolved mn mx n ->
  exists l, build_uniform_f64 mn mx n = Ok l /\ uniform_mesh mn mx n l.
Proof. exact mesh_ok. Qed.
Example C135_partial_ex : mesh_ends (b64 (-1)) (b64 6) 10 /\ mesh_resolved (b64 (-1)) (b64 6) 10.
Proof. exact ends_07. Qed.
Print Assumptions C135_partial.

(** a coordinate between the ends is found by the search of C131 *)
Theorem C135_search : forall asserts fuel deg mn mx n x, mesh_ends mn mx n -> mesh_resolved mn mx n -> is_num x -> num mn <= num x <= num mx -> (n + 1 <= fuel)%nat ->
  exists l i s, build_uniform_f64 mn mx n = Ok l /\ periodic_knot asserts fuel deg l x = Ok (Some (Z.of_nat i + s)%Z) /\ cell_of l x i /\
    (s = 0 \/ s = 1 /\ Z.even deg = true)%Z.
Proof. exact mesh_search. Qed.
Example C135_search_ex : match build_uniform_f64 (b64 (-1)) (b64 6) 10 with
  | Ok l => length l = 11%nat /\ periodic_knot true 11 3 l f_11m = Ok (Some 3%Z) | _ => False end.
Proof. exact ex_mesh. Qed.
Print Assumptions C135_search.

(** cells of any size: the points never decrease and stay between the exact ends *)
Theorem C135_ordered : forall mn mx n, mesh_ends mn mx n -> exists l, build_uniform_f64 mn mx n = Ok l /\ ordered_mesh mn mx n l.
Proof. exact mesh_ordered. Qed.
Example C135_ordered_ex : mesh_ends f_2_53 f_2_53_2 4 /\
  match build_uniform_f64 f_2_53 f_2_53_2 4 with
  | Ok l => length l = 5%nat /\ map (fun y => Beqb y f_2_53) l = [true; true; true; false; false] /\ map (fun y => Beqb y f_2_53_2) l = [false; false; false; true; true]
  | _ => False end.
Proof. exact ex_ordered. Qed.
Print Assumptions C135_ordered.

(** 4 cells between 2^53 and 2^53 + 2: the first two points are equal *)
Theorem C135_refuted : ~ (forall mn mx n, mesh_ends mn mx n -> exists l, build_uniform_f64 mn mx n = Ok l /\ break_points l).
Proof. exact mesh_false. Qed.
Print Assumptions C135_refuted.
