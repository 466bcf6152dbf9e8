(** Properties C70 - C76: polar splines and the discrete mapping. *)
From Coquelicot Require Import Coquelicot.
From Verif Require Import Lib MathModel MappingModel PspModel PspSpec PspIntSpec PspTheorems PspPole PspEval PspInt PspFinal PspJac PspExamples.
Open Scope R_scope.

(** C70: the triangular Bernstein polynomials of degree D <= 20: number, order, values, partition of unity, sign *)
Theorem C70_bernstein : forall D t p, (D <= 20)%nat ->
  exists vals, bernstein_eval D t p = Ok vals /\ length vals = ((D + 1) * (D + 2) / 2)%nat /\
    (forall i j, (i + j <= D)%nat -> nth (i * (2 * D + 3 - i) / 2 + j) vals 0 =
      INR (fact D) / (INR (fact i) * INR (fact j) * INR (fact (D - i - j)))
        * cart_to_bary t p 0%nat ^ i * cart_to_bary t p 1%nat ^ j * cart_to_bary t p 2%nat ^ (D - i - j)) /\
    fold_right Rplus 0 vals = 1 /\
    ((forall k, (k < 3)%nat -> 0 <= cart_to_bary t p k) -> forall v, In v vals -> 0 <= v).
Proof. exact bernstein_theorem. Qed.
Print Assumptions C70_bernstein.
(** non-vacuity: the centre of an equilateral triangle has non-negative barycentric coordinates *)
Example C70_bernstein_example : forall k, (k < 3)%nat -> 0 <= cart_to_bary {| bx1 := 0; by1 := 0; bx2 := 3; by2 := 0; bx3 := 0; by3 := 3 |} (c2 1 1) k.
Proof. intros k Hk. assert (k = 0 \/ k = 1 \/ k = 2)%nat as [->| [->| ->]] by lia; unfold cart_to_bary; cbn; lra. Qed.

(** FINDING C70: for D = 21 the 64-bit factorial wraps around and the polynomials are wrong without any error:
    the coefficient 21 of l1 l3^20 is replaced by 5, for every triangle and every point *)
Theorem C70_degree_21_refuted : forall t p, exists vals, bernstein_eval 21 t p = Ok vals /\
  nth 22 vals 0 = 5 * cart_to_bary t p 0%nat * cart_to_bary t p 2%nat ^ 20.
Proof. exact bernstein_21. Qed.
Print Assumptions C70_degree_21_refuted.

(** C71: the polar index of the tensor-product functions: two inverse bijections between [C+1, nbasis_r) x Z/n_theta
    and [n_singular, nbasis); other arguments are refused *)
Theorem C71_polar_index : forall c1 br bt ir it, (1 <= b_cells bt)%nat -> (c1 <= ir < nbasis_r br)%nat ->
  exists k, get_polar_index c1 (nbasis_t bt) (Z.of_nat ir) (Z.of_nat it) = Ok (Z.of_nat k) /\
    (n_singular c1 <= k < polar_nbasis c1 br bt)%nat /\
    get_2d_index c1 (nbasis_t bt) (Z.of_nat k) = Ok (Z.of_nat ir, Z.of_nat (it mod nbasis_t bt)).
Proof. exact index_theorem. Qed.
Print Assumptions C71_polar_index.
Theorem C71_index_inverse : forall c1 br bt k, (1 <= b_cells bt)%nat -> (n_singular c1 <= k < polar_nbasis c1 br bt)%nat ->
  exists ir it, get_2d_index c1 (nbasis_t bt) (Z.of_nat k) = Ok (Z.of_nat ir, Z.of_nat it) /\ (c1 <= ir < nbasis_r br)%nat /\ (it < nbasis_t bt)%nat /\
    get_polar_index c1 (nbasis_t bt) (Z.of_nat ir) (Z.of_nat it) = Ok (Z.of_nat k).
Proof. exact index_inverse. Qed.
Print Assumptions C71_index_inverse.
Theorem C71_refused : forall c1 br bt, (forall ir it, (ir < c1)%nat -> get_polar_index c1 (nbasis_t bt) (Z.of_nat ir) (Z.of_nat it) = AssertFail) /\
  (forall k, (k < n_singular c1)%nat -> get_2d_index c1 (nbasis_t br) (Z.of_nat k) = AssertFail).
Proof. exact index_refused. Qed.
Print Assumptions C71_refused.
(** the 2D view of the coefficients agrees with the polar index *)
Theorem C71_view : forall c1 br bt coef, (1 <= b_cells bt)%nat -> (c1 < nbasis_r br)%nat -> length coef = polar_nbasis c1 br bt ->
  exists v, get_tensor_product_subset c1 (nbasis_t bt) coef = Ok v /\
    forall ir it, (c1 <= ir < nbasis_r br)%nat -> (it < nbasis_t bt)%nat ->
      exists k, get_polar_index c1 (nbasis_t bt) (Z.of_nat ir) (Z.of_nat it) = Ok (Z.of_nat k) /\
        rd_view v (Z.of_nat ir) (Z.of_nat it) = Ok (nth k coef 0).
Proof. exact view_theorem. Qed.
Print Assumptions C71_view.
(** non-vacuity: C = 1, 8 poloidal functions: (3, 10) is number 3 + 8 + 2 *)
Example C71_example : get_polar_index 2 8 3 10 = Ok 13%Z /\ get_2d_index 2 8 13 = Ok (3, 2)%Z.
Proof. split; reflexivity. Qed.

(** C72: for C = 1 the constructor succeeds and every polar spline (and each of its derivatives) is the tensor-product
    spline whose coefficients in the first two rows are an affine function of the control points of the mapping, the
    one which takes the three singular coefficients at the corners of the smallest equilateral triangle around row 1 *)
Theorem C72_tensor_form : forall br bt tr tt m x0 y0, polar_setup 2 br bt tr tt m x0 y0 ->
  exists e tau, polar_make 2 br bt m = Ok e /\ smallest_triangle bt m x0 y0 tau /\
    forall coef, length coef = polar_nbasis 2 br bt -> exists a b c,
      (forall k, (k < 3)%nat -> affine a b c (corner_x x0 tau (2 - k)) (corner_y y0 tau (2 - k)) = nth k coef 0) /\
      forall n q r th, b_rmin br <= r <= b_rmax br -> b_rmin bt <= th <= b_rmax bt ->
        exists pr pt, b_eval br n r = Ok pr /\ b_eval bt q th = Ok pt /\
          derivative 2 br bt e coef n q r th
          = Ok (tensor_spline br bt (polar_coefficient 2 (b_cells bt) (affine a b c) (ctrl_x bt m) (ctrl_y bt m) coef) pr pt).
Proof. exact setup_form. Qed.
Print Assumptions C72_tensor_form.
(** C = -1 and C = 0 *)
Theorem C72_tensor_form_low : forall c1 br bt tr tt m x0 y0, polar_setup c1 br bt tr tt m x0 y0 -> (c1 <= 1)%nat ->
  exists e, polar_make c1 br bt m = Ok e /\ forall coef, length coef = polar_nbasis c1 br bt ->
    forall n q r th, b_rmin br <= r <= b_rmax br -> b_rmin bt <= th <= b_rmax bt ->
      exists pr pt, b_eval br n r = Ok pr /\ b_eval bt q th = Ok pt /\
        derivative c1 br bt e coef n q r th
        = Ok (tensor_spline br bt (polar_coefficient c1 (b_cells bt) (fun _ _ => nth 0 coef 0) (fun _ _ => 0) (fun _ _ => 0) coef) pr pt).
Proof. exact setup_form_low. Qed.
Print Assumptions C72_tensor_form_low.
(** the basis is a partition of unity: constants are reproduced, with derivatives 0 *)
Theorem C72_constants : forall c1 br bt tr tt m x0 y0, polar_setup c1 br bt tr tt m x0 y0 ->
  forall e coef a n q r th, polar_make c1 br bt m = Ok e -> length coef = polar_nbasis c1 br bt ->
    (forall k, (k < length coef)%nat -> nth k coef 0 = a) ->
    b_rmin br <= r <= b_rmax br -> b_rmin bt <= th <= b_rmax bt ->
    derivative c1 br bt e coef n q r th = Ok (if (n + q =? 0)%nat then a else 0).
Proof. exact setup_constants. Qed.
Print Assumptions C72_constants.
(** the values stay between the smallest and the largest coefficient, at every point of the disc and for every angle *)
Theorem C72_bounds : forall c1 br bt tr tt m x0 y0, polar_setup c1 br bt tr tt m x0 y0 ->
  forall e, polar_make c1 br bt m = Ok e -> forall outer coef lo hi r th, length coef = polar_nbasis c1 br bt ->
    (forall k, (k < length coef)%nat -> lo <= nth k coef 0 <= hi) -> b_rmin br <= r <= b_rmax br ->
    exists v, evaluate c1 br bt e outer coef r th = Ok v /\ lo <= v <= hi.
Proof. exact evaluate_everywhere. Qed.
Print Assumptions C72_bounds.
(** evaluation is linear in the coefficients: the weights do not depend on them *)
Theorem C72_linear : forall c1 br bt tr tt m x0 y0, polar_setup c1 br bt tr tt m x0 y0 ->
  forall e n q r th, polar_make c1 br bt m = Ok e -> b_rmin br <= r <= b_rmax br -> b_rmin bt <= th <= b_rmax bt ->
    exists w, forall coef, length coef = polar_nbasis c1 br bt ->
      derivative c1 br bt e coef n q r th = Ok (Rsum (polar_nbasis c1 br bt) (fun k => nth k coef 0 * w k)).
Proof. exact setup_linear. Qed.
Print Assumptions C72_linear.
(** isoparametric: the coordinates x and y of the mapping are polar splines *)
Theorem C72_coordinates : forall br bt tr tt m x0 y0, polar_setup 2 br bt tr tt m x0 y0 ->
  exists tau, smallest_triangle bt m x0 y0 tau /\
  forall e cx cy n q r th, polar_make 2 br bt m = Ok e ->
    length cx = polar_nbasis 2 br bt -> length cy = polar_nbasis 2 br bt ->
    (forall k, (k < 3)%nat -> nth k cx 0 = corner_x x0 tau (2 - k) /\ nth k cy 0 = corner_y y0 tau (2 - k)) ->
    (forall i j, (2 <= i < nbasis_r br)%nat -> (j < b_cells bt)%nat ->
      nth (3 + (i - 2) * b_cells bt + j) cx 0 = ctrl_x bt m i j /\ nth (3 + (i - 2) * b_cells bt + j) cy 0 = ctrl_y bt m i j) ->
    b_rmin br <= r <= b_rmax br -> b_rmin bt <= th <= b_rmax bt ->
    exists x y, derivative 2 br bt e cx n q r th = Ok x /\ derivative 2 br bt e cy n q r th = Ok y /\
      dm_ev m n q (dm_x m) r th = Ok x /\ dm_ev m n q (dm_y m) r th = Ok y.
Proof. exact coordinates_2. Qed.
Print Assumptions C72_coordinates.
(** non-vacuity: quadratic splines with 4 x 4 cells over a disc of centre 0, for the three continuities *)
Example C72_example : forall c1, (c1 <= 2)%nat -> polar_setup c1 (disc_r 4) disc_t (knots_r 4) knots_t (disc 4) 0 0 /\
  exists e, polar_make c1 (disc_r 4) disc_t (disc 4) = Ok e.
Proof. intros c1 H. split; [exact (disc_setup c1 H)|exact (setup_make _ _ _ _ _ _ _ _ (disc_setup c1 H))]. Qed.

(** C73: at the pole a polar spline with C = 1 is single-valued (the mean of the three singular coefficients), its
    theta-derivative is 0, its radial derivative is that of an affine function of (x, y), and it differs from this
    affine function by O(r^2) *)
Theorem C73_pole : forall br bt tr tt m x0 y0 e coef, polar_setup 2 br bt tr tt m x0 y0 -> polar_make 2 br bt m = Ok e ->
  length coef = polar_nbasis 2 br bt ->
  exists a b c K, 0 <= K /\ affine a b c x0 y0 = (nth 0 coef 0 + nth 1 coef 0 + nth 2 coef 0) / 3 /\
    (forall th, b_rmin bt <= th <= b_rmax bt ->
      derivative 2 br bt e coef 0 0 0 th = Ok (affine a b c x0 y0) /\ derivative 2 br bt e coef 0 1 0 th = Ok 0) /\
    (forall r th, 0 <= r < tr (b_deg br + 1)%nat -> b_rmin bt <= th <= b_rmax bt ->
      exists f x y, derivative 2 br bt e coef 0 0 r th = Ok f /\ dm_apply m r th = Ok (x, y) /\ Rabs (f - affine a b c x y) <= K * (r * r)) /\
    (forall th, b_rmin bt <= th <= b_rmax bt ->
      exists g xr yr, derivative 2 br bt e coef 1 0 0 th = Ok g /\ dm_ev m 1 0 (dm_x m) 0 th = Ok xr /\ dm_ev m 1 0 (dm_y m) 0 th = Ok yr /\
        g = b * xr + c * yr).
Proof. exact pole_c1. Qed.
Print Assumptions C73_pole.
(** in the plane: where the mapping is regular (the distance to the pole is at least mu r), the polar spline is
    differentiable at the pole as a function of (x, y) *)
Theorem C73_differentiable : forall br bt tr tt m x0 y0 e coef mu h, polar_setup 2 br bt tr tt m x0 y0 -> polar_make 2 br bt m = Ok e ->
  length coef = polar_nbasis 2 br bt -> 0 < mu -> 0 < h ->
  (forall r th x y, 0 <= r < h -> b_rmin bt <= th <= b_rmax bt -> dm_apply m r th = Ok (x, y) -> mu * r <= sqrt ((x - x0) ^ 2 + (y - y0) ^ 2)) ->
  exists a b c K h', 0 < h' /\ 0 <= K /\
    forall r th, 0 <= r < h' -> b_rmin bt <= th <= b_rmax bt ->
      exists f x y, derivative 2 br bt e coef 0 0 r th = Ok f /\ dm_apply m r th = Ok (x, y) /\
        Rabs (f - affine a b c x y) <= K * ((x - x0) ^ 2 + (y - y0) ^ 2).
Proof. exact pole_differentiable. Qed.
Print Assumptions C73_differentiable.
(** non-vacuity: the disc is regular with mu = 1/2 *)
Example C73_example : forall r th x y, 0 <= r < 1 -> b_rmin disc_t <= th <= b_rmax disc_t -> dm_apply (disc 4) r th = Ok (x, y) ->
  / 2 * r <= sqrt ((x - 0) ^ 2 + (y - 0) ^ 2).
Proof. exact disc_regular. Qed.
(** C = 0: continuous at the pole *)
Theorem C73_pole_continuous : forall br bt tr tt m x0 y0 e coef th, polar_setup 1 br bt tr tt m x0 y0 -> polar_make 1 br bt m = Ok e ->
  length coef = polar_nbasis 1 br bt -> b_rmin bt <= th <= b_rmax bt ->
  derivative 1 br bt e coef 0 0 0 th = Ok (nth 0 coef 0) /\ derivative 1 br bt e coef 0 1 0 th = Ok 0.
Proof. exact pole_c0. Qed.
Print Assumptions C73_pole_continuous.

(** C74: evaluation outside of the domain: behind the outer radius the extrapolation rule decides; the poloidal angle
    is periodic *)
Theorem C74_outer_rule : forall c1 br bt e outer coef r th, b_rmax br < r -> evaluate c1 br bt e outer coef r th = outer r th coef.
Proof. exact evaluate_outside. Qed.
Print Assumptions C74_outer_rule.
Theorem C74_inside : forall c1 br bt e outer coef r th, r <= b_rmax br -> b_rmin bt <= th <= b_rmax bt ->
  evaluate c1 br bt e outer coef r th = derivative c1 br bt e coef 0 0 r th.
Proof. exact evaluate_inside. Qed.
Print Assumptions C74_inside.
Theorem C74_periodic : forall c1 br bt tr tt m x0 y0, polar_setup c1 br bt tr tt m x0 y0 -> periodic_knots bt tt -> (1 <= b_deg bt)%nat ->
  forall e, polar_make c1 br bt m = Ok e -> forall outer coef r th k, length coef = polar_nbasis c1 br bt -> b_rmin br <= r ->
    (r <= b_rmax br \/ forall z, outer r (th + IZR z * b_length bt) coef = outer r th coef) ->
    evaluate c1 br bt e outer coef r (th + IZR k * b_length bt) = evaluate c1 br bt e outer coef r th.
Proof. exact evaluate_period. Qed.
Print Assumptions C74_periodic.
Example C74_example : periodic_knots disc_t knots_t /\ (1 <= b_deg disc_t)%nat.
Proof. split; [exact knots_t_periodic|cbn; lia]. Qed.

(** FINDING C74: the constructor accepts every radial space with more than C+1 functions (the assertion compares C+1
    with size()), but with at most C+1 radial CELLS every evaluation, at every point, reads coefficients outside of the
    coefficient array: jmin_r is moved to C+1 and the loop still runs over degree+1 rows (polar_spline_evaluator.hpp:
    536-545; the values it multiplies them with are 0) *)
Theorem C74_few_cells_refuted : forall c1 br bt tr tt m x0 y0, bspline_space br tr -> clamped br tr -> bspline_space bt tt -> polar_mapping br bt m ->
  b_rmin br = 0 -> b_rmax bt - b_rmin bt = 2 * PI -> b_rmin bt <= 0 <= b_rmax bt -> row0_is bt m x0 y0 ->
  (1 <= c1 <= 2)%nat -> (b_cells br <= c1 < nbasis_r br)%nat -> (1 <= b_deg br)%nat ->
  exists e, polar_make c1 br bt m = Ok e /\
    forall coef n q r th, length coef = polar_nbasis c1 br bt -> b_rmin br <= r <= b_rmax br -> b_rmin bt <= th <= b_rmax bt ->
      derivative c1 br bt e coef n q r th = Ub.
Proof. exact few_cells. Qed.
Print Assumptions C74_few_cells_refuted.
Example C74_few_cells_example : exists e, polar_make 2 (disc_r 2) disc_t (disc 2) = Ok e /\
  forall coef n q r th, length coef = polar_nbasis 2 (disc_r 2) disc_t -> b_rmin (disc_r 2) <= r <= b_rmax (disc_r 2) -> b_rmin disc_t <= th <= b_rmax disc_t ->
      derivative 2 (disc_r 2) disc_t e coef n q r th = Ub.
Proof.
  apply (C74_few_cells_refuted 2 (disc_r 2) disc_t (knots_r 2) knots_t (disc 2) 0 0); auto using disc_r_clamped, disc_t_ok, disc_mapping, disc_period, disc_contains_0, disc_row0, disc_r_ok.
  cbn; lia.
  cbn; lia.
Qed.

(** FINDING C74: the derivative operators do not wrap the poloidal angle: with a B-spline basis which refuses coordinates
    outside of its domain (as DDC's does in a debug build), the value at theta = -1 is defined and the derivative is not *)
Theorem C74_derivative_not_wrapped_refuted :
  exists e coef, polar_make 2 (disc_r 4) (guarded disc_t) (disc 4) = Ok e /\ length coef = polar_nbasis 2 (disc_r 4) (guarded disc_t) /\
  forall outer, (exists v, evaluate 2 (disc_r 4) (guarded disc_t) e outer coef 1 (-1) = Ok v) /\
  derivative 2 (disc_r 4) (guarded disc_t) e coef 0 1 1 (-1) = AssertFail.
Proof. exact disc_unwrapped. Qed.
Print Assumptions C74_derivative_not_wrapped_refuted.

(** C75: the integrals of the polar basis: for all coefficients, the sum of the coefficients times the integrals is the
    integral of the polar spline over the (r, theta) domain *)
Theorem C75_integrals : forall c1 br bt tr tt m x0 y0 e rint tint, polar_setup c1 br bt tr tt m x0 y0 -> polar_make c1 br bt m = Ok e ->
  radial_integrals br tr rint -> periodic_integrals bt tt tint ->
  exists ints, polar_integrals c1 br bt e rint tint = Ok ints /\ length ints = polar_nbasis c1 br bt /\
    forall coef outer s, length coef = polar_nbasis c1 br bt ->
      (forall r th, b_rmin br <= r <= b_rmax br -> b_rmin bt <= th <= b_rmax bt -> evaluate c1 br bt e outer coef r th = Ok (s r th)) ->
      exists g, (forall r, b_rmin br <= r <= b_rmax br -> is_RInt (V := R_CompleteNormedModule) (s r) (b_rmin bt) (b_rmax bt) (g r)) /\
        is_RInt (V := R_CompleteNormedModule) g (b_rmin br) (b_rmax br) (Rsum (polar_nbasis c1 br bt) (fun k => nth k coef 0 * nth k ints 0)).
Proof. exact integrals_correct. Qed.
Print Assumptions C75_integrals.
Example C75_example : exists rint tint, radial_integrals (disc_r 4) (knots_r 4) rint /\ periodic_integrals disc_t knots_t tint.
Proof. exact (disc_integrals 4). Qed.

(** C76: the discrete mapping: the Jacobian matrix, its components and its determinant agree *)
Theorem C76_jacobian : forall m r th J, dm_jacobian_matrix m r th = Ok J ->
  (forall i j, (i < 2)%nat -> (j < 2)%nat -> dm_jacobian_component m i j r th = Ok (J i j)) /\
  dm_jacobian m r th = Ok (J 0%nat 0%nat * J 1%nat 1%nat - J 0%nat 1%nat * J 1%nat 0%nat).
Proof. exact jacobian_consistent. Qed.
Print Assumptions C76_jacobian.
(** and the matrix is that of the partial derivatives of the mapping, strictly inside of every cell *)
Theorem C76_jacobian_is_derivative : forall br bt tr tt m, bspline_space br tr -> bspline_space bt tt -> polar_mapping br bt m ->
  forall X Y r th, (forall r th, b_rmin br <= r <= b_rmax br -> b_rmin bt <= th <= b_rmax bt -> dm_apply m r th = Ok (X r th, Y r th)) ->
    inside_cell br tr r -> inside_cell bt tt th ->
    exists J, dm_jacobian_matrix m r th = Ok J /\
      derivable_pt_lim (fun r => X r th) r (J 0%nat 0%nat) /\ derivable_pt_lim (fun th => X r th) th (J 0%nat 1%nat) /\
      derivable_pt_lim (fun r => Y r th) r (J 1%nat 0%nat) /\ derivable_pt_lim (fun th => Y r th) th (J 1%nat 1%nat).
Proof. exact jacobian_is_derivative. Qed.
Print Assumptions C76_jacobian_is_derivative.
(** at the pole: the point is the pole for every angle, the Jacobian is singular, and the first-order matrix is the
    limit of the Jacobian matrix with its theta column divided by r *)
Theorem C76_pole : forall br bt tr tt m x0 y0 th, bspline_space br tr -> clamped br tr -> bspline_space bt tt -> polar_mapping br bt m ->
  b_rmin br = 0 -> row0_is bt m x0 y0 -> b_rmin bt <= th <= b_rmax bt ->
  dm_apply m 0 th = Ok (x0, y0) /\ dm_jacobian m 0 th = Ok 0 /\
  exists J, dm_first_order m 0 th = Ok J /\ dm_jacobian_component m 0 0 0 th = Ok (J 0%nat 0%nat) /\ dm_jacobian_component m 1 0 0 th = Ok (J 1%nat 0%nat) /\
    forall eps, 0 < eps -> exists d, 0 < d /\ forall r, 0 < r < d -> exists A j, dm_jacobian_matrix m r th = Ok A /\ dm_jacobian m r th = Ok j /\
      Rabs (A 0%nat 1%nat / r - J 0%nat 1%nat) < eps /\ Rabs (A 1%nat 1%nat / r - J 1%nat 1%nat) < eps.
Proof. exact mapping_pole. Qed.
Print Assumptions C76_pole.
Example C76_example : exists J, dm_jacobian_matrix (disc 4) 1 1 = Ok J /\ bspline_space (disc_r 4) (knots_r 4) /\ clamped (disc_r 4) (knots_r 4) /\
  bspline_space disc_t knots_t /\ polar_mapping (disc_r 4) disc_t (disc 4) /\ row0_is disc_t (disc 4) 0 0.
Proof.
  eexists. split; [reflexivity|]. split; [apply disc_r_ok; lia|]. split; [apply disc_r_clamped|]. split; [apply disc_t_ok|]. split; [apply disc_mapping|apply disc_row0].
Qed.
