(** C22, C23, C46: Lagrange interpolation. *)
From Verif Require Import LagrangeSpec LagrangeProofs LagrangeStencilProofs LagrangeEvalProofs.
From Coq Require Import Lra Lia.
Open Scope R_scope.

(** ** C22 *)
(** eval_basis returns the D+1 Lagrange polynomials of the knots of the stencil at the coordinate, or,
    when the coordinate is within the tolerance of a knot of the stencil, at that knot *)
Theorem C22_basis_values : forall b s x, initialised b ->
  (s + b_degree b < length (b_knots b))%nat -> kn b s <= x <= kn b (s + b_degree b) ->
  exists x2, evaluated_at b s x x2 /\
    ((forall i, (i <= b_degree b)%nat -> tolerance b < Rabs (x - kn b (s + i))) -> x2 = x) /\
    eval_basis b x (Z.of_nat s) =
      Ok (map (fun i => lagrange_poly (b_degree b) (fun j => kn b (s + j)) i x2) (seq 0 (S (b_degree b)))).
Proof. intros b s x H. exact (eval_basis_spec b (initialised_good b H) s x). Qed.
Print Assumptions C22_basis_values.

Theorem C22_partition_of_unity : forall b s x, initialised b ->
  (s + b_degree b < length (b_knots b))%nat -> kn b s <= x <= kn b (s + b_degree b) ->
  exists vals, eval_basis b x (Z.of_nat s) = Ok vals /\ length vals = S (b_degree b) /\
    Rsum (S (b_degree b)) (fun i => nth i vals 0) = 1.
Proof. exact basis_sum_one. Qed.
Print Assumptions C22_partition_of_unity.

Theorem C22_kronecker : forall b s k, initialised b -> separated b ->
  (s + b_degree b < length (b_knots b))%nat -> (k <= b_degree b)%nat ->
  exists vals, eval_basis b (kn b (s + k)) (Z.of_nat s) = Ok vals /\ length vals = S (b_degree b) /\
    forall i, (i <= b_degree b)%nat -> nth i vals 0 = if (i =? k)%nat then 1 else 0.
Proof. exact basis_kronecker. Qed.
Print Assumptions C22_kronecker.

(** polynomials of degree at most D (peval of at most D+1 coefficients) are reproduced *)
Theorem C22_polynomials : forall b lo up vals p x, initialised b -> b_periodic b = false ->
  length vals = b_bp b -> (length p <= S (b_degree b))%nat ->
  (forall i, (i < b_bp b)%nat -> nth i vals 0 = peval p (kn b i)) -> in_domain b x ->
  exists coef x2, identity_builder b vals = Ok coef /\ lagrange_eval b lo up coef x = Ok (peval p x2) /\
    (x2 = x \/ exists i, (i < b_bp b)%nat /\ x2 = kn b i /\ Rabs (x - x2) <= tolerance b) /\
    ((forall i, (i < b_bp b)%nat -> tolerance b < Rabs (x - kn b i)) -> x2 = x).
Proof. exact build_eval_poly. Qed.
Print Assumptions C22_polynomials.

(** the interpolant of any values takes these values at the knots, periodic or not *)
Theorem C22_knots : forall b lo up vals, initialised b -> separated b ->
  length vals = (if b_periodic b then b_bp b - 1 else b_bp b)%nat ->
  (b_periodic b = true -> (b_degree b + 2 <= b_bp b)%nat) ->
  exists coef, identity_builder b vals = Ok coef /\
    (forall j, (j < length vals)%nat -> lagrange_eval b lo up coef (kn b j) = Ok (nth j vals 0)) /\
    (b_periodic b = true -> lagrange_eval b lo up coef (kn b (b_bp b - 1)) = Ok (nth 0 vals 0)).
Proof. exact build_eval_knots. Qed.
Print Assumptions C22_knots.

(** with the smallest number of points the constructors accept (D+1 break points) the builder of a
    periodic basis reads more values than there are *)
Theorem C22_smallest_periodic_refuted : exists b vals, initialised b /\ b_periodic b = true /\
  length vals = (b_bp b - 1)%nat /\ identity_builder b vals = Ub.
Proof. exact smallest_periodic. Qed.
Print Assumptions C22_smallest_periodic_refuted.

(** a non-uniform basis on a sub-range of its grid does not use the points of the sub-range *)
Theorem C22_sub_range_refuted : exists D pts fr n b, increasing pts /\ (fr + n <= length pts)%nat /\
  non_uniform_basis false D pts fr n = Ok b /\ kn b 0 <> nth fr pts 0.
Proof. exact sub_range. Qed.
Print Assumptions C22_sub_range_refuted.

(** ** C23 *)
(** the search terminates for every coordinate of the domain with D+1 consecutive existing knots around
    the coordinate (or its image by one period), centred unless they touch an end of the domain *)
Theorem C23_stencil : forall b x, initialised b -> in_domain b x ->
  exists x1 s, find_stencil b x = Ok (x1, Z.of_nat s) /\
    (s + b_degree b < length (b_knots b))%nat /\ kn b s <= x1 <= kn b (s + b_degree b) /\
    (x1 = x \/ (b_periodic b = true /\ x1 = x + period b)) /\
    (b_periodic b = false -> (s = 0)%nat \/ (s = b_bp b - 1 - b_degree b)%nat \/ centred b s x1) /\
    (b_periodic b = true -> centred b s x1).
Proof. intros b x H. exact (find_stencil_spec b (initialised_good b H) x). Qed.
Print Assumptions C23_stencil.

(** odd degrees: the cell found contains the coordinate; even degrees: no knot is nearer *)
Theorem C23_closest : forall b x, initialised b -> in_domain b x ->
  exists c, get_closest b x = Ok (Z.of_nat c) /\ (c < b_bp b)%nat /\
    if Nat.even (b_degree b)
    then forall i, (i < b_bp b)%nat -> Rabs (x - kn b c) <= Rabs (x - kn b i)
    else kn b c <= x /\ ((c + 1 < b_bp b)%nat -> x <= kn b (c + 1)).
Proof. exact closest_is_closest. Qed.
Print Assumptions C23_closest.

(** evaluation of coefficients on all the knots inside the domain never fails, whatever they are, and
    is a combination of the D+1 values of the stencil *)
Theorem C23_evaluation : forall b lo up coef x, initialised b -> length coef = length (b_knots b) ->
  in_domain b x ->
  exists s x1 x2, (s + b_degree b < length (b_knots b))%nat /\ kn b s <= x1 <= kn b (s + b_degree b) /\
    (x1 = x \/ (b_periodic b = true /\ x1 = x + period b)) /\ evaluated_at b s x1 x2 /\
    lagrange_eval b lo up coef x =
      Ok (Rsum (S (b_degree b)) (fun i => nth (s + i) coef 0 *
            lagrange_poly (b_degree b) (fun j => kn b (s + j)) i x2)).
Proof. exact evaluation. Qed.
Print Assumptions C23_evaluation.

(** ** C46 *)
Theorem C46_periodic : forall b lo up vals x k, initialised b -> separated b -> b_periodic b = true ->
  length vals = (b_bp b - 1)%nat -> (b_degree b + 2 <= b_bp b)%nat ->
  exists coef y, identity_builder b vals = Ok coef /\ lagrange_eval b lo up coef x = Ok y /\
    lagrange_eval b lo up coef (x + IZR k * period b) = Ok y.
Proof. exact build_eval_periodic. Qed.
Print Assumptions C46_periodic.

Theorem C46_extrapolation : forall b lo up vals x, initialised b -> b_periodic b = false ->
  length vals = b_bp b ->
  exists coef, identity_builder b vals = Ok coef /\
    (x < kn b 0 -> lagrange_eval b lo up coef x =
       Ok match lo with NullValue => 0 | Constant => nth 0 vals 0 end) /\
    (kn b (b_bp b - 1) < x -> lagrange_eval b lo up coef x =
       Ok match up with NullValue => 0 | Constant => nth (b_bp b - 1) vals 0 end).
Proof. exact build_extrapolation. Qed.
Print Assumptions C46_extrapolation.

(** ** The hypotheses are met *)
Example C22_example_uniform : exists b, uniform_basis true 3 0 1 6 = Ok b /\ initialised b /\ separated b.
Proof. exact example_uniform. Qed.
Example C22_example_non_uniform : exists b, non_uniform_basis false 2 [0; 1; 3; 4; 9] 0 5 = Ok b /\
  initialised b /\ separated b /\ in_domain b 2.
Proof. exact example_non_uniform. Qed.
