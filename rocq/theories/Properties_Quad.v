(** C14-C16, C43: quadratures. *)
From Verif Require Import QuadModel QuadSpec QuadProofs SimpsonProofs QuadNdProofs.
Open Scope R_scope.

(** C14: on every strictly increasing mesh the trapezoid coefficients are positive, sum to the
    length and integrate exactly every function affine on each cell. *)
Theorem C14_trapezoid : forall pts fr n c0,
  increasing pts -> (0 <= fr)%Z -> (2 <= n)%nat -> (Z.to_nat fr + n <= length pts)%nat ->
  length c0 = n ->
  exists c, trapezoid_coefficients false pts fr n c0 = Ok c /\ length c = n /\
    (forall i, (i < n)%nat -> 0 < nth i c 0) /\
    Rsum n (fun i => nth i c 0) = point pts fr (n - 1) - point pts fr 0 /\
    (forall f F, affine_on_cells pts fr (n - 1) f ->
       antiderivative_on F f (point pts fr 0) (point pts fr (n - 1)) ->
       quad_value pts fr n c f = F (point pts fr (n - 1)) - F (point pts fr 0)).
Proof. exact trapezoid_np. Qed.
Print Assumptions C14_trapezoid.

(** C14, periodic: the point closing the period belongs to the mesh but not to the range. *)
Theorem C14_trapezoid_periodic : forall pts fr n c0,
  increasing pts -> (0 <= fr)%Z -> (1 <= n)%nat -> (Z.to_nat fr + n < length pts)%nat ->
  length c0 = n ->
  exists c, trapezoid_coefficients true pts fr n c0 = Ok c /\ length c = n /\
    (forall i, (i < n)%nat -> 0 < nth i c 0) /\
    Rsum n (fun i => nth i c 0) = point pts fr n - point pts fr 0 /\
    (forall f F, affine_on_cells pts fr n f -> f (point pts fr n) = f (point pts fr 0) ->
       antiderivative_on F f (point pts fr 0) (point pts fr n) ->
       quad_value pts fr n c f = F (point pts fr n) - F (point pts fr 0)).
Proof. exact trapezoid_per. Qed.
Print Assumptions C14_trapezoid_periodic.

Lemma example_mesh : increasing [0; 1; 3; 4; 6; 7].
Proof.
  intros i j H. simpl in H.
  destruct i as [|[|[|[|[|[|i]]]]]]; destruct j as [|[|[|[|[|[|j]]]]]]; simpl; try lia; lra.
Qed.

(** a non-uniform mesh of 6 points, range of 4 points starting at the second one *)
Example C14_nonvacuous : exists c,
  trapezoid_coefficients false [0; 1; 3; 4; 6; 7] 1 4 [7; 7; 7; 7] = Ok c /\
  quad_value [0; 1; 3; 4; 6; 7] 1 4 c (fun t => 2 * t) = 35.
Proof.
  destruct (C14_trapezoid [0; 1; 3; 4; 6; 7] 1 4 [7; 7; 7; 7]) as [c [E [_ [_ [_ H]]]]];
    [apply example_mesh | lia | lia | simpl; lia | reflexivity |].
  exists c. split; [exact E|]. rewrite (H (fun t => 2 * t) (fun t => t * t)).
  - unfold point. simpl. lra.
  - intros i _. exists 0, 2. intros; ring.
  - intros t _. eapply dpl_eq; [apply (derivable_pt_lim_mult id id t 1 1); apply derivable_pt_lim_id|].
    unfold id. ring.
Qed.

(** C15: exactness on functions that are quadratic on each pair of cells (in particular on
    quadratic polynomials), with an odd number of points at least 3. *)
Theorem C15_simpson : forall pts fr m c0,
  increasing pts -> (0 <= fr)%Z -> (1 <= m)%nat -> (Z.to_nat fr + 2 * m < length pts)%nat ->
  length c0 = (2 * m + 1)%nat ->
  exists c, simpson_coefficients false pts fr (2 * m + 1) c0 = Ok c /\ length c = (2 * m + 1)%nat /\
    forall f F, quadratic_on_pairs pts fr m f ->
      antiderivative_on F f (point pts fr 0) (point pts fr (2 * m)) ->
      quad_value pts fr (2 * m + 1) c f = F (point pts fr (2 * m)) - F (point pts fr 0).
Proof. exact simpson_np. Qed.
Print Assumptions C15_simpson.

(** C15, periodic, with an even number of points at least 4 (two points: see below). *)
Theorem C15_simpson_periodic_partial : forall pts fr m c0,
  increasing pts -> (0 <= fr)%Z -> (2 <= m)%nat -> (Z.to_nat fr + 2 * m < length pts)%nat ->
  length c0 = (2 * m)%nat ->
  exists c, simpson_coefficients true pts fr (2 * m) c0 = Ok c /\ length c = (2 * m)%nat /\
    forall f F, quadratic_on_pairs pts fr m f ->
      f (point pts fr (2 * m)) = f (point pts fr 0) ->
      antiderivative_on F f (point pts fr 0) (point pts fr (2 * m)) ->
      quad_value pts fr (2 * m) c f = F (point pts fr (2 * m)) - F (point pts fr 0).
Proof. exact simpson_per. Qed.
Print Assumptions C15_simpson_periodic_partial.

(** C15: a wrong parity throws, whatever the mesh. *)
Theorem C15_wrong_parity_throws : forall pts fr m c0,
  simpson_coefficients false pts fr (2 * m) c0 = Throw /\
  simpson_coefficients true pts fr (2 * m + 1) c0 = Throw.
Proof. intros; split; [apply simpson_even_throws | apply simpson_odd_throws]. Qed.
Print Assumptions C15_wrong_parity_throws.

(** C15: the mixed rule on an even number of points (at least 4): affine functions are exact and
    the only error on a quadratic is the trapezoid error of the cell at the chosen extremity;
    on an odd number of points it is the Simpson rule. *)
Theorem C15_simpson_trapezoid_partial : forall pts fr m ext c1 c2,
  increasing pts -> (0 <= fr)%Z -> (2 <= m)%nat -> (Z.to_nat fr + 2 * m <= length pts)%nat ->
  length c1 = (2 * m)%nat -> length c2 = (2 * m)%nat ->
  exists c, simpson_trapezoid_coefficients pts fr (2 * m) ext c1 c2 = Ok c /\ length c = (2 * m)%nat /\
    (forall f F, affine f ->
      antiderivative_on F f (point pts fr 0) (point pts fr (2 * m - 1)) ->
      quad_value pts fr (2 * m) c f = F (point pts fr (2 * m - 1)) - F (point pts fr 0)) /\
    (forall f F, quadratic f ->
      antiderivative_on F f (point pts fr 0) (point pts fr (2 * m - 1)) ->
      let e := match ext with FRONT => 0%nat | BACK => (2 * m - 2)%nat end in
      quad_value pts fr (2 * m) c f - (F (point pts fr (2 * m - 1)) - F (point pts fr 0))
      = (point pts fr (S e) - point pts fr e) * (f (point pts fr e) + f (point pts fr (S e))) / 2
        - (F (point pts fr (S e)) - F (point pts fr e))).
Proof. exact mixed_even. Qed.
Print Assumptions C15_simpson_trapezoid_partial.

Theorem C15_simpson_trapezoid_odd : forall pts fr m ext c1 c2 c,
  simpson_coefficients false pts fr (2 * m + 1) c1 = Ok c ->
  simpson_trapezoid_coefficients pts fr (2 * m + 1) ext c1 c2 = Ok c.
Proof. exact mixed_odd. Qed.
Print Assumptions C15_simpson_trapezoid_odd.

(** C15, findings: the parity check accepts a periodic range of two points, and the mixed rule a
    range of two points, but the unsigned loop bound size/2 - 1 - 1 wraps around. *)
Theorem C15_two_periodic_points_refuted : forall pts fr c0,
  simpson_coefficients true pts fr 2 c0 = Ub.
Proof. reflexivity. Qed.
Print Assumptions C15_two_periodic_points_refuted.

Theorem C15_one_cell_mixed_refuted : forall pts fr ext c1 c2,
  simpson_trapezoid_coefficients pts fr 2 ext c1 c2 = Ub.
Proof. intros pts fr [|] c1 c2; reflexivity. Qed.
Print Assumptions C15_one_cell_mixed_refuted.

Example C15_nonvacuous : exists c,
  simpson_coefficients false [0; 1; 3; 4; 6; 7] 1 5 [7; 7; 7; 7; 7] = Ok c /\
  quad_value [0; 1; 3; 4; 6; 7] 1 5 c (fun t => 3 * (t * t)) = 342.
Proof.
  destruct (C15_simpson [0; 1; 3; 4; 6; 7] 1 2 [7; 7; 7; 7; 7]) as [c [E [_ H]]];
    [apply example_mesh | lia | lia | simpl; lia | reflexivity |].
  exists c. split; [exact E|].
  replace 5%nat with (2 * 2 + 1)%nat by reflexivity.
  rewrite (H (fun t => 3 * (t * t)) (fun t => 0 * t + 0 * (t * t / 2) + 3 * (t * t * t / 3))).
  - unfold point. simpl. lra.
  - intros i _. exists 0, 0, 3. intros; ring.
  - intros t _. eapply dpl_eq; [apply quad_antiderivative|]. ring.
Qed.

(** C16: the operator is the sum of coefficient times value over every index of the range... *)
Theorem C16_operator_is_sum : forall g coeff f,
  quadrature g coeff f = nd_sum g (fun i => coeff i * f i).
Proof. exact quadrature_is_sum. Qed.
Print Assumptions C16_operator_is_sum.

Theorem C16_linear : forall g coeff a b f h,
  quadrature g coeff (fun i => a * f i + b * h i) = a * quadrature g coeff f + b * quadrature g coeff h.
Proof. exact quadrature_linear. Qed.
Print Assumptions C16_linear.

(** ... the N-D coefficients integrate a product of 1-D functions to the product of the integrals ... *)
Theorem C16_tensor_product : forall g cs fs, length cs = length g -> length fs = length g ->
  quadrature g (quadrature_coeffs_nd cs) (nd_prod fs) = prod_of_sums g cs fs.
Proof. exact product_rule. Qed.
Print Assumptions C16_tensor_product.

(** ... the batched operator gives in every batch cell the integral of the slice, and writes
    nothing else; *)
Theorem C16_batched : forall gb gq coeff f result i,
  (in_nd gb i -> batched_quadrature gb gq coeff f result i = nd_sum gq (fun iq => coeff iq * f i iq)) /\
  (~ in_nd gb i -> batched_quadrature gb gq coeff f result i = result i).
Proof. exact batched_value. Qed.
Print Assumptions C16_batched.

(** the work items enumerate each index exactly once (no two teams write the same cell, no
    quadrature point is lost or counted twice). *)
Theorem C16_work_items_bijective : forall g,
  (forall k, (k < nd_size g)%nat -> in_nd g (to_discrete_element k g)) /\
  (forall i, in_nd g i -> exists k, (k < nd_size g)%nat /\ to_discrete_element k g = i) /\
  (forall k k', (k < nd_size g)%nat -> (k' < nd_size g)%nat ->
     to_discrete_element k g = to_discrete_element k' g -> k = k').
Proof. exact (fun g => conj (tde_in g) (conj (tde_surj g) (tde_inj g))). Qed.
Print Assumptions C16_work_items_bijective.

(** integration on a mapped domain: the integrand is multiplied by |det J|. *)
Theorem C16_volume : forall g coeff coord jac f,
  quadrature g (coeffs_on_mapping coord jac coeff) f
  = nd_sum g (fun i => coeff i * (f i * Rabs (jac (coord i)))).
Proof. intros. rewrite volume_rule. apply quadrature_is_sum. Qed.
Print Assumptions C16_volume.

Example C16_nonvacuous :
  batched_quadrature [(3%Z, 2%nat)] [(1%Z, 2%nat); (0%Z, 2%nat)] (fun _ => 1/2)
    (fun ib iq => IZR (hd 0%Z ib) + IZR (hd 0%Z iq)) (fun _ => 0) [4%Z] = 11.
Proof.
  rewrite (proj1 (C16_batched _ _ _ _ _ _)); [|simpl; lia]. simpl. lra.
Qed.

(** C43: every Gauss-Legendre table of the library integrates every polynomial of degree at most
    2N-1 over [-1,1] to an accuracy 1e-24 relative to the coefficients of the polynomial ... *)
Theorem C43_gauss_legendre_tables : forall n w p, In (n, (w, p)) gl_tables ->
  length w = n /\ length p = n /\ rule_accuracy (gl_reals w) (gl_reals p) (2 * n) (/ 10 ^ 24).
Proof. exact gl_tables_accuracy. Qed.
Print Assumptions C43_gauss_legendre_tables.

(** ... and the composite rule built on any mesh inherits the accuracy of the reference rule
    (exactness when eps = 0); the points and coefficients have the announced number. *)
Theorem C43_gauss_legendre_composite : forall weight pos d eps edges p F,
  length weight = length pos -> rule_accuracy weight pos d eps -> (length p <= d)%nat ->
  increasing edges -> (2 <= length edges)%nat ->
  antiderivative_on F (peval p) (nth 0 edges 0) (last edges 0) ->
  length (gl_sampling pos edges) = gl_size (length pos) edges /\
  Rabs (Rsum (gl_size (length pos) edges)
          (fun k => gl_coefficient weight edges k * peval p (nth k (gl_sampling pos edges) 0))
        - (F (last edges 0) - F (nth 0 edges 0))) <= eps * local_size p edges.
Proof. exact gl_composite. Qed.
Print Assumptions C43_gauss_legendre_composite.

Example C43_nonvacuous : exists w p, In (3%nat, (w, p)) gl_tables /\ nth 1 (gl_reals p) 1 = 0 /\
  increasing [0; 1; 3; 4; 6; 7].
Proof.
  exists gl_weight_3, gl_pos_3. split; [simpl; tauto|]. split; [|apply example_mesh].
  simpl. unfold Rdiv. ring.
Qed.
