(** C24-C28, C47, C48: coordinate transformations. *)
From Coquelicot Require Import Coquelicot.
From Coq Require Import Lra Lia.
From Verif Require Import MappingSpec MappingProofs MappingCzarny MappingCyl MappingVec MappingComb.
Open Scope R_scope.

(** ** C24: circular mapping *)
Theorem C24_jacobian : forall ox oy p, jacobian_ok 2 (circular ox oy) p.
Proof. exact circ_jacobian. Qed.
Print Assumptions C24_jacobian.
Theorem C24_inverse_jacobian : forall ox oy p, tiny <= Rabs (p 0%nat) -> inv_jacobian_ok 2 (circular ox oy) p.
Proof. exact circ_inverse. Qed.
Print Assumptions C24_inverse_jacobian.
(** the Cartesian to circular mapping is a right inverse everywhere, and a left inverse off the axis on
    one turn of angles *)
Theorem C24_right_inverse : forall ox oy p,
  same_coord 2 (m_apply (circular ox oy) (m_apply (cart_circ ox oy) p)) p.
Proof. exact circ_right_inverse. Qed.
Print Assumptions C24_right_inverse.
Theorem C24_left_inverse : forall ox oy p, 0 < p 0%nat -> 0 <= p 1%nat < 2 * PI ->
  same_coord 2 (m_apply (cart_circ ox oy) (m_apply (circular ox oy) p)) p.
Proof. exact circ_left_inverse. Qed.
Print Assumptions C24_left_inverse.
(** its own Jacobian, off the half line on which the angle jumps *)
Theorem C24_cartesian_to_circular_jacobian : forall ox oy p, (p 1%nat <> oy \/ p 0%nat < ox) ->
  jacobian_ok 2 (cart_circ ox oy) p.
Proof. exact cart_circ_jacobian. Qed.
Print Assumptions C24_cartesian_to_circular_jacobian.
Theorem C24_range : forall ox oy p,
  0 <= m_apply (cart_circ ox oy) p 0%nat /\ 0 <= m_apply (cart_circ ox oy) p 1%nat < 2 * PI.
Proof. exact cart_circ_range. Qed.
Print Assumptions C24_range.
Example C24_ex : tiny <= Rabs (c2 2 0 0%nat) /\ 0 < c2 2 0 0%nat /\ 0 <= c2 2 0 1%nat < 2 * PI /\
  same_coord 2 (m_apply (circular 1 5) (c2 2 0)) (c2 3 5) /\ same_coord 2 (m_apply (cart_circ 1 5) (c2 3 5)) (c2 2 0).
Proof. exact circ_example. Qed.

(** ** C25: Czarny mapping *)
(** the unit disc is admissible for every 0 < epsilon < 1 and e > 0 *)
Theorem C25_disc_admissible : forall c p, 0 < cz_eps c < 1 -> 0 < cz_e c -> 0 <= p 0%nat <= 1 -> cz_admissible c p.
Proof. exact cz_admissible_disc. Qed.
Print Assumptions C25_disc_admissible.
Theorem C25_jacobian : forall c p, cz_admissible c p -> jacobian_ok 2 (czarny c) p.
Proof. exact cz_jacobian. Qed.
Print Assumptions C25_jacobian.
Theorem C25_inverse_jacobian : forall c p, cz_admissible c p -> tiny <= p 0%nat -> inv_jacobian_ok 2 (czarny c) p.
Proof. exact cz_inverse. Qed.
Print Assumptions C25_inverse_jacobian.
Theorem C25_left_inverse : forall c p, cz_admissible c p -> 0 < p 0%nat -> 0 <= p 1%nat < 2 * PI ->
  same_coord 2 (cart_cz_apply c (m_apply (czarny c) p)) p.
Proof. exact cz_left_inverse. Qed.
Print Assumptions C25_left_inverse.
Theorem C25_right_inverse : forall c p,
  0 < cz_eps c -> cz_eps c * cz_eps c < 4 -> 0 < cz_e c -> -1 < cz_eps c * (p 0%nat - cz_ox c) <= 1 ->
  same_coord 2 (m_apply (czarny c) (cart_cz_apply c p)) p.
Proof. exact cz_right_inverse. Qed.
Print Assumptions C25_right_inverse.
Theorem C25_o_point : forall c t, same_coord 2 (m_apply (czarny c) (c2 0 t)) (cz_o_point c).
Proof. exact cz_opoint. Qed.
Print Assumptions C25_o_point.
Example C25_ex : cz_admissible {| cz_eps := 3 / 10; cz_e := 14 / 10; cz_ox := 0; cz_oy := 0 |} (c2 (1 / 2) 1) /\
  tiny <= c2 (1 / 2) 1 0%nat.
Proof. exact cz_example. Qed.

(** ** C26: cylindrical and toroidal mappings *)
Theorem C26_cylindrical_jacobian : forall p, jacobian_ok 3 cylindrical p.
Proof. exact cyl_jacobian. Qed.
Print Assumptions C26_cylindrical_jacobian.
Theorem C26_cylindrical_inverse_jacobian : forall p, tiny <= Rabs (p 0%nat) -> inv_jacobian_ok 3 cylindrical p.
Proof. exact cyl_inverse. Qed.
Print Assumptions C26_cylindrical_inverse_jacobian.
Theorem C26_right_inverse : forall p, same_coord 3 (m_apply cylindrical (cart_cyl_apply p)) p.
Proof. exact cyl_right_inverse. Qed.
Print Assumptions C26_right_inverse.
Theorem C26_left_inverse : forall p, 0 < p 0%nat -> 0 <= p 2%nat < 2 * PI ->
  same_coord 3 (cart_cyl_apply (m_apply cylindrical p)) p.
Proof. exact cyl_left_inverse. Qed.
Print Assumptions C26_left_inverse.
Theorem C26_cartesian_to_cylindrical_jacobian : forall p, (p 1%nat <> 0 \/ p 0%nat < 0) ->
  partials 3 cart_cyl_apply p (cart_cyl_J p) /\ cart_cyl_jac p = det_n 3 (cart_cyl_J p).
Proof. exact cart_cyl_jacobian. Qed.
Print Assumptions C26_cartesian_to_cylindrical_jacobian.
(** its component accessor cannot be instantiated: no dimension passes both conditions on its first tag *)
Theorem C26_cartesian_to_cylindrical_component_refuted : forall t, cart_cyl_Jc_tag1_accepted t = false.
Proof. exact cart_cyl_component_unusable. Qed.
Print Assumptions C26_cartesian_to_cylindrical_component_refuted.
(** toroidal mapping over any 2D mapping whose Jacobian is right *)
Theorem C26_toroidal_jacobian : forall m p, jacobian_ok 2 m (c2 (p 0%nat) (p 1%nat)) -> well_typed 2 m ->
  jacobian_ok 3 (toroidal m) p.
Proof. exact tor_jacobian. Qed.
Print Assumptions C26_toroidal_jacobian.
Theorem C26_toroidal_inverse : forall m p, invertible_at 2 m (c2 (p 0%nat) (p 1%nat)) ->
  exists K, m_invJ (toroidal m) p = Ok K /\ inverse_of 3 K (m_J (toroidal m) p).
Proof. exact tor_inverse. Qed.
Print Assumptions C26_toroidal_inverse.
Theorem C26_toroidal_inverse_components : forall m p, m_has_inv m = true ->
  inv_jacobian_ok 2 m (c2 (p 0%nat) (p 1%nat)) -> inv_jacobian_ok 3 (toroidal m) p.
Proof. exact tor_inverse_user. Qed.
Print Assumptions C26_toroidal_inverse_components.
Example C26_ex : forall phi, jacobian_ok 3 (toroidal (circular 3 0)) (c3 1 2 phi) /\
  inv_jacobian_ok 3 (toroidal (circular 3 0)) (c3 1 2 phi).
Proof. exact tor_example. Qed.

(** ** C27: barycentric coordinates *)
Theorem C27_sum_one : forall t p, cart_to_bary t p 0%nat + cart_to_bary t p 1%nat + cart_to_bary t p 2%nat = 1.
Proof. exact bary_sum. Qed.
Print Assumptions C27_sum_one.
Theorem C27_right_inverse : forall t p, area2 t <> 0 -> same_coord 2 (bary_to_cart t (cart_to_bary t p)) p.
Proof. intros t p. rewrite <- area2_eq. apply bary_right. Qed.
Print Assumptions C27_right_inverse.
Theorem C27_left_inverse : forall t p, area2 t <> 0 -> p 0%nat + p 1%nat + p 2%nat = 1 ->
  same_coord 3 (cart_to_bary t (bary_to_cart t p)) p.
Proof. intros t p. rewrite <- area2_eq. apply bary_left. Qed.
Print Assumptions C27_left_inverse.
Theorem C27_corners : forall t, area2 t <> 0 ->
  same_coord 3 (cart_to_bary t (c2 (bx1 t) (by1 t))) (c3 1 0 0) /\
  same_coord 3 (cart_to_bary t (c2 (bx2 t) (by2 t))) (c3 0 1 0) /\
  same_coord 3 (cart_to_bary t (c2 (bx3 t) (by3 t))) (c3 0 0 1).
Proof. intros t. rewrite <- area2_eq. apply bary_corner. Qed.
Print Assumptions C27_corners.
Example C27_ex : area2 {| bx1 := 0; by1 := 0; bx2 := 2; by2 := 1; bx3 := 1; by3 := 3 |} <> 0.
Proof. unfold area2; simpl. lra. Qed.

(** ** C28: metric tensor, inverse Jacobian helper, changes of vector space *)
(** the helper for a mapping without an inverse of its own, in two and three dimensions *)
Theorem C28_helper_matrix : forall n m p, m_has_inv m = false -> n = 2%nat \/ n = 3%nat ->
  tiny < Rabs (det_n n (m_J m p)) -> invertible_at n m p.
Proof. exact helper_generic. Qed.
Print Assumptions C28_helper_matrix.
(** and for a mapping with one *)
Theorem C28_helper_forwards : forall n m p, m_has_inv m = true -> inv_jacobian_ok n m p ->
  exists K, inverse_jacobian_matrix n m p = Ok K /\ inverse_of n K (m_J m p) /\
    forall i j, (i < n)%nat -> (j < n)%nat -> inverse_jacobian_component n m i j p = Ok (K i j).
Proof. exact helper_user. Qed.
Print Assumptions C28_helper_forwards.
Theorem C28_helper_component : forall m p, m_has_inv m = false -> jacobian_ok 2 m p ->
  tiny < Rabs (det_n 2 (m_J m p)) ->
  exists K, inverse_jacobian_matrix 2 m p = Ok K /\ inverse_of 2 K (m_J m p) /\
    forall i j, (i < 2)%nat -> (j < 2)%nat -> inverse_jacobian_component 2 m i j p = Ok (K i j).
Proof. exact helper_component_matrix. Qed.
Print Assumptions C28_helper_component.
(** metric: scalar products of the columns of the Jacobian matrix; symmetric; inverted by inverse() *)
Theorem C28_metric : forall n m p i k,
  metric n m p i k = dot n (fun j => m_J m p j i) (fun j => m_J m p j k) /\ metric n m p i k = metric n m p k i.
Proof. exact metric_spec. Qed.
Print Assumptions C28_metric.
Theorem C28_metric_inverse : forall n m p, invertible_at n m p ->
  exists h, metric_inverse n m p = Ok h /\ inverse_of n h (metric n m p) /\ forall i k, h i k = h k i.
Proof. exact metric_inverse_ok. Qed.
Print Assumptions C28_metric_inverse.
(** to_vector_space keeps the geometric vector, between any two of the four spaces of a mapping to a
    Cartesian space *)
Theorem C28_same_vector : forall n m p s1 s2 v u, invertible_at n m p ->
  represents n (m_J m p) s1 v u ->
  exists w, to_vector_space true n m p s1 s2 v = Ok w /\ represents n (m_J m p) s2 w u.
Proof. exact to_space_ok. Qed.
Print Assumptions C28_same_vector.
Theorem C28_components_unique : forall n m p s v, invertible_at n m p ->
  (exists u, represents n (m_J m p) s v u) /\
  (forall w u, represents n (m_J m p) s v u -> represents n (m_J m p) s w u -> same_coord n v w).
Proof. exact represents_bijection. Qed.
Print Assumptions C28_components_unique.
Theorem C28_round_trip : forall n m p s1 s2 v, invertible_at n m p ->
  exists w z, to_vector_space true n m p s1 s2 v = Ok w /\ to_vector_space true n m p s2 s1 w = Ok z /\ same_coord n z v.
Proof. exact round_trip. Qed.
Print Assumptions C28_round_trip.
Theorem C28_path_independent : forall n m p s1 s2 s3 v, invertible_at n m p ->
  exists w z z', to_vector_space true n m p s1 s2 v = Ok w /\ to_vector_space true n m p s2 s3 w = Ok z /\
    to_vector_space true n m p s1 s3 v = Ok z' /\ same_coord n z z'.
Proof. exact path_independent. Qed.
Print Assumptions C28_path_independent.
Theorem C28_pairing : forall n m p a b ua ub, represents n (m_J m p) ArgCov a ua -> represents n (m_J m p) ArgContra b ub ->
  dot n a b = dot n ua ub.
Proof. exact pairing. Qed.
Print Assumptions C28_pairing.
(** the result space not being Cartesian: changes of basis keep the variance *)
Theorem C28_curvilinear : forall n m p v, invertible_at n m p ->
  (exists w z, to_vector_space false n m p ArgContra ResContra v = Ok w /\ represents n (m_J m p) ArgContra v w /\
     to_vector_space false n m p ResContra ArgContra w = Ok z /\ same_coord n z v) /\
  (exists w z, to_vector_space false n m p ArgCov ResCov v = Ok w /\ represents n (m_J m p) ArgCov v w /\
     to_vector_space false n m p ResCov ArgCov w = Ok z /\ same_coord n z v).
Proof. exact curvilinear. Qed.
Print Assumptions C28_curvilinear.
Example C28_ex : invertible_at 2 (circular 0 0) (c2 2 1) /\ invertible_at 2 (cart_circ 0 0) (c2 (-2) 1) /\
  invertible_at 3 cylindrical (c3 2 1 1).
Proof. exact invertible_examples. Qed.

(** ** C47: combined mappings *)
Theorem C47_inverse : forall n m1 inv2 c, invertible_at n m1 c -> invertible_at n inv2 c ->
  exists K J, comb_nonsing n m1 inv2 c = Ok K /\ comb_J n m1 inv2 c = Ok J /\ inverse_of n K J.
Proof. exact comb_inverse. Qed.
Print Assumptions C47_inverse.
Theorem C47_jacobian : forall n m1 inv2 c, n = 2%nat \/ n = 3%nat -> invertible_at n inv2 c ->
  exists d, comb_jac n m1 inv2 c = Ok d /\ det_n n (m_J inv2 c) <> 0 /\ d = det_n n (m_J m1 c) / det_n n (m_J inv2 c).
Proof. exact comb_jac_quotient. Qed.
Print Assumptions C47_jacobian.
Theorem C47_inverse_at_argument : forall n m1 m2 p, invertible_at n m2 p -> invertible_at n m1 (m_apply m2 p) ->
  exists K, comb_invJ_arg n m1 m2 p = Ok K /\ inverse_of n K (comb_J_arg n m1 m2 p).
Proof. exact comb_inverse_arg. Qed.
Print Assumptions C47_inverse_at_argument.
(** chain rule: with m1 differentiable the product of the two matrices is the matrix of partial derivatives *)
Theorem C47_chain_rule : forall m1 m2 p, well_typed 2 m1 -> well_typed 2 m2 ->
  (forall i, (i < 2)%nat -> differentiable_pt_lim (fun x y => m_apply m1 (c2 x y) i) (m_apply m2 p 0%nat) (m_apply m2 p 1%nat)
       (m_J m1 (m_apply m2 p) i 0%nat) (m_J m1 (m_apply m2 p) i 1%nat)) ->
  partials 2 (m_apply m2) p (m_J m2 p) ->
  partials 2 (comb_apply m1 m2) p (comb_J_arg 2 m1 m2 p).
Proof. exact comb_chain. Qed.
Print Assumptions C47_chain_rule.
(** pseudo-Cartesian domain of a circular mapping: the inverse Jacobian is the identity everywhere *)
Theorem C47_circular : forall ox oy ox' oy' eps c, tiny <= eps -> 0 <= c 0%nat ->
  exists K, comb_invJ 2 eps o_point_circ (circular ox oy) (circular ox' oy') c = Ok K /\ is_identity 2 K.
Proof. intros ox oy ox' oy' eps c H H'. exact (comb_circ_invJ ox oy ox' oy' eps c H (or_intror H')). Qed.
Print Assumptions C47_circular.
(** of a Czarny mapping: the Jacobian matrix is the matrix of partial derivatives of the composed map *)
Theorem C47_czarny_jacobian : forall c p, cz_admissible c p -> tiny <= p 0%nat ->
  exists J, comb_J 2 (czarny c) (circular 0 0) p = Ok J /\
    partials 2 (comb_apply (czarny c) (cart_circ 0 0)) (m_apply (circular 0 0) p) J.
Proof. exact comb_cz_J. Qed.
Print Assumptions C47_czarny_jacobian.
(** the matrix used at the O-point inverts the partial derivatives of the composed map at the origin *)
Theorem C47_czarny_o_point : forall c, 0 < cz_eps c -> cz_eps c * cz_eps c < 3 -> 0 < cz_e c ->
  exists D, partials 2 (comb_apply (czarny c) (cart_circ 0 0)) (c2 0 0) D /\ inverse_of 2 (o_point_cz c) D.
Proof. exact opoint_cz_inverse. Qed.
Print Assumptions C47_czarny_o_point.
(** inv_jacobian_matrix: exact at the axis and from epsilon on, linear in r in between *)
Theorem C47_czarny_inverse : forall c eps p, tiny <= eps -> cz_admissible c (c2 eps (p 1%nat)) ->
  (p 0%nat = 0 -> exists K, comb_invJ 2 eps (o_point_cz c) (czarny c) (circular 0 0) p = Ok K /\ forall i j, K i j = o_point_cz c i j) /\
  (eps <= p 0%nat -> cz_admissible c p ->
     exists K J, comb_invJ 2 eps (o_point_cz c) (czarny c) (circular 0 0) p = Ok K /\
       partials 2 (comb_apply (czarny c) (cart_circ 0 0)) (m_apply (circular 0 0) p) J /\ inverse_of 2 K J) /\
  (0 <= p 0%nat < eps ->
     exists K Ke, comb_invJ 2 eps (o_point_cz c) (czarny c) (circular 0 0) p = Ok K /\
       comb_invJ 2 eps (o_point_cz c) (czarny c) (circular 0 0) (c2 eps (p 1%nat)) = Ok Ke /\
       forall i j, K i j = (1 - p 0%nat / eps) * o_point_cz c i j + p 0%nat / eps * Ke i j).
Proof. exact comb_cz_invJ. Qed.
Print Assumptions C47_czarny_inverse.
Example C47_ex : invertible_at 2 (czarny {| cz_eps := 3 / 10; cz_e := 14 / 10; cz_ox := 0; cz_oy := 0 |}) (c2 (1 / 2) 1) /\
  invertible_at 2 (circular 0 0) (c2 (1 / 2) 1).
Proof. exact comb_example. Qed.

(** ** C48: linear transformations and their products *)
Theorem C48_linear : forall l x, derivable_pt_lim (linear_apply l) x (linear_jac l) /\ linear_apply l (lt_in l) = lt_out l.
Proof. intros l x. exact (conj (linear_derivative l x) (linear_reference l)). Qed.
Print Assumptions C48_linear.
Theorem C48_linear_inverse : forall l x, lt_scale l <> 0 ->
  linear_apply (linear_inverse l) (linear_apply l x) = x /\ linear_apply l (linear_apply (linear_inverse l) x) = x /\
  linear_jac (linear_inverse l) * linear_jac l = 1.
Proof. exact linear_inverse_ok. Qed.
Print Assumptions C48_linear_inverse.
Theorem C48_product_partials : forall o p, partials 2 (m_apply (orthogonal_map o)) p (m_J (orthogonal_map o) p).
Proof. exact orthogonal_partials. Qed.
Print Assumptions C48_product_partials.
(** jacobian() is the determinant when the argument lists the dimensions in the order of the transformations *)
Theorem C48_product_jacobian : forall o p, ot_as o = false -> jacobian_ok 2 (orthogonal_map o) p.
Proof. exact orthogonal_jacobian. Qed.
Print Assumptions C48_product_jacobian.
(** not otherwise *)
Theorem C48_product_jacobian_refuted : exists o p, m_jac (orthogonal_map o) p <> det_n 2 (m_J (orthogonal_map o) p).
Proof. exact orthogonal_swapped. Qed.
Print Assumptions C48_product_jacobian_refuted.
Theorem C48_product_inverse : forall o p, lt_scale (ot_0 o) <> 0 -> lt_scale (ot_1 o) <> 0 ->
  same_coord 2 (m_apply (orthogonal_map (ot_inverse o)) (m_apply (orthogonal_map o) p)) p /\
  same_coord 2 (m_apply (orthogonal_map o) (m_apply (orthogonal_map (ot_inverse o)) p)) p.
Proof. exact orthogonal_inverse. Qed.
Print Assumptions C48_product_inverse.
Example C48_ex : lt_scale {| lt_in := 1; lt_out := 2; lt_scale := 3 |} <> 0.
Proof. simpl. lra. Qed.
