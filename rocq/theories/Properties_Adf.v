(** Properties C82 - C84: the advection field of the guiding-centre equations (AdvectionFieldFinder). *)
From Coquelicot Require Import Coquelicot.
From Verif Require Import Lib MathModel MappingModel MappingSpec MappingComb PspModel PspSpec PspExamples PpfSpec AdfModel AdfSpec AdfProofs AdfMain AdfPolar AdfDeriv.
Open Scope R_scope.

(** C82: the field along (x, y). *)
(** a field is computed wherever the mapping is invertible and the potential has derivatives; near the centre only the
    point (epsilon, theta) and the two directions at the O-point are used *)
Theorem C82_progress : forall m eps ph grid, 0 < eps ->
  (forall r th, In (r, th) grid -> (exists dr dt, slopes ph r th dr dt) /\
     (eps < r -> invertible_at 2 m (c2 r th)) /\
     (r <= eps -> directions m /\ (exists d, ph_r ph 0 (PI / 4) = Ok d) /\ (exists d, ph_r ph 0 (- PI / 4 + 2 * PI) = Ok d) /\
                  invertible_at 2 m (c2 eps th) /\ exists dr dt, slopes ph eps th dr dt)) ->
  exists A, advection_field_xy m eps ph grid = Ok A.
Proof. exact field_xy_total. Qed.
Print Assumptions C82_progress.
(** A = (-dy phi, dx phi) = E x e_z of the one gradient which the chain rule allows; between the O-point and epsilon the
    linear interpolation of the gradient of the two sampled directions at the O-point and the gradient at epsilon *)
Theorem C82_field : forall m eps ph grid A, advection_field_xy m eps ph grid = Ok A ->
  length A = length grid /\ forall k r th, nth_error grid k = Some (r, th) ->
    (eps < r -> invertible_at 2 m (c2 r th) -> exists g, gradient_at m ph r th g /\ (forall g', gradient_at m ph r th g' -> g' = g) /\
       nth_error A k = Some (rotated g)) /\
    (r <= eps -> 0 < eps -> directions m -> invertible_at 2 m (c2 eps th) ->
       exists g0 ge, pole_slope m ph g0 (PI / 4) /\ pole_slope m ph g0 (- PI / 4 + 2 * PI) /\ gradient_at m ph eps th ge /\
         nth_error A k = Some (rotated (between (r / eps) g0 ge))).
Proof. exact field_xy. Qed.
Print Assumptions C82_field.
(** for every differentiable function F of the plane whose derivatives the evaluator returns, the field is exact outside of
    the disc of radius epsilon, and an interpolation of two exact values inside *)
Theorem C82_exact : forall m F G ph eps grid A, 0 < eps -> well_typed 2 m -> smooth_function F G ->
  advection_field_xy m eps ph grid = Ok A -> forall k r th, nth_error grid k = Some (r, th) ->
  (eps < r -> jacobian_ok 2 m (c2 r th) -> invertible_at 2 m (c2 r th) -> derivatives_of m F ph r th ->
     nth_error A k = Some (rotated (G (m_apply m (c2 r th))))) /\
  (r <= eps -> one_pole m -> directions m -> jacobian_ok 2 m (c2 0 (PI / 4)) -> jacobian_ok 2 m (c2 0 (- PI / 4 + 2 * PI)) ->
     derivatives_of m F ph 0 (PI / 4) -> derivatives_of m F ph 0 (- PI / 4 + 2 * PI) ->
     jacobian_ok 2 m (c2 eps th) -> invertible_at 2 m (c2 eps th) -> derivatives_of m F ph eps th ->
     nth_error A k = Some (rotated (between (r / eps) (G (m_apply m (c2 0 0))) (G (m_apply m (c2 eps th)))))).
Proof. exact exact_field. Qed.
Print Assumptions C82_exact.
(** an interpolated value is no farther from any vector than the two values it is interpolated from *)
Theorem C82_interpolation : forall s u v w d, 0 <= s <= 1 ->
  Rabs (fst u - fst w) <= d -> Rabs (snd u - snd w) <= d -> Rabs (fst v - fst w) <= d -> Rabs (snd v - snd w) <= d ->
  Rabs (fst (between s u v) - fst w) <= d /\ Rabs (snd (between s u v) - snd w) <= d.
Proof. exact between_close. Qed.
Print Assumptions C82_interpolation.
(** non-vacuity: phi = x^2 + y on the disc, at the O-point and at (1/2, pi) *)
Example C82_example : smooth_function F0 G0 /\ (forall r th, derivatives_of (circular 0 0) F0 ph0 r th) /\
  exists A, advection_field_xy (circular 0 0) default_epsilon ph0 [(0, 1); (/ 2, PI)] = Ok A /\
    nth_error A 0 = Some (- 1, 0) /\ nth_error A 1 = Some (- 1, - 1).
Proof. split; [exact F0_smooth|]. split; [exact ph0_derivatives|exact grid_example]. Qed.
(** the two directions are independent on every circular and Czarny domain, and the O-point is one point *)
Theorem C82_mappings : (forall ox oy, directions (circular ox oy) /\ one_pole (circular ox oy)) /\
  (forall c, 0 < cz_eps c -> cz_eps c * cz_eps c < 3 -> 0 < cz_e c -> directions (czarny c) /\ one_pole (czarny c)).
Proof. split; [intros ox oy; split; [apply circ_directions|apply circ_pole]|intros c H1 H2 H3; split; [apply cz_directions; assumption|apply cz_pole]]. Qed.
Print Assumptions C82_mappings.
(** a C1 polar spline has a tangent plane a + b x + c y at the O-point: both fields are (-c, b) there, for every
    coefficient vector *)
Theorem C82_polar_spline : forall br bt tr tt dm x0 y0 e coef m, polar_setup 2 br bt tr tt dm x0 y0 -> polar_make 2 br bt dm = Ok e ->
  length coef = polar_nbasis 2 br bt -> same_centre_directions m dm -> directions m ->
  b_rmin bt <= PI / 4 -> - PI / 4 + 2 * PI <= b_rmax bt ->
  exists a b c K, 0 <= K /\
    (forall r th, 0 <= r < tr (b_deg br + 1)%nat -> b_rmin bt <= th <= b_rmax bt ->
      exists f x y, derivative 2 br bt e coef 0 0 r th = Ok f /\ dm_apply dm r th = Ok (x, y) /\ Rabs (f - affine a b c x y) <= K * (r * r)) /\
    (forall grid A v, advection_field_rtheta m (polar_potential 2 br bt e coef) grid = Ok (A, v) -> v = (- c, b)) /\
    (forall eps grid A k th, 0 < eps -> advection_field_xy m eps (polar_potential 2 br bt e coef) grid = Ok A ->
       nth_error grid k = Some (0, th) -> invertible_at 2 m (c2 eps th) -> nth_error A k = Some (- c, b)).
Proof. exact polar_centre. Qed.
Print Assumptions C82_polar_spline.
Example C82_disc_example : polar_setup 2 (disc_r 4) disc_t (knots_r 4) knots_t (disc 4) 0 0 /\
  same_centre_directions disc_map (disc 4) /\ directions disc_map /\ b_rmin disc_t <= PI / 4 /\ - PI / 4 + 2 * PI <= b_rmax disc_t.
Proof. split; [apply disc_setup; lia|]. split; [apply disc_directions|]. split; [apply disc_directions|exact disc_range]. Qed.

(** the two derivatives which the field takes of a polar spline are the partial derivatives of the spline, strictly inside of every cell *)
Theorem C82_polar_slopes : forall c1 br bt tr tt dm x0 y0 e coef f r th, polar_setup c1 br bt tr tt dm x0 y0 -> polar_make c1 br bt dm = Ok e ->
  length coef = polar_nbasis c1 br bt ->
  (forall r th, b_rmin br <= r <= b_rmax br -> b_rmin bt <= th <= b_rmax bt -> derivative c1 br bt e coef 0 0 r th = Ok (f r th)) ->
  inside_cell br tr r -> inside_cell bt tt th ->
  exists dr dt, slopes (polar_potential c1 br bt e coef) r th dr dt /\
    derivable_pt_lim (fun t => f t th) r dr /\ derivable_pt_lim (fun t => f r t) th dt.
Proof. exact polar_slopes. Qed.
Print Assumptions C82_polar_slopes.
Example C82_slopes_example : inside_cell (disc_r 4) (knots_r 4) (1 / 2) /\ inside_cell disc_t knots_t 1 /\ polar_setup 2 (disc_r 4) disc_t (knots_r 4) knots_t (disc 4) 0 0.
Proof.
  split; [|split].
  - exists 0%nat. split; [cbn; lia|]. unfold knots_r. cbn. lra.
  - exists 0%nat. split; [cbn; lia|]. unfold knots_t. cbn [b_deg disc_t cdb_space Nat.add INR]. pose proof PI_RGT_0. pose proof PI2_1. lra.
  - apply disc_setup. lia.
Qed.
(** the overload which is given the values of the potential: whenever the spline built from them has the derivatives of F at the points, the field is that of F *)
Theorem C82_of_values : forall m F G eps build ev phi grid A, 0 < eps -> well_typed 2 m -> smooth_function F G ->
  (forall coef, build phi = Ok coef -> forall r th, In (r, th) grid -> derivatives_of m F (ev coef) r th) ->
  advection_field_xy_of_values m eps build ev phi grid = Ok A -> forall k r th, nth_error grid k = Some (r, th) ->
  eps < r -> jacobian_ok 2 m (c2 r th) -> invertible_at 2 m (c2 r th) -> nth_error A k = Some (rotated (G (m_apply m (c2 r th)))).
Proof. exact values_overload. Qed.
Print Assumptions C82_of_values.

(** C83: the contravariant field along (r, theta). *)
Theorem C83_progress : forall m ph grid, directions m -> (exists d, ph_r ph 0 (PI / 4) = Ok d) -> (exists d, ph_r ph 0 (- PI / 4 + 2 * PI) = Ok d) ->
  (forall r th, In (r, th) grid -> (exists dr dt, slopes ph r th dr dt) /\ invertible_at 2 m (c2 r th)) ->
  exists A c, advection_field_rtheta m ph grid = Ok (A, c).
Proof. exact field_rt_total. Qed.
Print Assumptions C83_progress.
(** phi is a stream function: jac (A^r, A^theta) = (-d_theta phi, d_r phi); the value for the O-point is the Cartesian one *)
Theorem C83_stream_function : forall m ph grid A c, advection_field_rtheta m ph grid = Ok (A, c) ->
  (length A = length grid /\ forall k r th, nth_error grid k = Some (r, th) ->
    invertible_at 2 m (c2 r th) -> m_jac m (c2 r th) = det_n 2 (m_J m (c2 r th)) ->
    exists dr dt a b, slopes ph r th dr dt /\ nth_error A k = Some (a, b) /\ m_jac m (c2 r th) <> 0 /\
      m_jac m (c2 r th) * a = - dt /\ m_jac m (c2 r th) * b = dr) /\
  (directions m -> exists g, pole_slope m ph g (PI / 4) /\ pole_slope m ph g (- PI / 4 + 2 * PI) /\ c = rotated g).
Proof. exact field_rt. Qed.
Print Assumptions C83_stream_function.
(** both operators compute the same vector: A_xy = J A_rtheta away from the centre *)
Theorem C83_same_vector : forall m eps ph grid A A' c r th k, advection_field_xy m eps ph grid = Ok A -> advection_field_rtheta m ph grid = Ok (A', c) ->
  nth_error grid k = Some (r, th) -> eps < r -> invertible_at 2 m (c2 r th) -> m_jac m (c2 r th) = det_n 2 (m_J m (c2 r th)) ->
  exists ax ay ar at_, nth_error A k = Some (ax, ay) /\ nth_error A' k = Some (ar, at_) /\
    let J := m_J m (c2 r th) in ax = J 0%nat 0%nat * ar + J 0%nat 1%nat * at_ /\ ay = J 1%nat 0%nat * ar + J 1%nat 1%nat * at_.
Proof. exact same_vector. Qed.
Print Assumptions C83_same_vector.
(** ... and the same value at the O-point *)
Theorem C83_same_centre : forall m eps ph grid grid' A A' c th k, 0 < eps -> directions m ->
  advection_field_xy m eps ph grid = Ok A -> advection_field_rtheta m ph grid' = Ok (A', c) ->
  nth_error grid k = Some (0, th) -> invertible_at 2 m (c2 eps th) -> nth_error A k = Some c.
Proof. exact same_centre. Qed.
Print Assumptions C83_same_centre.
(** the field has no divergence: d_r (jac A^r) + d_theta (jac A^theta) = 0, for every potential whose mixed second
    derivatives agree *)
Theorem C83_incompressible : forall m ph fr ft a b r th h,
  (forall r th, ph_r ph r th = Ok (fr r th) /\ ph_t ph r th = Ok (ft r th)) ->
  derivable_pt_lim (fun t => ft t th) r h -> derivable_pt_lim (fun t => fr r t) th h ->
  (exists d, 0 < d /\ forall r' th', Rabs (r' - r) < d -> Rabs (th' - th) < d ->
     invertible_at 2 m (c2 r' th') /\ m_jac m (c2 r' th') = det_n 2 (m_J m (c2 r' th')) /\
     exists c, advection_field_rtheta m ph [(r', th')] = Ok ([(a r' th', b r' th')], c)) ->
  exists u v, derivable_pt_lim (fun t => m_jac m (c2 t th) * a t th) r u /\ derivable_pt_lim (fun t => m_jac m (c2 r t) * b r t) th v /\ u + v = 0.
Proof. exact incompressible. Qed.
Print Assumptions C83_incompressible.
Example C83_example : exists fr ft a b h d, (forall r th, ph_r ph0 r th = Ok (fr r th) /\ ph_t ph0 r th = Ok (ft r th)) /\
  derivable_pt_lim (fun t => ft t 0) 1 h /\ derivable_pt_lim (fun t => fr 1 t) 0 h /\ 0 < d /\
  forall r' th', Rabs (r' - 1) < d -> Rabs (th' - 0) < d ->
     invertible_at 2 (circular 0 0) (c2 r' th') /\ m_jac (circular 0 0) (c2 r' th') = det_n 2 (m_J (circular 0 0) (c2 r' th')) /\
     exists c, advection_field_rtheta (circular 0 0) ph0 [(r', th')] = Ok ([(a r' th', b r' th')], c).
Proof. exact incompressible_example. Qed.

(** Finding: the time solvers document (A_x, A_y) = (-E_y, E_x) (geometryRTheta/time_solver/README.md:16,
    bsl_predcorr.hpp:31-33 and the two second order solvers); the field they advect with is (E_y, -E_x) = E x e_z
    (advection_field_rtheta.hpp:331-335): every vortex turns in the direction opposite to the documented equation. *)
Theorem C84_documented_direction_refuted : ~ (forall m ph eps grid A k r th gx gy, 0 < eps ->
  advection_field_xy m eps ph grid = Ok A -> nth_error grid k = Some (r, th) ->
  eps < r -> invertible_at 2 m (c2 r th) -> gradient_at m ph r th (gx, gy) ->
  let Ex := - gx in let Ey := - gy in nth_error A k = Some (- Ey, Ex)).
Proof. exact docs_direction. Qed.
Print Assumptions C84_documented_direction_refuted.
