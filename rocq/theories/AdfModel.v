(** Model of AdvectionFieldFinder, src/geometryRTheta/advection_field/advection_field_rtheta.hpp ("adf").
    The potential is the pair of its two partial derivatives, as the evaluator and the spline coefficients give them
    (PolarSplineEvaluator::deriv or DDC's SplineEvaluator2D::deriv).  Real arithmetic is exact.  The fields are lists,
    in the order of the points of the index range; ddc::host_for_each visits them one after the other. *)
From Verif Require Import Lib DerivModel MathModel MappingModel PspModel.
Open Scope R_scope.

(** evaluator.deriv(Idx<ddc::Deriv<R>>(1), coord, coef) and evaluator.deriv(Idx<ddc::Deriv<Theta>>(1), coord, coef) *)
Record potential := { ph_r : R -> R -> res R; ph_t : R -> R -> res R }.
(** adf 190-193, 418-422: the evaluator is m_polar_spline_evaluator *)
Definition polar_potential (c1 : nat) (br bt : bspace) (e : elements) (coef : list R) : potential :=
  {| ph_r := derivative c1 br bt e coef 1 0; ph_t := derivative c1 br bt e coef 0 1 |}.

(** adf 265-266 and 516-517 *)
Definition th1 : R := PI / 4.
Definition th2 : R := - PI / 4 + 2 * PI.

(** adf 268-297 and 519-547: the gradient at the O-point from the radial derivatives in two directions *)
Definition centre_gradient (m : mapping) (ph : potential) : res (R * R) :=
  let* dr_x_1 := m_Jc m 0 0 (c2 0 th1) in
  let* dr_y_1 := m_Jc m 1 0 (c2 0 th1) in
  let* dr_x_2 := m_Jc m 0 0 (c2 0 th2) in
  let* dr_y_2 := m_Jc m 1 0 (c2 0 th2) in
  let* deriv_r_phi_1 := ph_r ph 0 th1 in
  let* deriv_r_phi_2 := ph_r ph 0 th2 in
  let determinant := dr_x_1 * dr_y_2 - dr_x_2 * dr_y_1 in
  Ok ((dr_y_2 * deriv_r_phi_1 - dr_y_1 * deriv_r_phi_2) / determinant,
      (- dr_x_2 * deriv_r_phi_1 + dr_x_1 * deriv_r_phi_2) / determinant).

(** tensor_mul(index<'j', 'i'>(inv_J), index<'j'>(d)), adf 256-257 and 321; the tensor product is the sum it
    denotes (C20) *)
Definition pull_back (K : nat -> nat -> R) (dr dt : R) : R * R :=
  (Rsum 2 (fun j => K j 0%nat * c2 dr dt j), Rsum 2 (fun j => K j 1%nat * c2 dr dt j)).
Definition neg2 (v : R * R) : R * R := (- fst v, - snd v).

(** adf 244-329: the electric field at one point; [d]: deriv_phi(irtheta) *)
Definition electric_field (m : mapping) (eps : R) (ph : potential) (r th : R) (d : R * R) : res (R * R) :=
  if Rlt_dec eps r then
    let* inv_J := inverse_jacobian_matrix 2 m (c2 r th) in
    let grad_phi := pull_back inv_J (fst d) (snd d) in
    Ok (- fst grad_phi, - snd grad_phi)
  else
    let* deriv_phi_0 := centre_gradient m ph in
    let electric_field_0 := neg2 deriv_phi_0 in
    let* inv_J_eps := inverse_jacobian_matrix 2 m (c2 eps th) in
    let* dr := ph_r ph eps th in
    let* dt := ph_t ph eps th in
    let electric_field_epsilon := neg2 (pull_back inv_J_eps dr dt) in
    Ok (fst electric_field_0 * (1 - r / eps) + fst electric_field_epsilon * r / eps,
        snd electric_field_0 * (1 - r / eps) + snd electric_field_epsilon * r / eps).

(** adf 208-337: compute_advection_field_XY *)
Definition advection_field_xy (m : mapping) (eps : R) (ph : potential) (grid : list (R * R)) : res (list (R * R)) :=
  let* deriv_r := map_res (fun p => ph_r ph (fst p) (snd p)) grid in
  let* deriv_t := map_res (fun p => ph_t ph (fst p) (snd p)) grid in
  map_res (fun q =>
    let '(p, d) := q in
    let* E := electric_field m eps ph (fst p) (snd p) d in
    Ok (snd E, - fst E)) (combine grid (combine deriv_r deriv_t)).
(** the default of m_epsilon, adf 120 *)
Definition default_epsilon : R := / 10 ^ 12.
(** adf 140-153: from the values of the potential; [build]: DDC's builder, [ev]: m_spline_evaluator *)
Definition advection_field_xy_of_values (m : mapping) (eps : R) (build : list R -> res (list R)) (ev : list R -> potential)
  (phi : list R) (grid : list (R * R)) : res (list (R * R)) :=
  let* coef := build phi in
  advection_field_xy m eps (ev coef) grid.

(** adf 484-512: the advection field at one point, in the contravariant basis (e_r, e_theta) *)
Definition contravariant_field (m : mapping) (r th : R) (d : R * R) : res (R * R) :=
  let* inv_G := metric_inverse 2 m (c2 r th) in
  let J := m_J m (c2 r th) in
  let jacobian := m_jac m (c2 r th) in
  let e i := - Rsum 2 (fun j => inv_G i j * c2 (fst d) (snd d) j) in
  Ok ((J 0%nat 0%nat * J 0%nat 1%nat + J 1%nat 0%nat * J 1%nat 1%nat) * e 0%nat / jacobian
        + (J 1%nat 1%nat * J 1%nat 1%nat + J 0%nat 1%nat * J 0%nat 1%nat) * e 1%nat / jacobian,
      - (J 0%nat 0%nat * J 0%nat 0%nat + J 1%nat 0%nat * J 1%nat 0%nat) * e 0%nat / jacobian
        - (J 0%nat 0%nat * J 0%nat 1%nat + J 1%nat 0%nat * J 1%nat 1%nat) * e 1%nat / jacobian).
(** adf 441-550: compute_advection_field_RTheta; [grid]: the index range of the result, without the O-point *)
Definition advection_field_rtheta (m : mapping) (ph : potential) (grid : list (R * R)) : res (list (R * R) * (R * R)) :=
  let* deriv_r := map_res (fun p => ph_r ph (fst p) (snd p)) grid in
  let* deriv_t := map_res (fun p => ph_t ph (fst p) (snd p)) grid in
  let* a := map_res (fun q => let '(p, d) := q in contravariant_field m (fst p) (snd p) d)
              (combine grid (combine deriv_r deriv_t)) in
  let* g := centre_gradient m ph in
  Ok (a, (- snd g, fst g)).
