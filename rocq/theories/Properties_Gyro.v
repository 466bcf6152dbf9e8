(** C65: the gyroaverage. *)
From Verif Require Import GyroSpec GyroProofs.
From Coq Require Import Lra Lia.
Open Scope R_scope.

(** ** C65 *)
(** For every interpolator, geometry, field of Larmor radii, schedule of the loops, and whether the input is a
    distinct field or the output itself: the value stored at every grid point other than the last angle is the
    mean of the reconstruction of the input over the requested number of equally spaced points of the circle
    about the physical position of that grid point with the radius of that grid point.
    The full claim adds the last angle: see C65_last_angle_refuted and C65_repeated_angle. *)
Theorem C65_mean_partial : forall {C} (ai : interpolator2 C) gs nb border order corder A_of A F0,
  (A_of = (fun _ => A) \/ (A_of = (fun F => F) /\ F0 = A)) -> once nb border ->
  (forall ib, all_pairs (gs_nr gs) (gs_nt gs) (order ib)) -> (forall ib, every (gs_nr gs) (corder ib)) ->
  forall ib ir it, (ib < nb)%nat -> (ir < gs_nr gs)%nat -> (S it < gs_nt gs)%nat ->
  gyro_operator ai gs border order corder A_of F0 ib ir it =
  orbit_mean (reconstruction ai gs (A ib)) (position gs ir it) (gs_rho gs ir it) (gs_points gs).
Proof. exact @gyro_mean. Qed.
Print Assumptions C65_mean_partial.
Example C65_schedule_example : once 1 [0%nat] /\ all_pairs 1 4 ring_order /\ every 1 [0%nat].
Proof. exact ring_schedule. Qed.

(** On a grid whose last angle repeats the first one (same physical points, same radii) every value is the mean. *)
Theorem C65_repeated_angle : forall {C} (ai : interpolator2 C) gs nb border order corder A_of A F0,
  (A_of = (fun _ => A) \/ (A_of = (fun F => F) /\ F0 = A)) -> once nb border ->
  (forall ib, all_pairs (gs_nr gs) (gs_nt gs) (order ib)) -> (forall ib, every (gs_nr gs) (corder ib)) ->
  (forall ir, (ir < gs_nr gs)%nat -> position gs ir (gs_nt gs - 1) = position gs ir 0 /\
     gs_rho gs ir (gs_nt gs - 1)%nat = gs_rho gs ir 0%nat) ->
  forall ib ir it, (ib < nb)%nat -> (ir < gs_nr gs)%nat -> (it < gs_nt gs)%nat ->
  gyro_operator ai gs border order corder A_of F0 ib ir it =
  orbit_mean (reconstruction ai gs (A ib)) (position gs ir it) (gs_rho gs ir it) (gs_points gs).
Proof. exact @gyro_repeated. Qed.
Print Assumptions C65_repeated_angle.
Example C65_repeated_angle_example :
  let gs := circular_setup 1 2 3 5 (fun i => INR i) (fun j => INR j * (PI / 2)) (fun _ _ => 1) 8 in
  forall ir, (ir < gs_nr gs)%nat -> position gs ir (gs_nt gs - 1) = position gs ir 0 /\
     gs_rho gs ir (gs_nt gs - 1)%nat = gs_rho gs ir 0%nat.
Proof.
  intros gs ir _. unfold gs, position, circular_setup; cbn [gs_to_phys gs_r gs_t gs_nt gs_rho Nat.sub]. split; [|reflexivity].
  rewrite !pair_circ. cbn [INR]. replace ((1 + 1 + 1 + 1) * (PI / 2)) with (2 * PI) by field.
  rewrite cos_2PI, sin_2PI, Rmult_0_l, cos_0, sin_0. reflexivity.
Qed.

(** FINDING: gyroaverage_operator.hpp 228-231 overwrites the last angle of every ring with the value of the first
    one.  The index range of a periodic angle (as in the operator's own test, which takes the interpolation
    points of a periodic spline: 0, ..., 2 pi (n - 1) / n) does not repeat its first point, so the gyroaverage
    at the last angle is lost: for every affine field reproduced by the splines which differs at the two points,
    the stored value is not the mean over the orbit of the grid point.  (The test TestPeriodicity asserts the
    wrong value; TestAnalytical never looks at the last angle.) *)
Theorem C65_last_angle_refuted : forall {C} (ai : interpolator2 C) gs nb border order corder A_of A F0 a b c,
  (A_of = (fun _ => A) \/ (A_of = (fun F => F) /\ F0 = A)) -> once nb border ->
  (forall ib, all_pairs (gs_nr gs) (gs_nt gs) (order ib)) -> (forall ib, every (gs_nr gs) (corder ib)) ->
  (2 <= gs_points gs)%nat ->
  forall ib ir, (ib < nb)%nat -> (ir < gs_nr gs)%nat -> (0 < gs_nt gs)%nat ->
  (forall x, reconstruction ai gs (A ib) x = quadratic a b c 0 0 0 x) ->
  quadratic a b c 0 0 0 (position gs ir (gs_nt gs - 1)) <> quadratic a b c 0 0 0 (position gs ir 0) ->
  gyro_operator ai gs border order corder A_of F0 ib ir (gs_nt gs - 1)%nat <>
  orbit_mean (reconstruction ai gs (A ib)) (position gs ir (gs_nt gs - 1)) (gs_rho gs ir (gs_nt gs - 1)%nat) (gs_points gs).
Proof. exact @gyro_last_wrong. Qed.
Print Assumptions C65_last_angle_refuted.
(** the field x on one ring of four points 0, pi/2, pi, 3pi/2: 0 at the second, -1 at the third, but 1 (instead
    of 0) at the fourth *)
Example C65_last_angle_example :
  (forall x, reconstruction ring_interp (ring_gs 2 1) (ring_field 0) x = quadratic 0 1 0 0 0 0 x) /\
  quadratic 0 1 0 0 0 0 (position (ring_gs 2 1) 0 (4 - 1)) <> quadratic 0 1 0 0 0 0 (position (ring_gs 2 1) 0 0) /\
  (forall F0, let out := gyro_operator ring_interp (ring_gs 2 1) [0%nat] (fun _ => ring_order) (fun _ => [0%nat])
                           (fun _ => ring_field) F0 in
     out 0%nat 0%nat 1%nat = 0 /\ out 0%nat 0%nat 2%nat = -1 /\ out 0%nat 0%nat 3%nat = 1).
Proof.
  split; [exact (ring_reconstruct 2 1)|]. split; [exact ring_wrong|]. intros F0.
  destruct ring_schedule as (A & B & D). apply ring_result; auto.
Qed.

(** In circular geometry, with at least three points and an orbit inside the disc on which the splines reproduce
    a polynomial of degree at most two of the Cartesian coordinates, the gyroaverage is the polynomial plus
    rho^2/4 times its Laplacian: the long wavelength limit. *)
Theorem C65_quadratic : forall {C} (ai : interpolator2 C) ox oy nr nt r t rho n nb border order corder A F0 A_of
    rmax a b c d e f,
  (A_of = (fun _ => A) \/ (A_of = (fun F => F) /\ F0 = A)) -> once nb border ->
  (forall ib, all_pairs nr nt (order ib)) -> (forall ib, every nr (corder ib)) -> (3 <= n)%nat ->
  forall ib ir it, (ib < nb)%nat -> (ir < nr)%nat -> (S it < nt)%nat ->
  (forall p, 0 <= fst p <= rmax -> 0 <= snd p < 2 * PI ->
     i2_eval ai (i2_build ai (grid2 nr nt (A ib))) p = quadratic a b c d e f (pair_map (circular ox oy) p)) ->
  0 <= r ir -> r ir + Rabs (rho ir it) <= rmax ->
  gyro_operator ai (circular_setup ox oy nr nt r t rho n) border order corder A_of F0 ib ir it =
  quadratic a b c d e f (pair_map (circular ox oy) (r ir, t it)) + (rho ir it) ^ 2 / 4 * (2 * d + 2 * f).
Proof. exact @gyro_quadratic. Qed.
Print Assumptions C65_quadratic.
Example C65_quadratic_example : forall p, 0 <= fst p <= 2 -> 0 <= snd p < 2 * PI ->
  i2_eval {| i2_build := fun v : list (list R) => tt;
             i2_eval := fun _ p => quadratic 1 2 3 4 5 6 (pair_map (circular 1 2) p) |} tt p =
  quadratic 1 2 3 4 5 6 (pair_map (circular 1 2) p) /\ 0 <= 1 /\ 1 + Rabs (1 / 2) <= 2.
Proof. intros p _ _. split; [reflexivity|]. rewrite Rabs_right by lra. lra. Qed.

(** Affine fields (constants among them) are left unchanged, with two points or more. *)
Theorem C65_affine : forall {C} (ai : interpolator2 C) ox oy nr nt r t rho n nb border order corder A F0 A_of rmax a b c,
  (A_of = (fun _ => A) \/ (A_of = (fun F => F) /\ F0 = A)) -> once nb border ->
  (forall ib, all_pairs nr nt (order ib)) -> (forall ib, every nr (corder ib)) -> (2 <= n)%nat ->
  forall ib ir it, (ib < nb)%nat -> (ir < nr)%nat -> (S it < nt)%nat ->
  (forall p, 0 <= fst p <= rmax -> 0 <= snd p < 2 * PI ->
     i2_eval ai (i2_build ai (grid2 nr nt (A ib))) p = quadratic a b c 0 0 0 (pair_map (circular ox oy) p)) ->
  0 <= r ir -> r ir + Rabs (rho ir it) <= rmax ->
  gyro_operator ai (circular_setup ox oy nr nt r t rho n) border order corder A_of F0 ib ir it =
  quadratic a b c 0 0 0 (pair_map (circular ox oy) (r ir, t it)).
Proof. exact @gyro_affine. Qed.
Print Assumptions C65_affine.
Example C65_affine_example : forall p, i2_eval ring_interp (i2_build ring_interp (grid2 1 4 (ring_field 0))) p =
  quadratic 0 1 0 0 0 0 (pair_map (circular 0 0) p).
Proof.
  intros [u v]. unfold ring_interp; cbn [i2_build i2_eval]. unfold grid2, ring_field. cbn [seq map nth].
  replace (cos (INR 0 * (PI / 2))) with 1 by (cbn [INR]; rewrite Rmult_0_l; now rewrite cos_0).
  replace (cos (INR 1 * (PI / 2))) with 0 by (cbn [INR]; rewrite Rmult_1_l; now rewrite cos_PI2).
  replace (cos (INR 2 * (PI / 2))) with (-1) by (cbn [INR]; replace ((1 + 1) * (PI / 2)) with PI by field; now rewrite cos_PI).
  rewrite pair_circ. unfold quadratic; cbn [fst snd]. field.
Qed.

(** A zero Larmor radius gives back the field at the points off the O-point, if the splines interpolate it. *)
Theorem C65_zero_radius : forall {C} (ai : interpolator2 C) ox oy nr nt r t rho n nb border order corder A F0 A_of,
  (A_of = (fun _ => A) \/ (A_of = (fun F => F) /\ F0 = A)) -> once nb border ->
  (forall ib, all_pairs nr nt (order ib)) -> (forall ib, every nr (corder ib)) -> (0 < n)%nat ->
  forall ib ir it, (ib < nb)%nat -> (ir < nr)%nat -> (S it < nt)%nat -> rho ir it = 0 ->
  i2_eval ai (i2_build ai (grid2 nr nt (A ib))) (r ir, t it) = A ib ir it -> 0 < r ir -> 0 <= t it < 2 * PI ->
  gyro_operator ai (circular_setup ox oy nr nt r t rho n) border order corder A_of F0 ib ir it = A ib ir it.
Proof. exact @gyro_identity. Qed.
Print Assumptions C65_zero_radius.
Example C65_zero_radius_example :
  i2_eval ring_interp (i2_build ring_interp (grid2 1 4 (ring_field 0))) (1, INR 1 * (PI / 2)) = ring_field 0 0 1 /\
  0 <= INR 1 * (PI / 2) < 2 * PI.
Proof.
  split; [|cbn [INR]; pose proof PI_RGT_0; lra].
  rewrite C65_affine_example, pair_circ. unfold quadratic, ring_field; cbn [fst snd]. ring.
Qed.

(** Bounds of the reconstruction on the orbits of a ring bound the gyroaverage on that ring. *)
Theorem C65_bounds : forall {C} (ai : interpolator2 C) gs nb border order corder A_of A F0 lo hi,
  (A_of = (fun _ => A) \/ (A_of = (fun F => F) /\ F0 = A)) -> once nb border ->
  (forall ib, all_pairs (gs_nr gs) (gs_nt gs) (order ib)) -> (forall ib, every (gs_nr gs) (corder ib)) ->
  (0 < gs_points gs)%nat -> (0 < gs_nt gs)%nat ->
  forall ib ir it, (ib < nb)%nat -> (ir < gs_nr gs)%nat -> (it < gs_nt gs)%nat ->
  (forall jt x, (jt < gs_nt gs)%nat -> distance x (position gs ir jt) = Rabs (gs_rho gs ir jt) ->
     lo <= reconstruction ai gs (A ib) x <= hi) ->
  lo <= gyro_operator ai gs border order corder A_of F0 ib ir it <= hi.
Proof. exact @gyro_bounds. Qed.
Print Assumptions C65_bounds.
Example C65_bounds_example : forall x, distance x (position (ring_gs 2 0) 0 0) = Rabs 0 ->
  -1 <= reconstruction ring_interp (ring_gs 2 0) (ring_field 0) x <= 1.
Proof.
  intros x D. rewrite ring_reconstruct. unfold distance in D. rewrite Rabs_R0 in D. apply sqrt_eq_0 in D.
  2:{ apply Rplus_le_le_0_compat; apply pow2_ge_0. }
  assert (E : (fst x - fst (position (ring_gs 2 0) 0 0)) ^ 2 = 0).
  { pose proof (pow2_ge_0 (fst x - fst (position (ring_gs 2 0) 0 0))).
    pose proof (pow2_ge_0 (snd x - snd (position (ring_gs 2 0) 0 0))). lra. }
  assert (F : fst x = fst (position (ring_gs 2 0) 0 0)).
  { destruct (Req_dec (fst x - fst (position (ring_gs 2 0) 0 0)) 0) as [Z|Z]; [lra|]. exfalso. now apply (pow_nonzero _ 2 Z). }
  unfold quadratic. rewrite F. unfold position, ring_gs, circular_setup; cbn [gs_to_phys gs_r gs_t].
  rewrite pair_circ. cbn [fst snd INR]. rewrite Rmult_0_l, cos_0. lra.
Qed.

(** With linear splines the operator is linear, on every point. *)
Theorem C65_linear : forall {C} (ai : interpolator2 C) gs nb border order corder A B D F0 F1 F2 a b,
  once nb border ->
  (forall ib, all_pairs (gs_nr gs) (gs_nt gs) (order ib)) -> (forall ib, every (gs_nr gs) (corder ib)) ->
  (forall ib ir it, D ib ir it = a * A ib ir it + b * B ib ir it) ->
  (forall f g p, i2_eval ai (i2_build ai (grid2 (gs_nr gs) (gs_nt gs) (fun i j => a * f i j + b * g i j))) p =
     a * i2_eval ai (i2_build ai (grid2 (gs_nr gs) (gs_nt gs) f)) p +
     b * i2_eval ai (i2_build ai (grid2 (gs_nr gs) (gs_nt gs) g)) p) ->
  forall ib ir it, (ib < nb)%nat -> (ir < gs_nr gs)%nat -> (it < gs_nt gs)%nat ->
  gyro_operator ai gs border order corder (fun _ => D) F0 ib ir it =
  a * gyro_operator ai gs border order corder (fun _ => A) F1 ib ir it +
  b * gyro_operator ai gs border order corder (fun _ => B) F2 ib ir it.
Proof. exact @gyro_linear. Qed.
Print Assumptions C65_linear.
Example C65_linear_example : forall a b f g p,
  i2_eval ring_interp (i2_build ring_interp (grid2 1 4 (fun i j => a * f i j + b * g i j))) p =
  a * i2_eval ring_interp (i2_build ring_interp (grid2 1 4 f)) p + b * i2_eval ring_interp (i2_build ring_interp (grid2 1 4 g)) p.
Proof. intros a b f g [u v]. unfold ring_interp, grid2; cbn [i2_build i2_eval seq map nth fst snd]. field. Qed.
