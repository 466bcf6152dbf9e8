(** C56, C57: one dimensional semi-Lagrangian advections. *)
From Verif Require Import AdvSpec AdvProofs AdvLagrangeModel LagrangeSpec AdvMain.
Open Scope R_scope.

(** ** C56 *)
(** The spatial advection replaces the value at a point by the interpolant of its own line at the foot of
    the characteristic, and changes nothing else: it does not depend on the order in which the lines are
    visited nor on the content of the preallocated buffers, and no species sees the values of another. *)
Theorem C56_spatial : forall C (itp : interpolator C) mass ielec n nb x ns vel dt order feet0 coefs0 f,
  (forall isp, (isp < ns)%nat -> all_lines nb (order isp)) ->
  forall isp ib ix,
  spatial_advection itp mass ielec n nb x ns vel dt order feet0 coefs0 f isp ib ix =
  if ((isp <? ns) && (ib <? nb) && (ix <? n))%nat
  then interpolant itp n (f isp ib) (x ix - spatial_displacement mass ielec isp (vel ib) dt)
  else f isp ib ix.
Proof. exact @spatial_result. Qed.
Print Assumptions C56_spatial.
Example C56_spatial_ex : all_lines 3 [2; 0; 1]%nat /\ spatial_displacement (fun s => 4 * INR s + 1) 0 2 5 (1 / 10) = 1 / 2 * / 3.
Proof.
  split; [intros ib; simpl; lia|]. unfold spatial_displacement.
  replace ((4 * INR 0 + 1) / (4 * INR 2 + 1)) with ((/ 3) * (/ 3)) by (simpl INR; field).
  rewrite sqrt_square by lra. field.
Qed.

(** The velocity advection moves the line of a spatial point by q E dt sqrt(m_e / m_s). *)
Theorem C56_velocity : forall C (itp : interpolator C) mass charge ielec n nb x ns efield spatial dt order feet0 coefs0 f,
  (forall isp, (isp < ns)%nat -> all_lines nb (order isp)) ->
  forall isp ib ix,
  velocity_advection itp mass charge ielec n nb x ns efield spatial dt order feet0 coefs0 f isp ib ix =
  if ((isp <? ns) && (ib <? nb) && (ix <? n))%nat
  then interpolant itp n (f isp ib)
         (x ix - velocity_displacement mass charge ielec isp (efield (spatial ib)) dt)
  else f isp ib ix.
Proof. exact @velocity_result. Qed.
Print Assumptions C56_velocity.
Theorem C56_null : forall efield dt f isp ib ix, null_advection efield dt f isp ib ix = f isp ib ix.
Proof. reflexivity. Qed.
Print Assumptions C56_null.

(** BslAdvection1D: the foot is the result of the time integration over -dt, from the point, in the
    interpolant of the line of the advection field. *)
Theorem C56_advection_1d : forall C A (fi : interpolator C) (ai : interpolator A) m n nb x proj adv dt order f,
  all_points nb n order -> forall ib ix,
  advection_1d fi ai m n x proj adv dt None None None None order f ib ix =
  if ((ib <? nb) && (ix <? n))%nat
  then interpolant fi n (f ib) (foot_update m (interpolant ai n (adv (proj ib))) (x ix) (- dt))
  else f ib ix.
Proof. exact @advection_1d_result. Qed.
Print Assumptions C56_advection_1d.
Example C56_advection_1d_ex : all_points 2 2 [(1, 0); (0, 1); (1, 1); (0, 0)]%nat.
Proof. intros ib ix. simpl. split; [intros [H|[H|[H|[H|[]]]]]; inversion H; lia|].
  intros [H1 H2]. destruct ib as [|[|]], ix as [|[|]]; try lia; tauto.
Qed.
Theorem C56_derivatives : forall C A (fi : interpolator C) (ai : interpolator A) m n nb x proj adv dt
  amin amax fmin fmax order f, all_points nb n order -> forall ib ix, (ib < nb)%nat -> (ix < n)%nat ->
  advection_1d fi ai m n x proj adv dt (Some amin) (Some amax) (Some fmin) (Some fmax) order f ib ix =
  i_eval fi (i_build fi (Some (fmin ib)) (Some (fmax ib)) (line n (f ib)))
    (foot_update m (i_eval ai (i_build ai (Some (amin (proj ib))) (Some (amax (proj ib))) (line n (adv (proj ib)))))
      (x ix) (- dt)).
Proof. exact @advection_1d_derivatives. Qed.
Print Assumptions C56_derivatives.

(** With an advection field which is constant along a line all the time integration methods give the same
    displacement k dt. *)
Theorem C56_constant_field : forall C A (fi : interpolator C) (ai : interpolator A) m n nb x proj adv dt order f ib ix k,
  all_points nb n order -> (ib < nb)%nat -> (ix < n)%nat ->
  (forall i, (i < n)%nat -> adv (proj ib) i = k) ->
  (forall t, 0 <= t <= 1 -> exact_at ai n x (fun _ => k) (x ix - t * (k * dt))) ->
  advection_1d fi ai m n x proj adv dt None None None None order f ib ix
  = interpolant fi n (f ib) (x ix - k * dt).
Proof. exact @advection_1d_constant. Qed.
Print Assumptions C56_constant_field.

(** With an interpolation that goes through the values a zero time step changes nothing. *)
Theorem C56_zero_step : forall C (itp : interpolator C) n nb x, interpolates itp n x ->
  (forall mass ielec ns vel order feet0 coefs0 f isp ib ix, (forall s, (s < ns)%nat -> all_lines nb (order s)) ->
     spatial_advection itp mass ielec n nb x ns vel 0 order feet0 coefs0 f isp ib ix = f isp ib ix) /\
  (forall mass charge ielec ns efield spatial order feet0 coefs0 f isp ib ix,
     (forall s, (s < ns)%nat -> all_lines nb (order s)) ->
     velocity_advection itp mass charge ielec n nb x ns efield spatial 0 order feet0 coefs0 f isp ib ix = f isp ib ix) /\
  (forall A (ai : interpolator A) m proj adv order f ib ix, all_points nb n order ->
     advection_1d itp ai m n x proj adv 0 None None None None order f ib ix = f ib ix).
Proof.
  exact (fun C itp n nb x Hi => conj
    (fun mass ielec ns vel order feet0 coefs0 f isp ib ix Ho => spatial_zero itp mass ielec n nb x ns vel order feet0 coefs0 f isp ib ix Ho Hi)
    (conj (fun mass charge ielec ns efield spatial order feet0 coefs0 f isp ib ix Ho =>
             velocity_zero itp mass charge ielec n nb x ns efield spatial order feet0 coefs0 f isp ib ix Ho Hi)
          (fun A ai m proj adv order f ib ix Ho => advection_1d_zero itp ai m n nb x proj adv order f Ho Hi ib ix))).
Qed.
Print Assumptions C56_zero_step.

(** A function that the interpolation represents exactly is transported exactly, and two steps are one
    step of the sum of the durations (a step back cancels a step). *)
Theorem C56_transport : forall C (itp : interpolator C) mass ielec n nb x ns vel dt order feet0 coefs0 f isp ib ix g,
  (forall s, (s < ns)%nat -> all_lines nb (order s)) -> (isp < ns)%nat -> (ib < nb)%nat -> (ix < n)%nat ->
  (forall i, (i < n)%nat -> f isp ib i = g (x i)) ->
  exact_at itp n x g (x ix - spatial_displacement mass ielec isp (vel ib) dt) ->
  spatial_advection itp mass ielec n nb x ns vel dt order feet0 coefs0 f isp ib ix =
  g (x ix - spatial_displacement mass ielec isp (vel ib) dt).
Proof. exact @spatial_exact. Qed.
Print Assumptions C56_transport.
Theorem C56_composition : forall C (itp : interpolator C) mass ielec n nb x ns vel dt dt' o1 o2 o3 u1 u2 u3 c1 c2 c3 f isp ib ix g,
  (forall s, (s < ns)%nat -> all_lines nb (o1 s)) -> (forall s, (s < ns)%nat -> all_lines nb (o2 s)) ->
  (forall s, (s < ns)%nat -> all_lines nb (o3 s)) -> (isp < ns)%nat -> (ib < nb)%nat -> (ix < n)%nat ->
  (forall i, (i < n)%nat -> f isp ib i = g (x i)) ->
  let d := spatial_displacement mass ielec isp (vel ib) in
  (forall i, (i < n)%nat -> exact_at itp n x g (x i - d dt)) ->
  exact_at itp n x g (x ix - d (dt + dt')) ->
  exact_at itp n x (fun y => g (y - d dt)) (x ix - d dt') ->
  spatial_advection itp mass ielec n nb x ns vel dt' o2 u2 c2
    (spatial_advection itp mass ielec n nb x ns vel dt o1 u1 c1 f) isp ib ix =
  spatial_advection itp mass ielec n nb x ns vel (dt + dt') o3 u3 c3 f isp ib ix.
Proof. exact @spatial_compose. Qed.
Print Assumptions C56_composition.

(** The hypotheses are those of the Lagrange interpolation of the library: it goes through the values, and
    represents exactly the polynomials of its degree. *)
Theorem C56_lagrange_zero_step : forall b lo up, initialised b -> separated b ->
  (b_periodic b = true -> (b_degree b + 2 <= b_bp b)%nat) ->
  interpolates (lagrange_interpolator b lo up) (if b_periodic b then b_bp b - 1 else b_bp b)%nat (kn b).
Proof. exact lagrange_interpolates. Qed.
Print Assumptions C56_lagrange_zero_step.
Theorem C56_lagrange_polynomial : forall b lo up mass ielec nb ns vel dt order feet0 coefs0 f isp ib ix p,
  initialised b -> b_periodic b = false -> (length p <= S (b_degree b))%nat ->
  (forall s, (s < ns)%nat -> all_lines nb (order s)) -> (isp < ns)%nat -> (ib < nb)%nat -> (ix < b_bp b)%nat ->
  (forall i, (i < b_bp b)%nat -> f isp ib i = peval p (kn b i)) ->
  let y := kn b ix - spatial_displacement mass ielec isp (vel ib) dt in
  in_domain b y -> (forall i, (i < b_bp b)%nat -> tolerance b < Rabs (y - kn b i)) ->
  spatial_advection (lagrange_interpolator b lo up) mass ielec (b_bp b) nb (kn b) ns vel dt order feet0 coefs0 f isp ib ix
  = peval p y.
Proof. exact spatial_polynomial. Qed.
Print Assumptions C56_lagrange_polynomial.

(** ** C57 *)
(** On a periodic uniform grid with Lagrange interpolation of any degree the advections conserve the sum
    of the values of every line (the mass), whatever the displacement, the values, the number of steps. *)
Theorem C57_spatial_mass : forall b lo up mass ielec nb ns vel dt order feet0 coefs0 f isp ib, periodic_uniform b ->
  (forall s, (s < ns)%nat -> all_lines nb (order s)) ->
  Rsum (b_bp b - 1) (fun ix => spatial_advection (lagrange_interpolator b lo up) mass ielec (b_bp b - 1) nb (kn b)
                                 ns vel dt order feet0 coefs0 f isp ib ix)
  = Rsum (b_bp b - 1) (f isp ib).
Proof. exact spatial_mass. Qed.
Print Assumptions C57_spatial_mass.
Example C57_ex : exists b, uniform_basis true 3 0 1 6 = Ok b /\ periodic_uniform b.
Proof. exact ex_basis. Qed.
Theorem C57_velocity_mass : forall b lo up mass charge ielec nb ns efield spatial dt order feet0 coefs0 f isp ib,
  periodic_uniform b -> (forall s, (s < ns)%nat -> all_lines nb (order s)) ->
  Rsum (b_bp b - 1) (fun ix => velocity_advection (lagrange_interpolator b lo up) mass charge ielec (b_bp b - 1) nb (kn b)
                                 ns efield spatial dt order feet0 coefs0 f isp ib ix)
  = Rsum (b_bp b - 1) (f isp ib).
Proof. exact velocity_mass. Qed.
Print Assumptions C57_velocity_mass.
Theorem C57_advection_1d_mass : forall b lo up lo' up' m nb proj adv dt order f ib k, periodic_uniform b ->
  all_points nb (b_bp b - 1) order -> (forall i, (i < b_bp b - 1)%nat -> adv (proj ib) i = k) ->
  Rsum (b_bp b - 1) (fun ix => advection_1d (lagrange_interpolator b lo up) (lagrange_interpolator b lo' up') m
                                 (b_bp b - 1) (kn b) proj adv dt None None None None order f ib ix)
  = Rsum (b_bp b - 1) (f ib).
Proof. exact advection_1d_mass. Qed.
Print Assumptions C57_advection_1d_mass.

(** a displacement by q cells is the cyclic permutation of the values by q places *)
Theorem C57_whole_cells : forall b lo up mass ielec nb ns vel dt order feet0 coefs0 f isp ib ix q, periodic_uniform b ->
  (forall s, (s < ns)%nat -> all_lines nb (order s)) -> (isp < ns)%nat -> (ib < nb)%nat -> (ix < b_bp b - 1)%nat ->
  spatial_displacement mass ielec isp (vel ib) dt = IZR q * b_step b ->
  spatial_advection (lagrange_interpolator b lo up) mass ielec (b_bp b - 1) nb (kn b) ns vel dt order feet0 coefs0 f isp ib ix
  = f isp ib (Z.to_nat ((Z.of_nat ix - q) mod Z.of_nat (b_bp b - 1))).
Proof. exact spatial_cells. Qed.
Print Assumptions C57_whole_cells.

(** the interpolation never fails: whatever the displacement, no assertion, no access out of bounds *)
Theorem C57_no_failure : forall b lo up vals, initialised b -> separated b ->
  length vals = (if b_periodic b then b_bp b - 1 else b_bp b)%nat ->
  (b_periodic b = true -> (b_degree b + 2 <= b_bp b)%nat) ->
  exists coef, identity_builder b vals = Ok coef /\ forall x, exists y, lagrange_eval b lo up coef x = Ok y.
Proof. exact lagrange_total. Qed.
Print Assumptions C57_no_failure.
