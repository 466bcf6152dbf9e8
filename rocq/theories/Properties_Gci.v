(** Properties C90 - C94: initial conditions of the guiding-centre simulations and the time solver of geometryXY. *)
From Coquelicot Require Import Coquelicot.
From Verif Require Import Lib DerivModel MathModel GciModel PcrSpec PcrProofs GciSpec GciDio GciEq GciXY GciExamples.
Open Scope R_scope.

(** C90: the dispersion relation of the diocotron instability. *)
(** get_frequency() and get_slope() are the fastest growing solution of the implemented quadratic equation; it is unique *)
Theorem C90_solution : forall d n, ring_ok d n -> exists re im, diocotron_solution d = Ok (Some (re, im)) /\
  fastest (implemented_b d n) (implemented_c d n) re im /\
  forall re' im', fastest (implemented_b d n) (implemented_c d n) re' im' -> re' = re /\ im' = im.
Proof. exact solution_full. Qed.
Print Assumptions C90_solution.
(** without an inner conductor the implemented equation is the documented one *)
Theorem C90_documented_partial : forall d n re im, ring_ok d n -> W1 d = 0 -> diocotron_solution d = Ok (Some (re, im)) ->
  fastest (documented_b d n) (documented_c d n) re im.
Proof. exact documented_ok. Qed.
Print Assumptions C90_documented_partial.
Example C90_example : ring_ok ring_example 3 /\ W1 ring_example = 0 /\ ring_ok walls 1 /\ W1 walls = 1.
Proof. exact (conj ring_example_ok (conj eq_refl (conj walls_ok eq_refl))). Qed.
(** Finding: diocotron_initialisation_equilibrium.cpp:35-47 multiplies only the first term of b_l and c_l by
    1 / (1 - (W1/W2)^(2l)), where the documentation (.hpp:192-224) has the factor in front of the whole sum.  With an inner
    conductor (W1 > 0) the frequency and the growth rate are those of another equation: for (W1, R1, R2, W2) = (1, 2, 3, 4),
    l = 1, Q = 0 the class reports stable oscillations although the documented relation has a growing solution. *)
Theorem C90_documented_refuted : ~ (forall d n re im, ring_ok d n -> diocotron_solution d = Ok (Some (re, im)) ->
  fastest (documented_b d n) (documented_c d n) re im).
Proof. exact documented_refuted. Qed.
Print Assumptions C90_documented_refuted.
(** Finding: a ring that starts at the axis (R1 = 0, W1 = 0) passes the assertions of the constructor, and
    diocotron_initialisation_equilibrium.cpp:16 has a case for it, but line 11 divides by R1 twice: the frequency and the slope
    are not finite numbers. *)
Theorem C90_filled_disc_refuted : ~ (forall d, 0 <= W1 d <= R1 d -> R1 d < R2 d <= W2 d -> (1 <= mode d)%Z -> (2 * mode d <= int_max)%Z ->
  exists re im, diocotron_solution d = Ok (Some (re, im))).
Proof. exact filled_disc_refuted. Qed.
Print Assumptions C90_filled_disc_refuted.

(** C91: the densities of the diocotron instability. *)
(** the equilibrium: between 1/e and 1 on the ring (1 in the middle), symmetric about the middle, zero outside, the same at every angle *)
Theorem C91_equilibrium : forall d, R1 d < R2 d ->
  (forall r th, R1 d <= r <= R2 d -> exp (- 1) <= dio_equilibrium d r th <= 1) /\
  (forall r th, r < R1 d \/ R2 d < r -> dio_equilibrium d r th = 0) /\
  (forall th, dio_equilibrium d ((R1 d + R2 d) / 2) th = 1) /\
  (forall h th, dio_equilibrium d ((R1 d + R2 d) / 2 + h) th = dio_equilibrium d ((R1 d + R2 d) / 2 - h) th) /\
  (forall r th th', dio_equilibrium d r th = dio_equilibrium d r th') /\
  (forall r th, R1 d <= r <= R2 d -> ln (dio_equilibrium d r th) = - ((2 * r - R1 d - R2 d) / (R2 d - R1 d)) ^ 50).
Proof. exact equilibrium_full. Qed.
Print Assumptions C91_equilibrium.
(** the initial state: the equilibrium with a perturbation of relative size eps, mode l, and no mean *)
Theorem C91_perturbation : forall d, (mode d <> 0)%Z ->
  (forall r th, dio_initialisation d r th = dio_equilibrium d r th * (1 + amplitude d * cos (IZR (mode d) * th))) /\
  (forall r th, Rabs (dio_initialisation d r th - dio_equilibrium d r th) <= Rabs (amplitude d) * dio_equilibrium d r th) /\
  (forall r th, dio_initialisation d r (th + 2 * PI / IZR (mode d)) = dio_initialisation d r th) /\
  (forall r th0, is_RInt (dio_initialisation d r) th0 (th0 + 2 * PI) (2 * PI * dio_equilibrium d r th0)) /\
  (Rabs (amplitude d) <= 1 -> forall r th, 0 <= dio_initialisation d r th).
Proof. exact perturbation_full. Qed.
Print Assumptions C91_perturbation.
Example C91_example : R1 ring_example < R2 ring_example /\ (mode ring_example <> 0)%Z /\ Rabs (amplitude ring_example) <= 1.
Proof. cbn. split; [lra|]. split; [lia|]. rewrite Rabs_pos_eq; lra. Qed.

(** C92: VortexMergerEquilibria. *)
(** a successful search is a run of the iteration; the density is sigma f(phi), single-valued at the pole *)
Theorem C92_search : forall poisson f phi_max tau rs nt count_max sigma phi sigma' phi' rho, 0 <= tau -> (0 < nt)%nat ->
  find_equilibrium poisson f phi_max tau rs nt count_max sigma phi = Ok (Some (sigma', phi', rho)) ->
  exists k ss, eq_run poisson f phi_max tau count_max k ss /\ ss 0%nat = (sigma, phi) /\ ss k = (sigma', phi') /\
    (forall i j, (1 <= i)%nat -> at_rt nt i j rho = at_rt nt i j (product f sigma' phi')) /\
    (at_pole rs -> forall j, (j < nt)%nat -> at_rt nt 0 j rho = at_rt nt 0 0 (product f sigma' phi')) /\
    (~ at_pole rs -> rho = product f sigma' phi').
Proof. exact find_sound. Qed.
Print Assumptions C92_search.
Theorem C92_progress : forall poisson f phi_max tau rs nt count_max k ss, 0 <= tau -> (0 < nt)%nat -> rs <> [] ->
  eq_run poisson f phi_max tau count_max k ss -> (nt <= length (product f (fst (ss k)) (snd (ss k))))%nat ->
  exists rho, find_equilibrium poisson f phi_max tau rs nt count_max (fst (ss 0%nat)) (snd (ss 0%nat)) = Ok (Some (fst (ss k), snd (ss k), rho)).
Proof. exact find_complete. Qed.
Print Assumptions C92_progress.
(** the result: the potential has the norm |phi_max|; a uniform sigma stays uniform; for a homogeneous solver the potential
    solves the Poisson equation for the density of the previous potential, and if the potential did not move it is an equilibrium *)
Theorem C92_result : forall poisson f phi_max tau count_max k ss, eq_run poisson f phi_max tau count_max k ss ->
  sup_norm (snd (ss k)) (Rabs phi_max) /\
  (forall c n, fst (ss 0%nat) = repeat c n -> exists c', fst (ss k) = repeat c' n) /\
  (homogeneous poisson -> poisson (product f (fst (ss k)) (snd (ss (k - 1)%nat))) = Ok (snd (ss k)) /\
     (snd (ss (k - 1)%nat) = snd (ss k) -> poisson (product f (fst (ss k)) (snd (ss k))) = Ok (snd (ss k)))).
Proof. exact result_full. Qed.
Print Assumptions C92_result.
(** set_equilibrium: at most 25 iterations from sigma = 0.3 and a Gaussian, a uniform sigma in the end *)
Theorem C92_default : forall poisson f phi_max tau rs nt xy sigma' phi' rho, 0 <= tau -> (0 < nt)%nat ->
  set_equilibrium poisson f phi_max tau rs nt xy = Ok (Some (sigma', phi', rho)) ->
  exists k ss c, eq_run poisson f phi_max tau 25 k ss /\ (k <= 25)%nat /\ fst (ss 0%nat) = repeat (3 / 10) (length xy) /\
    snd (ss 0%nat) = map (fun p => exp (- (fst p ^ 2 + snd p ^ 2) / (2 * (3 / 10) ^ 2))) xy /\ ss k = (sigma', phi') /\
    sigma' = repeat c (length xy) /\ sup_norm phi' (Rabs phi_max).
Proof. exact default_full. Qed.
Print Assumptions C92_default.
(** no equilibrium is found only if the solver gives a zero potential *)
Theorem C92_failure : forall poisson f phi_max tau rs nt count_max sigma phi, 0 <= tau ->
  find_equilibrium poisson f phi_max tau rs nt count_max sigma phi = Ok None ->
  exists k ss star, (k < Nat.max 1 (Z.to_nat count_max))%nat /\ ss 0%nat = (sigma, phi) /\ (forall i, (i < k)%nat -> eq_step poisson f phi_max (ss i) (ss (S i))) /\
    poisson (product f (fst (ss k)) (snd (ss k))) = Ok star /\ forall x, In x star -> x = 0.
Proof. exact find_none. Qed.
Print Assumptions C92_failure.
Example C92_example : eq_run half_solver (fun x => x) 1 0 25 1 hs /\ homogeneous half_solver /\
  exists rho, find_equilibrium half_solver (fun x => x) 1 0 [0] 2 25 [1; 1] [1; 1] = Ok (Some ([1; 1], [1; 1 / 2], rho)).
Proof. split; [exact half_run|]. split; [exact half_homogeneous|]. exact (C92_progress half_solver (fun x => x) 1 0 [0] 2 25 1 hs (Rle_refl 0) (Nat.lt_0_succ 1) ltac:(discriminate) half_run (le_n 2)). Qed.
(** Finding: vortex_merger_equilibrium.hpp:144 stops when sigma no longer changes, whatever the potential does: with a linear,
    symmetric positive definite solver the search returns after one iteration, with sigma unchanged, a potential which is not a
    solution of its own density. *)
Theorem C92_settled_refuted : ~ (forall poisson f phi_max tau count_max k ss, homogeneous poisson -> 0 <= tau ->
  eq_run poisson f phi_max tau count_max k ss -> settled 0 (ss (k - 1)%nat) (ss k) -> poisson (product f (fst (ss k)) (snd (ss k))) = Ok (snd (ss k))).
Proof. exact settled_refuted. Qed.
Print Assumptions C92_settled_refuted.
(** Finding: when the 25 iterations of vortex_merger_equilibrium.hpp:144 are used up the unconverged state is returned like a
    converged one; the caller cannot tell. *)
Theorem C92_converged_refuted : ~ (forall poisson f phi_max tau rs nt count_max sigma phi r, 0 <= tau -> (0 < nt)%nat -> (1 <= count_max)%Z ->
  find_equilibrium poisson f phi_max tau rs nt count_max sigma phi = Ok (Some r) ->
  forall k ss, eq_run poisson f phi_max tau count_max k ss -> ss 0%nat = (sigma, phi) -> settled tau (ss (k - 1)%nat) (ss k)).
Proof. exact silent_refuted. Qed.
Print Assumptions C92_converged_refuted.

(** C93: the other initial states. *)
(** two bumps of height eps: at most 2 |eps| away from the equilibrium, the same for both orders of the centres, point-symmetric
    about their middle, and of the documented height at a centre *)
Theorem C93_vortices : forall rho_eq eps sigma x1 y1 x2 y2, sigma <> 0 ->
  (forall x y, Rabs (vortex_density rho_eq eps sigma x1 y1 x2 y2 x y - rho_eq) <= 2 * Rabs eps) /\
  (0 < eps -> forall x y, rho_eq < vortex_density rho_eq eps sigma x1 y1 x2 y2 x y) /\
  (forall x y, vortex_density rho_eq eps sigma x2 y2 x1 y1 x y = vortex_density rho_eq eps sigma x1 y1 x2 y2 x y) /\
  (forall h k, vortex_density rho_eq eps sigma x1 y1 x2 y2 ((x1 + x2) / 2 + h) ((y1 + y2) / 2 + k)
               = vortex_density rho_eq eps sigma x1 y1 x2 y2 ((x1 + x2) / 2 - h) ((y1 + y2) / 2 - k)) /\
  vortex_density rho_eq eps sigma x1 y1 x2 y2 x1 y1 = rho_eq + eps * (1 + exp (- ((x1 - x2) ^ 2 + (y1 - y2) ^ 2) / (2 * sigma ^ 2))).
Proof. exact vortices_full. Qed.
Print Assumptions C93_vortices.
(** the equilibrium sin(y), and a perturbation of size eps whose mean over whole wave lengths is zero; periodic in y with mean
    eps cos(k x) *)
Theorem C93_kelvin_helmholtz : forall eps k, (forall x y, fst (kelvin_helmholtz eps k x y) = sin y) /\
  (forall x y, Rabs (snd (kelvin_helmholtz eps k x y) - sin y) <= Rabs eps) /\
  (k <> 0 -> forall n x0 y, is_RInt (fun x => snd (kelvin_helmholtz eps k x y)) x0 (x0 + 2 * PI * IZR n / k) (2 * PI * IZR n / k * sin y)) /\
  (forall x y0, is_RInt (fun y => snd (kelvin_helmholtz eps k x y)) y0 (y0 + 2 * PI) (2 * PI * (eps * cos (k * x)))).
Proof. exact kh_full. Qed.
Print Assumptions C93_kelvin_helmholtz.
Example C93_example : vortex_density 1 (1 / 2) 1 0 0 0 0 0 0 = 2 /\ snd (kelvin_helmholtz (1 / 2) 1 0 0) = 1 / 2.
Proof. exact initial_examples. Qed.

(** C94: PredCorrRK2XY.  The Poisson solver is given the density as a modifiable field. *)
(** with a solver that leaves the density alone, a run is nbiter midpoint steps with Strang splitting; event i has the density,
    the potential and the electric field after step i, with the time i dt *)
Theorem C94_run : forall o dt f nbiter f' evs, keeps_rhs o -> predcorr_xy o f dt nbiter = Ok (f', evs) ->
  exists fs, trajectory (xy_step o dt) (count nbiter) f fs /\ f' = fs (count nbiter) /\ length evs = count nbiter /\
    forall i, (i < count nbiter)%nat -> exists e, nth_error evs i = Some e /\
      is_xy_event e (Z.of_nat (S i)) (INR (S i) * dt) (fs (S i)) (electric o (fs (S i))).
Proof. exact xy_sound. Qed.
Print Assumptions C94_run.
Theorem C94_progress : forall o dt f nbiter fs, keeps_rhs o -> (nbiter < int_max)%Z -> trajectory (xy_step o dt) (count nbiter) f fs ->
  (forall i, (1 <= i <= count nbiter)%nat -> exists phi E, electric o (fs i) phi E) -> exists r, predcorr_xy o f dt nbiter = Ok r.
Proof. exact xy_complete. Qed.
Print Assumptions C94_progress.
Theorem C94_restart : forall o dt f n k f1 e1 f2 e2, keeps_rhs o -> (0 <= n)%Z -> (0 <= k)%Z -> (n + k < int_max)%Z ->
  predcorr_xy o f dt n = Ok (f1, e1) -> predcorr_xy o f1 dt k = Ok (f2, e2) -> exists e, predcorr_xy o f dt (n + k) = Ok (f2, e).
Proof. exact xy_restart. Qed.
Print Assumptions C94_restart.
(** what both one-dimensional advections preserve holds in the end and in every event; nothing happens for nbiter <= 0 *)
Theorem C94_invariant : forall o dt f nbiter f' evs (P : list R -> Prop), keeps_rhs o ->
  (forall g a h g', P g -> (x_advect_x o g a h = Ok g' \/ x_advect_y o g a h = Ok g') -> P g') -> P f ->
  predcorr_xy o f dt nbiter = Ok (f', evs) -> P f' /\ forall e, In e evs -> P (xe_f e).
Proof. exact xy_invariant. Qed.
Print Assumptions C94_invariant.
Theorem C94_no_steps : forall o dt f nbiter, (nbiter <= 0)%Z -> predcorr_xy o f dt nbiter = Ok (f, []).
Proof. exact xy_nothing. Qed.
Print Assumptions C94_no_steps.
(** for every solver the density of an event is the one the next step starts from *)
Theorem C94_saved_state : forall o dt f nbiter f' evs, (0 < nbiter)%Z -> predcorr_xy o f dt nbiter = Ok (f', evs) ->
  exists e, nth_error evs (count nbiter - 1) = Some e /\ xe_f e = f'.
Proof. exact xy_last_event. Qed.
Print Assumptions C94_saved_state.
Example C94_example : keeps_rhs cell /\ (forall f dt nbiter, (nbiter < int_max)%Z -> exists r, predcorr_xy cell f dt nbiter = Ok r) /\ xy_step cell 2 [1] [33].
Proof. exact (conj cell_keeps (conj cell_runs cell_value)). Qed.
(** Finding: predcorr_RK2.hpp (geometryXY) line 175 hands the density itself, as a modifiable field, to the Poisson solver when it
    saves the data (the comment at 111-116 says that the solver needs to modify it, and makes a copy in the other place): with a
    solver that uses this right, saving changes the density. *)
Theorem C94_saving_refuted : ~ (forall o dt f nbiter f' evs, predcorr_xy o f dt nbiter = Ok (f', evs) ->
  exists fs, trajectory (xy_step o dt) (count nbiter) f fs /\ f' = fs (count nbiter)).
Proof. exact saving_refuted. Qed.
Print Assumptions C94_saving_refuted.
