(** C95 - C98: the fluid moments of the equilibria, of the kinetic source and of the inter-species exchange, integrated over all velocities. *)
From Coquelicot Require Import Coquelicot.
From Verif Require Import Lib XVxModel MxwModel MxwSpec MxwGauss MxwProofs MxwMain.
Open Scope R_scope.

(** C95: the Maxwellian equilibrium of geometryXVx carries exactly the density, mean velocity and temperature it was asked for, and every
    central moment of the normal law; the integral over all velocities exists. *)
Theorem C95_maxwellian_moments : forall n T V, 0 < T -> forall k, whole_line (fun v => (v - V) ^ k * maxwellian n T V v) (n * normal_moment T k).
Proof. exact maxwellian_moments. Qed.
Print Assumptions C95_maxwellian_moments.
Theorem C95_maxwellian_density_velocity_temperature : forall n T V, 0 < T ->
  whole_line (maxwellian n T V) n /\ whole_line (fun v => v * maxwellian n T V v) (n * V) /\ whole_line (fun v => (v - V) ^ 2 * maxwellian n T V v) (n * T) /\
  whole_line (fun v => v ^ 2 * maxwellian n T V v) (n * (T + V ^ 2)).
Proof. exact maxwellian_first. Qed.
Print Assumptions C95_maxwellian_density_velocity_temperature.
(** the integral over the line has one value only *)
Theorem C95_moment_unique : forall f l l', whole_line f l -> whole_line f l' -> l = l'.
Proof. exact whole_unique. Qed.
Print Assumptions C95_moment_unique.
(** C95: what the truncation of the velocity domain at V - w, V + w loses is never negative and at most n exp (- w^2 / 2T) *)
Theorem C95_truncation : forall n T V w, 0 < T -> 0 <= n -> 0 <= w ->
  ex_RInt (maxwellian n T V) (V - w) (V + w) /\ 0 <= n - RInt (maxwellian n T V) (V - w) (V + w) <= n * exp (- w ^ 2 / (2 * T)).
Proof. exact maxwellian_truncated. Qed.
Print Assumptions C95_truncation.
(** C95: the bump-on-tail equilibrium has density 1, mean velocity eps V, and its second moment is that of the two populations *)
Theorem C95_bump_on_tail : forall eps T V, 0 < T ->
  whole_line (two_maxwellian eps T V) 1 /\ whole_line (fun v => v * two_maxwellian eps T V v) (eps * V) /\
  whole_line (fun v => v ^ 2 * two_maxwellian eps T V v) (1 - eps + eps * (T + V ^ 2)).
Proof. exact bump_moments. Qed.
Print Assumptions C95_bump_on_tail.
(** a concrete case: density 2, temperature 3, mean velocity 5 *)
Example C95_case : whole_line (fun v => v ^ 2 * maxwellian 2 3 5 v) 56 /\ normal_moment 3 4 = 27 /\ ~ whole_line (maxwellian 2 3 5) 3.
Proof.
  destruct (C95_maxwellian_density_velocity_temperature 2 3 5 ltac:(lra)) as (A & _ & _ & B). split; [replace 56 with (2 * (3 + 5 ^ 2)) by ring; exact B|].
  split; [cbn; ring|]. intros C. pose proof (whole_unique _ _ _ A C). lra.
Qed.

(** C96: the Maxwellian of geometryXYVxVy: integrated over vy it is the one-dimensional one; its moments are the products of the normal ones,
    so its density is n, its mean velocity (V, V), its temperature T; the two velocities play the same role *)
Theorem C96_marginal : forall n T V vx, 0 < T -> whole_line (fun vy => maxwellian_xy n T V vx vy) (maxwellian n T V vx).
Proof. exact maxwellian_xy_marginal. Qed.
Print Assumptions C96_marginal.
Theorem C96_moments : forall n T V j k, 0 < T ->
  whole_plane (fun vx vy => (vx - V) ^ j * (vy - V) ^ k * maxwellian_xy n T V vx vy) (n * normal_moment T j * normal_moment T k).
Proof. exact maxwellian_xy_moments. Qed.
Print Assumptions C96_moments.
Theorem C96_density_velocity_temperature : forall n T V, 0 < T ->
  whole_plane (fun vx vy => maxwellian_xy n T V vx vy) n /\ whole_plane (fun vx vy => vx * maxwellian_xy n T V vx vy) (n * V) /\
  whole_plane (fun vx vy => vy * maxwellian_xy n T V vx vy) (n * V) /\
  whole_plane (fun vx vy => ((vx - V) ^ 2 + (vy - V) ^ 2) / 2 * maxwellian_xy n T V vx vy) (n * T).
Proof. exact maxwellian_xy_fluid. Qed.
Print Assumptions C96_density_velocity_temperature.
Theorem C96_symmetric : forall n T V vx vy, maxwellian_xy n T V vx vy = maxwellian_xy n T V vy vx.
Proof. exact maxwellian_xy_sym. Qed.
Print Assumptions C96_symmetric.
Theorem C96_moment_unique : forall f l m, whole_plane f l -> whole_plane f m -> l = m.
Proof. exact plane_unique. Qed.
Print Assumptions C96_moment_unique.
(** C96: the initial perturbation of geometryXYVxVy is at most twice the amplitude, has the periods of the domain and no mean *)
Theorem C96_perturbation_bounded : forall mode amp Lx Ly x y, Rabs (perturbation_xy mode amp Lx Ly x y) <= 2 * Rabs amp.
Proof. exact perturbation_xy_bound. Qed.
Print Assumptions C96_perturbation_bounded.
Theorem C96_perturbation_periodic : forall mode amp Lx Ly x y a b, Lx <> 0 -> Ly <> 0 ->
  perturbation_xy mode amp Lx Ly (x + IZR a * Lx) (y + IZR b * Ly) = perturbation_xy mode amp Lx Ly x y.
Proof. exact perturbation_xy_periodic. Qed.
Print Assumptions C96_perturbation_periodic.
Theorem C96_perturbation_mean : forall mode amp Lx Ly x0 y0, mode <> 0%Z -> Lx <> 0 -> Ly <> 0 ->
  exists g, (forall x, is_RInt (fun y => perturbation_xy mode amp Lx Ly x y) y0 (y0 + Ly) (g x)) /\ is_RInt g x0 (x0 + Lx) 0.
Proof. exact perturbation_xy_mean. Qed.
Print Assumptions C96_perturbation_mean.
(** C96: the initial states are positive everywhere, at least 10^-60, and differ from feq (1 + pert) by at most that *)
Theorem C96_initial_state : forall feq pert, / 10 ^ 60 <= perturbed_xy feq pert /\ (/ 10 ^ 60 <= feq * (1 + pert) -> perturbed_xy feq pert = feq * (1 + pert)) /\
  (0 <= feq * (1 + pert) -> Rabs (perturbed_xy feq pert - feq * (1 + pert)) <= / 10 ^ 60).
Proof. exact perturbed_xy_floor. Qed.
Print Assumptions C96_initial_state.
(** concrete cases *)
Example C96_case : whole_plane (fun vx vy => (vx - 1) ^ 2 * (vy - 1) ^ 4 * maxwellian_xy 2 3 1 vx vy) 162 /\ perturbation_xy 1 (1 / 2) 1 1 0 0 = 1 /\ perturbed_xy 0 5 = / 10 ^ 60.
Proof.
  split; [replace 162 with (2 * normal_moment 3 2 * normal_moment 3 4) by (cbn; ring); apply C96_moments; lra|]. split.
  - unfold perturbation_xy. cbv zeta. rewrite !Rmult_0_r, cos_0. lra.
  - unfold perturbed_xy. cbv zeta. pose proof ten60. rewrite Rmult_0_l. destruct (Rlt_dec 0 (/ 10 ^ 60)); [reflexivity|contradiction].
Qed.

(** C97: the Maxwellian of geometryVparMu with the volume element 2 pi B dvpar dmu: moments in vpar for every k, and the perpendicular energy mu B *)
Theorem C97_parallel_moments : forall m n T V B k, 0 < m -> 0 < T -> 0 < B ->
  velocity_space (fun v mu => (v - V) ^ k * maxwellian_vm m n T V B v mu * (2 * PI * B)) (m * sqrt m * n * normal_moment T k).
Proof. exact vm_moments. Qed.
Print Assumptions C97_parallel_moments.
Theorem C97_perpendicular_energy : forall m n T V B, 0 < m -> 0 < T -> 0 < B ->
  velocity_space (fun v mu => mu * B * maxwellian_vm m n T V B v mu * (2 * PI * B)) (m * sqrt m * n * T).
Proof. exact vm_perp. Qed.
Print Assumptions C97_perpendicular_energy.
(** with unit mass: density n, mean velocity V, parallel temperature T, perpendicular temperature T *)
Theorem C97_unit_mass : forall n T V B, 0 < T -> 0 < B ->
  velocity_space (fun v mu => maxwellian_vm 1 n T V B v mu * (2 * PI * B)) n /\
  velocity_space (fun v mu => (v - V) * maxwellian_vm 1 n T V B v mu * (2 * PI * B)) 0 /\
  velocity_space (fun v mu => (v - V) ^ 2 * maxwellian_vm 1 n T V B v mu * (2 * PI * B)) (n * T) /\
  velocity_space (fun v mu => mu * B * maxwellian_vm 1 n T V B v mu * (2 * PI * B)) (n * T).
Proof. exact vm_unit. Qed.
Print Assumptions C97_unit_mass.
Theorem C97_moment_unique : forall f l m, velocity_space f l -> velocity_space f m -> l = m.
Proof. exact space_unique. Qed.
Print Assumptions C97_moment_unique.
(** Finding: for a species of mass m <> 1 the Maxwellian of geometryVparMu does not carry the density it was asked for, with either of the usual
    volume elements 2 pi B (density n m^(3/2)) and 2 pi B / m (density n m^(1/2)): the mass enters the normalisation (mvm 82-83) but not the
    parallel energy 0.5 (vpar - Upar)^2 (mvm 98-100), whose Gaussian then has variance T instead of T / m.  The header (line 70) documents yet another
    normalisation, (2 pi T)^1.5. *)
Theorem C97_density_any_mass_refuted : forall m n T V B, 0 < m -> m <> 1 -> n <> 0 -> 0 < T -> 0 < B ->
  ~ velocity_space (fun v mu => maxwellian_vm m n T V B v mu * (2 * PI * B)) n /\
  ~ velocity_space (fun v mu => maxwellian_vm m n T V B v mu * (2 * PI * B / m)) n /\
  velocity_space (fun v mu => maxwellian_vm m n T V B v mu * (2 * PI * B / m)) (n * sqrt m).
Proof. exact vm_mass. Qed.
Print Assumptions C97_density_any_mass_refuted.
Theorem C97_initial_state : forall feq, / 10 ^ 60 <= no_perturbation feq /\ (/ 10 ^ 60 <= feq -> no_perturbation feq = feq) /\ (0 <= feq -> Rabs (no_perturbation feq - feq) <= / 10 ^ 60).
Proof. exact no_perturbation_floor. Qed.
Print Assumptions C97_initial_state.
Example C97_case : velocity_space (fun v mu => (v - 1) ^ 2 * maxwellian_vm 4 2 3 1 5 v mu * (2 * PI * 5)) 48 /\ velocity_space (fun v mu => maxwellian_vm 4 2 3 1 5 v mu * (2 * PI * 5 / 4)) 4.
Proof.
  assert (S4 : sqrt 4 = 2) by (replace 4 with (2 * 2) by ring; apply sqrt_square; lra). split.
  - replace 48 with (4 * sqrt 4 * 2 * normal_moment 3 2) by (rewrite S4; cbn; ring). apply C97_parallel_moments; lra.
  - destruct (C97_density_any_mass_refuted 4 2 3 1 5) as (_ & _ & W); try lra. rewrite S4 in W. replace (2 * 2) with 4 in W by ring. exact W.
Qed.

(** C98: the kinetic source adds the density and the energy it was asked for, and no momentum; the inter-species exchange term adds no particles,
    and exactly the momentum and the energy exchanged *)
Theorem C98_kinetic_source : forall d e T, 0 < T ->
  whole_line (velocity_shape d e T) d /\ whole_line (fun v => v * velocity_shape d e T v) 0 /\
  whole_line (fun v => v ^ 2 / 2 * velocity_shape d e T v) (e * (T / 2)).
Proof. exact source_moments. Qed.
Print Assumptions C98_kinetic_source.
Theorem C98_exchange : forall Rab Qab n V T, 0 < T -> n <> 0 ->
  whole_line (inter_df Rab Qab n V T) 0 /\ whole_line (fun v => (v - V) * inter_df Rab Qab n V T v) Rab /\
  whole_line (fun v => (v - V) ^ 2 / 2 * inter_df Rab Qab n V T v) Qab.
Proof. exact exchange_moments. Qed.
Print Assumptions C98_exchange.
(** with the collision rates of the code, the two species together exchange momentum and energy without loss *)
Theorem C98_exchange_conserves : forall me mi nu_e ne Ve Vi Te Ti ni, 0 < Te -> 0 < Ti -> 0 < me -> 0 < mi -> ne <> 0 -> ni <> 0 ->
  let '(Re, Ri, Qe, Qi) := exchange me mi nu_e ne Ve Vi Te Ti in
  exists pe pi ee ei, 
    whole_line (fun v => v * inter_df Re Qe ne Ve Te v) pe /\ whole_line (fun v => v * inter_df Ri Qi ni Vi Ti v) pi /\
    whole_line (fun v => v ^ 2 / 2 * inter_df Re Qe ne Ve Te v) ee /\ whole_line (fun v => v ^ 2 / 2 * inter_df Ri Qi ni Vi Ti v) ei /\
    sqrt (me / mi) * pe + pi = 0 /\ ee + ei = 0.
Proof. exact exchange_total. Qed.
Print Assumptions C98_exchange_conserves.
Example C98_case : whole_line (velocity_shape 2 7 3) 2 /\ whole_line (fun v => v ^ 2 / 2 * velocity_shape 2 7 3 v) 10.5.
Proof. destruct (C98_kinetic_source 2 7 3 ltac:(lra)) as (A & _ & B). split; [exact A|]. replace 10.5 with (7 * (3 / 2)) by lra. exact B. Qed.
