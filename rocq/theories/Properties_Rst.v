(** C108-C110: the executables of simulations/: crash and restart, the output files, the number of time steps. *)
From Coq Require Import Lra Lia.
From Verif Require Import RstSpec PcrSpec EdgeModel RstProofs RstSched RstSteps GciExamples.
From Flocq Require Import IEEE754.BinarySingleNaN.
Open Scope R_scope.

(** C108: crash and restart of the (x, v_x) executables.  [boltzmann], [solve]: any Boltzmann and Poisson solvers; [reachable]:
    any history of sessions, each started with any accepted --iter-restart and stopped at any point. *)
(** in every history the complete file n holds the state of the uninterrupted simulation after n nbstep_diag iterations *)
Theorem C108_every_file : forall (St Phi E : Type) (boltzmann : St -> E -> R -> St) (solve : St -> Phi * E) init dt td nb d n c,
  int_quotient td dt = Ok nb -> (0 < nb)%Z -> reachable boltzmann solve init dt (eq td) d -> d n = File c ->
  (0 <= n)%Z /\ c = reference boltzmann solve init dt (Z.to_nat (n * nb)).
Proof. exact @every_file. Qed.
Print Assumptions C108_every_file.
(** from every such disk the program can be started from 0 or from any complete file k; a crash after c disk operations leaves
    the files k, k + 1, ... written so far complete, at most one file incomplete and all the others as they were *)
Theorem C108_crash : forall (St Phi E : Type) (boltzmann : St -> E -> R -> St) (solve : St -> Phi * E) init dt td nb d fields0 k nbiter,
  int_quotient td dt = Ok nb -> (0 < nb)%Z -> reachable boltzmann solve init dt (eq td) d -> can_start d k ->
  exists ops, session boltzmann solve init dt d fields0 k nbiter td = Ok ops /\ Z.of_nat (length ops) = (2 * files nbiter nb)%Z /\
    forall c x, let done := (Z.min (Z.of_nat c) (2 * files nbiter nb) / 2)%Z in
      crashed d ops c x =
      if ((k <=? x) && (x <? k + done))%Z then File (reference boltzmann solve init dt (Z.to_nat (x * nb)))
      else if ((x =? k + done) && Z.odd (Z.min (Z.of_nat c) (2 * files nbiter nb)))%Z then Torn else d x.
Proof. exact @crash_state. Qed.
Print Assumptions C108_crash.
(** a restarted session run to its end leaves the files of the uninterrupted run of k nbstep_diag + nbiter iterations *)
Theorem C108_as_uninterrupted : forall (St Phi E : Type) (boltzmann : St -> E -> R -> St) (solve : St -> Phi * E) init dt td nb d d'
    fields0 fields1 k nbiter ops ops',
  int_quotient td dt = Ok nb -> (0 < nb)%Z -> (0 <= nbiter)%Z ->
  reachable boltzmann solve init dt (eq td) d -> can_start d k -> session boltzmann solve init dt d fields0 k nbiter td = Ok ops ->
  reachable boltzmann solve init dt (eq td) d' -> session boltzmann solve init dt d' fields1 0 (k * nb + nbiter) td = Ok ops' ->
  (forall x, (k <= x)%Z -> (x < k + files nbiter nb)%Z -> completed d ops x = completed d' ops' x) /\
  ((forall x, (0 <= x < k)%Z -> exists c, d x = File c) ->
   forall x, (0 <= x < k + files nbiter nb)%Z -> completed d ops x = completed d' ops' x).
Proof. exact @as_uninterrupted. Qed.
Print Assumptions C108_as_uninterrupted.
(** a restart from a file which is not there is refused and writes nothing *)
Theorem C108_missing : forall (St Phi E : Type) (boltzmann : St -> E -> R -> St) (solve : St -> Phi * E) init dt d fields0 k nbiter td,
  k <> 0%Z -> (- 2147483648 <= k < 2147483648)%Z -> d k = Absent -> session boltzmann solve init dt d fields0 k nbiter td = Throw.
Proof. exact @missing_file. Qed.
Print Assumptions C108_missing.
(** whatever time_diag is in each session, what a complete file holds is a state of the uninterrupted simulation with its time *)
Theorem C108_any_time_diag : forall (St Phi E : Type) (boltzmann : St -> E -> R -> St) (solve : St -> Phi * E) init dt d n c,
  reachable boltzmann solve init dt (fun _ => True) d -> d n = File c -> exists m, c = reference boltzmann solve init dt m.
Proof. exact @any_schedule. Qed.
Print Assumptions C108_any_time_diag.
Example C108_example : (exists d, reachable drift pot 0 1 (eq 2) d /\ d 0%Z = File (0, 0, 0) /\ d 1%Z = Torn /\ can_start d 0) /\
  (exists d, reachable drift pot 0 1 (eq 2) d /\ can_start d 2 /\ d 3%Z = Absent /\ d 2%Z = File (reference drift pot 0 1 4)) /\
  int_quotient 2 1 = Ok 2%Z.
Proof. exact (conj example_history (conj example_restart (quotient_int 2 ltac:(lia)))). Qed.
(** Finding: a restart from file k rewrites file k at its first iteration (pdi_out.yml.hpp 60, 68-72: iter = 0 is saved too, in
    place): a crash while it does so loses the checkpoint the simulation was restarted from. *)
Theorem C108_checkpoint_refuted : ~ (forall (St Phi E : Type) (boltzmann : St -> E -> R -> St) (solve : St -> Phi * E) init dt td nb d
    fields0 k nbiter ops c x v,
  int_quotient td dt = Ok nb -> (0 < nb)%Z -> reachable boltzmann solve init dt (eq td) d -> can_start d k ->
  session boltzmann solve init dt d fields0 k nbiter td = Ok ops -> d x = File v -> crashed d ops c x = File v).
Proof. exact checkpoint_refuted. Qed.
Print Assumptions C108_checkpoint_refuted.
(** Finding: src/io/input.hpp:20 documents the argument of --iter-restart as "the index of the iteration from which the
    simulation should restart"; the executables take it as the number of an output file, i.e. the iteration divided by
    nbstep_diag. *)
Theorem C108_iteration_argument_refuted : ~ (forall (St Phi E : Type) (boltzmann : St -> E -> R -> St) (solve : St -> Phi * E) init dt
    td nb d k t f,
  int_quotient td dt = Ok nb -> (0 < nb)%Z -> reachable boltzmann solve init dt (eq td) d -> can_start d k ->
  start init d k = Ok (t, f) -> t = IZR k * dt /\ f = pc_state boltzmann solve dt init (Z.to_nat k)).
Proof. exact iteration_argument_refuted. Qed.
Print Assumptions C108_iteration_argument_refuted.
(** Finding: iter_saved = iter_start + iter / nbstep_diag (pdi_out.yml.hpp 60) numbers the files of a restart with the current
    nbstep_diag: after a change of time_diag the numbers of the files are not in the order of their times any more. *)
Theorem C108_changed_diag_refuted : ~ (forall (St Phi E : Type) (boltzmann : St -> E -> R -> St) (solve : St -> Phi * E) init dt d
    x y tx fx px ty fy py,
  0 < dt -> reachable boltzmann solve init dt (fun _ => True) d -> (x < y)%Z -> d x = File (tx, fx, px) -> d y = File (ty, fy, py) ->
  tx <= ty).
Proof. exact changed_diag_refuted. Qed.
Print Assumptions C108_changed_diag_refuted.

(** C109: which files an executable writes *)
(** (x, v_x): the files 0, 1, ...; file j at the time j nbstep_diag deltat, never after j time_diag nor, for j > 0, more than
    j deltat before it; every other file is left alone *)
Theorem C109_schedule : forall (St Phi E : Type) (boltzmann : St -> E -> R -> St) (solve : St -> Phi * E) init dt td d fields0 nbiter,
  0 < dt <= td -> td < 2147483648 * dt -> reachable boltzmann solve init dt (eq td) d ->
  exists ops nb, session boltzmann solve init dt d fields0 0 nbiter td = Ok ops /\ (0 < nb)%Z /\ IZR nb * dt <= td < IZR nb * dt + dt /\
    (forall j, (0 <= j < files nbiter nb)%Z -> exists t f phi, completed d ops j = File (t, f, phi) /\
       t = IZR j * (IZR nb * dt) /\ IZR j * (td - dt) <= t <= IZR j * td /\
       f = pc_state boltzmann solve dt init (Z.to_nat (j * nb))) /\
    (forall j, ~ (0 <= j < files nbiter nb)%Z -> completed d ops j = d j).
Proof. exact @diag_schedule. Qed.
Print Assumptions C109_schedule.
Theorem C109_last_state : forall (St Phi E : Type) (boltzmann : St -> E -> R -> St) (solve : St -> Phi * E) init dt td nb fields0 nbiter ops,
  0 < dt -> int_quotient td dt = Ok nb -> (0 < nb)%Z -> (0 <= nbiter)%Z ->
  session boltzmann solve init dt (fun _ => Absent) fields0 0 nbiter td = Ok ops ->
  (exists j f phi, completed (fun _ => Absent) ops j = File (IZR nbiter * dt, f, phi)) <-> (nb | nbiter)%Z.
Proof. exact @last_state. Qed.
Print Assumptions C109_last_state.
(** the guiding centre program: the files are the multiples of nbstep_diag among the iterations 0, ..., n, whatever is already in
    the directory; file i holds the density after i midpoint steps, its potential and electric field and the time i delta_t *)
Theorem C109_guiding_centre : forall o f dt T nb d ops, keeps_rhs o -> 0 < dt -> 0 <= T -> (0 < nb)%Z ->
  guiding_centre o f dt T nb = Ok ops ->
  exists n fs, IZR n * dt <= T < (IZR n + 1) * dt /\ (0 <= n)%Z /\ trajectory (xy_step o dt) (count n) f fs /\
    (forall i, (0 <= i <= n)%Z -> (nb | i)%Z -> exists e, completed d ops i = File e /\
       is_xy_event e i (IZR i * dt) (fs (Z.to_nat i)) (electric o (fs (Z.to_nat i)))) /\
    (forall i, ~ ((0 <= i <= n)%Z /\ (nb | i)%Z) -> completed d ops i = d i).
Proof. exact guiding_centre_files. Qed.
Print Assumptions C109_guiding_centre.
(** the collision program: file j holds the distribution after j nbstep_diag collision steps and its time *)
Theorem C109_collisions : forall (St : Type) (collide : St -> R -> St) f dt nbiter td nb d,
  dt <= 1 / 100 -> coll_nbstep dt nbiter td = Ok nb -> (0 < nb)%Z -> (0 <= nbiter < int_max)%Z ->
  exists g ops, coll_main collide f dt nbiter td = Ok (g, ops) /\ g = collided collide dt f (Z.to_nat nbiter + 1) /\
    forall j, completed d ops j =
      if ((0 <=? j) && (j <? files nbiter nb))%Z
      then File (IZR (j * nb) * dt, collided collide dt f (Z.to_nat (j * nb))) else d j.
Proof. exact @collision_files. Qed.
Print Assumptions C109_collisions.
Theorem C109_collision_step : forall (St : Type) (collide : St -> R -> St) f dt nbiter td,
  1 / 100 < dt -> coll_main collide f dt nbiter td = Throw.
Proof. exact @collision_step. Qed.
Print Assumptions C109_collision_step.
(** without time step it saves the initial and the last iteration *)
Theorem C109_collision_steady : forall nbiter td, td <> 0 -> (0 < nbiter <= 2147483647)%Z -> coll_nbstep 0 nbiter td = Ok nbiter.
Proof. exact collision_steady. Qed.
Print Assumptions C109_collision_steady.
Example C109_example : (exists ops, guiding_centre cell [1] 2 5 1 = Ok ops) /\ keeps_rhs cell /\
  (coll_nbstep 0 5 1 = Ok 5%Z /\ exists nb, coll_nbstep (1 / 200) 5 (1 / 100) = Ok nb /\ (0 < nb)%Z) /\
  reachable drift pot 0 1 (eq 2) (fun _ => Absent).
Proof. exact (conj guiding_centre_example (conj cell_keeps (conj collision_example (Fresh drift pot 0 1 (eq 2))))). Qed.
(** Finding: the last state of a simulation is written only if nbiter is a multiple of nbstep_diag: the condition
    '${iter} % ${nbstep_diag} = 0' (pdi_out.yml.hpp 70) also filters the event last_iteration. *)
Theorem C109_last_state_refuted : ~ (forall (St Phi E : Type) (boltzmann : St -> E -> R -> St) (solve : St -> Phi * E) init dt td fields0 nbiter ops,
  0 < dt <= td -> (0 <= nbiter)%Z -> session boltzmann solve init dt (fun _ => Absent) fields0 0 nbiter td = Ok ops ->
  exists j f phi, completed (fun _ => Absent) ops j = File (IZR nbiter * dt, f, phi)).
Proof. exact last_state_refuted. Qed.
Print Assumptions C109_last_state_refuted.
(** Finding: the files are not time_diag apart unless it is a multiple of deltat: the delay accumulates from file to file. *)
Theorem C109_spacing_refuted : ~ (forall (St Phi E : Type) (boltzmann : St -> E -> R -> St) (solve : St -> Phi * E) init dt td fields0 nbiter ops j t f phi,
  0 < dt <= td -> session boltzmann solve init dt (fun _ => Absent) fields0 0 nbiter td = Ok ops ->
  completed (fun _ => Absent) ops j = File (t, f, phi) -> t = IZR j * td).
Proof. exact spacing_refuted. Qed.
Print Assumptions C109_spacing_refuted.
(** a time_diag below deltat (vlasovpoisson_xvx_fft.cpp:103) is an integer division by zero at the first output *)
Theorem C109_short_time_diag : forall (St Phi E : Type) (boltzmann : St -> E -> R -> St) (solve : St -> Phi * E) init dt td d fields0 k nbiter r,
  0 <= td < dt -> start init d k = Ok r -> session boltzmann solve init dt d fields0 k nbiter td = Ub.
Proof. exact @short_diag. Qed.
Print Assumptions C109_short_time_diag.
(** Finding: test_collSpVparMu.cpp:136 runs nbiter + 1 iterations, each with an application of the collision operator: the last
    application is made after the last output and is lost. *)
Theorem C109_applications_refuted : ~ (forall (St : Type) (collide : St -> R -> St) f dt nbiter td g ops,
  coll_main collide f dt nbiter td = Ok (g, ops) -> (0 <= nbiter)%Z -> g = collided collide dt f (Z.to_nat nbiter)).
Proof. exact applications_refuted. Qed.
Print Assumptions C109_applications_refuted.

(** C110: the number of time steps.  int(final_time / delta_t) in the guiding centre program (and time_diag / deltat above) *)
Theorem C110_quotient : forall a b, 0 < b -> 0 <= a -> a < 2147483648 * b ->
  exists n, int_quotient a b = Ok n /\ (0 <= n)%Z /\ IZR n * b <= a < (IZR n + 1) * b.
Proof. exact quotient_total. Qed.
Print Assumptions C110_quotient.
(** in binary64: for every pair of doubles the truncated quotient is the exact one or one more, and the exact one when the
    quotient is an integer *)
Theorem C110_quotient_b64 : forall x y n, 0 < B2R y -> is_finite x = true -> (0 <= n < 2 ^ 53)%Z ->
  IZR n * B2R y <= B2R x < (IZR n + 1) * B2R y -> int_quotient_b64 x y = n \/ (int_quotient_b64 x y = n + 1)%Z.
Proof. exact quotient_b64. Qed.
Print Assumptions C110_quotient_b64.
Theorem C110_quotient_b64_exact : forall x y n, 0 < B2R y -> is_finite x = true -> (0 <= n < 2 ^ 53)%Z ->
  B2R x = IZR n * B2R y -> int_quotient_b64 x y = n.
Proof. exact quotient_b64_exact. Qed.
Print Assumptions C110_quotient_b64_exact.
(** the polar executables reach the final time exactly when 1 / dt and final_T / dt are integers *)
Theorem C110_polar_exact : forall (m q n : Z) T, (0 < m)%Z -> T * IZR m = IZR q -> (0 <= q)%Z -> polar_steps T (/ IZR m) = Ok n ->
  n = q /\ IZR n * / IZR m = T.
Proof. exact polar_exact. Qed.
Print Assumptions C110_polar_exact.
(** in general they stop before it, by less than dt (final_T + 1) *)
Theorem C110_polar_bounds : forall T dt n, 0 < dt -> 0 <= T -> polar_steps T dt = Ok n ->
  (0 <= n)%Z /\ T - dt * (T + 1) < IZR n * dt <= T.
Proof. exact polar_bounds. Qed.
Print Assumptions C110_polar_bounds.
Theorem C110_polar_total : forall T dt, 0 < dt -> 0 <= T -> 1 < 2147483648 * dt -> T < 2147483648 * dt -> exists n, polar_steps T dt = Ok n.
Proof. exact polar_total. Qed.
Print Assumptions C110_polar_total.
(** the parameters of the configuration files of the repository *)
Example C110_example : int_quotient_b64 (dec 25 2) (dec 125 3) = 2%Z /\ int_quotient_b64 (dec 4 1) (dec 1 1) = 4%Z /\
  int_quotient_b64 (dec 1 1) (dec 1 2) = 10%Z /\ int_quotient_b64 (dec 1 1) (dec 1 4) = 1000%Z /\
  int_quotient_b64 (b64 30) (dec 5 2) = 600%Z /\ int_quotient_b64 (b64 1) (dec 1 1) = 10%Z /\
  int_quotient_b64 (dec 24 2) (dec 12 2) = 2%Z.
Proof. exact b64_defaults. Qed.
(** Finding: int(final_time / delta_t) and int(time_diag / deltat) truncate a rounded quotient: with the doubles of 0.3 and 0.1
    there are 2 steps, not 3. *)
Theorem C110_decimal_refuted : ~ (forall p q k n, (0 < p)%Z -> (0 < q)%Z -> (p = n * q)%Z -> int_quotient_b64 (dec p k) (dec q k) = n).
Proof. intros H. specialize (H 3 1 1 3 eq_refl eq_refl eq_refl)%Z. rewrite b64_lost in H. discriminate. Qed.
Print Assumptions C110_decimal_refuted.
(** Finding: in the same way test_collSpVparMu.cpp:121-123, time_diag / (time_diag / nbiter), gives 92 for nbiter = 93 and
    time_diag = 1: the last iteration is not saved. *)
Theorem C110_steady_refuted : ~ (forall n, (0 < n < 2 ^ 31)%Z -> int_quotient_b64 (b64 1) (b64_div (b64 1) (b64 n)) = n).
Proof. intros H. specialize (H 93 ltac:(lia))%Z. rewrite b64_steady in H. discriminate. Qed.
Print Assumptions C110_steady_refuted.
(** Finding: iter_nb = final_T * int(1 / dt) (diocotron.cpp:238, vortex_merger.cpp:188) rounds 1 / dt before multiplying: with
    dt = 0.3 and final_T = 10 there are 30 steps, up to the time 9; a dt above 1 gives no step at all. *)
Theorem C110_polar_refuted : ~ (forall T dt n, 0 < dt -> 0 <= T -> polar_steps T dt = Ok n -> T - dt < IZR n * dt).
Proof. exact polar_refuted. Qed.
Print Assumptions C110_polar_refuted.
Theorem C110_polar_no_step : forall T dt, 1 < dt -> 0 <= T -> polar_steps T dt = Ok 0%Z.
Proof. exact polar_no_step. Qed.
Print Assumptions C110_polar_no_step.
