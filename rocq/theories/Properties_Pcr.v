(** Properties C85 - C89: the time solvers of the guiding-centre equations (BslPredCorrRTheta, BslExplicitPredCorrRTheta,
    BslImplicitPredCorrRTheta). *)
From Verif Require Import Lib DerivModel PcrModel PcrSpec PcrProofs PcrImplicit PcrMain PcrExamples.
Open Scope R_scope.

(** C85: BslPredCorrRTheta. *)
(** a run is [steps] midpoint steps; one event before the loop and one per step, with the density and the potential of that
    step *)
Theorem C85_run : forall o shared dt steps m rho m', given m rho -> predcorr o shared dt steps m = Ok m' ->
  exists ds, trajectory (midpoint_step o dt) (count steps) rho ds /\ m_s m' DENSITY_HOST = ds (count steps) /\
    length (m_events m') = S (count steps) /\
    (exists e, nth_error (m_events m') 0 = Some e /\ is_event e false 0 0 rho (grid_potential o rho)) /\
    forall k, (k < count steps)%nat -> exists e, nth_error (m_events m') (S k) = Some e /\
       is_event e false (Z.of_nat (S k)) (INR k * dt) (ds (S k)) (grid_potential o (ds (S k))).
Proof. exact predcorr_sound. Qed.
Print Assumptions C85_run.
Theorem C85_progress : forall o shared dt steps m rho ds, given m rho -> trajectory (midpoint_step o dt) (count steps) rho ds ->
  (forall k, (k <= count steps)%nat -> exists phi, grid_potential o (ds k) phi) -> exists m', predcorr o shared dt steps m = Ok m'.
Proof. exact predcorr_complete. Qed.
Print Assumptions C85_progress.
(** neither the garbage in the buffers nor the memory space changes anything *)
Theorem C85_independent : forall o s s' dt steps m m2 rho m', given m rho -> given m2 rho -> predcorr o s dt steps m = Ok m' ->
  exists m2', predcorr o s' dt steps m2 = Ok m2' /\ m_s m2' DENSITY_HOST = m_s m' DENSITY_HOST /\ m_events m2' = m_events m'.
Proof. exact predcorr_independent. Qed.
Print Assumptions C85_independent.
(** k more steps from the result of n steps give the result of n + k steps *)
Theorem C85_restart : forall o s dt n k m m1 m2 m3 rho, (0 <= n)%Z -> (0 <= k)%Z -> given m rho -> predcorr o s dt n m = Ok m1 ->
  given m2 (m_s m1 DENSITY_HOST) -> predcorr o s dt k m2 = Ok m3 ->
  exists m4, predcorr o s dt (n + k) m = Ok m4 /\ m_s m4 DENSITY_HOST = m_s m3 DENSITY_HOST.
Proof. exact predcorr_restart. Qed.
Print Assumptions C85_restart.
Example C85_example : forall steps, given (start [1]) [1] /\ exists m', predcorr (toy linear) false (1 / 2) steps (start [1]) = Ok m'.
Proof. intros steps. split; [exact (start_given [1])|]. exact (toy_predcorr_runs linear false (1 / 2) steps _ _ (start_given [1])). Qed.
Example C85_example_step : midpoint_step (toy linear) (1 / 2) [1] [5 / 8].
Proof. pose proof (toy_midpoint linear (1 / 2) [1]) as S. cbn [hd] in S. replace (1 - 1 / 2 * (1 - 1 / 2 / 2 * 1)) with (5 / 8) in S by field. exact S. Qed.
(** Finding: bsl_predcorr.hpp:203-207 publishes the state after step iter + 1 with iter + 1 but with the time iter * dt of
    the previous step (the first step is labelled with time 0, like the initial state). *)
Theorem C85_event_time_refuted : ~ (forall o s dt steps m rho m', given m rho -> predcorr o s dt steps m = Ok m' ->
  forall k e, nth_error (m_events m') k = Some e -> ev_time e = INR k * dt).
Proof. exact label_refuted. Qed.
Print Assumptions C85_event_time_refuted.

(** C86: BslExplicitPredCorrRTheta. *)
(** a run is [steps] steps of the implemented scheme; the event before step k + 1 has the density and the potential of time
    k dt, the last event those of time steps * dt *)
Theorem C86_run : forall o shared dt steps m rho m', given m rho -> explicit_predcorr o shared dt steps m = Ok m' ->
  exists ds, trajectory (explicit_code o dt) (count steps) rho ds /\ m_s m' DENSITY_HOST = ds (count steps) /\
    length (m_events m') = S (count steps) /\
    (forall k, (k < count steps)%nat -> exists e, nth_error (m_events m') k = Some e /\
       is_event e false (Z.of_nat k) (INR k * dt) (ds k) (polar_potential_of o (ds k))) /\
    exists e, nth_error (m_events m') (count steps) = Some e /\
       is_event e true steps (IZR steps * dt) (ds (count steps)) (grid_potential o (ds (count steps))).
Proof. exact explicit_sound. Qed.
Print Assumptions C86_run.
Theorem C86_progress : forall o shared dt steps m rho ds, given m rho -> trajectory (explicit_code o dt) (count steps) rho ds ->
  (forall k, (k < count steps)%nat -> exists phi, polar_potential_of o (ds k) phi) -> (exists phi, grid_potential o (ds (count steps)) phi) ->
  exists m', explicit_predcorr o shared dt steps m = Ok m'.
Proof. exact explicit_complete. Qed.
Print Assumptions C86_progress.
Theorem C86_independent : forall o s s' dt steps m m2 rho m', given m rho -> given m2 rho -> explicit_predcorr o s dt steps m = Ok m' ->
  exists m2', explicit_predcorr o s' dt steps m2 = Ok m2' /\ m_s m2' DENSITY_HOST = m_s m' DENSITY_HOST /\ m_events m2' = m_events m'.
Proof. exact explicit_independent. Qed.
Print Assumptions C86_independent.
Theorem C86_restart : forall o s dt n k m m1 m2 m3 rho, (0 <= n)%Z -> (0 <= k)%Z -> given m rho -> explicit_predcorr o s dt n m = Ok m1 ->
  given m2 (m_s m1 DENSITY_HOST) -> explicit_predcorr o s dt k m2 = Ok m3 ->
  exists m4, explicit_predcorr o s dt (n + k) m = Ok m4 /\ m_s m4 DENSITY_HOST = m_s m3 DENSITY_HOST.
Proof. exact explicit_restart. Qed.
Print Assumptions C86_restart.
(** the implemented step is the documented one when the prediction has the same field *)
Theorem C86_steady : forall o dt rho rho' A rhoP, field_of o rho A -> o_advect o rho A dt = Ok rhoP -> field_of o rhoP A ->
  (explicit_code o dt rho rho' <-> explicit_documented o dt rho rho').
Proof. exact steady_explicit. Qed.
Print Assumptions C86_steady.
Example C86_example : forall steps, given (start [1]) [1] /\ exists m', explicit_predcorr (toy uniform) false (1 / 2) steps (start [1]) = Ok m'.
Proof. intros steps. split; [exact (start_given [1])|]. exact (toy_explicit_runs uniform (fun _ => eq_refl) false (1 / 2) steps _ _ (start_given [1])). Qed.
Example C86_example_steady : field_of (toy uniform) [0] [(0, 0)] /\ o_advect (toy uniform) [0] [(0, 0)] 1 = Ok [0 - 1 * 0] /\ field_of (toy uniform) [0 - 1 * 0] [(0, 0)].
Proof.
  split; [exact (toy_field uniform [0])|]. split; [reflexivity|]. assert (E : 0 - 1 * 0 = 0) by ring. rewrite E. exact (toy_field uniform [0]).
Qed.
(** Finding: bsl_predcorr_second_order_explicit.hpp:286-300 says "we evaluate the advection field A^n at the characteristic
    feet X^P" but builds the splines of advection_field_predicted = A^P: the corrected density is advected with
    (A^P(X^P) + A^P(X^n)) / 2, not with the documented (A^n(X^P) + A^P(X^n)) / 2 (lines 49-52, 303). *)
Theorem C86_documented_scheme_refuted : ~ (forall o s dt steps m rho m', given m rho -> explicit_predcorr o s dt steps m = Ok m' ->
  exists ds, trajectory (explicit_documented o dt) (count steps) rho ds /\ m_s m' DENSITY_HOST = ds (count steps)).
Proof. exact documented_refuted. Qed.
Print Assumptions C86_documented_scheme_refuted.
(** Finding: because of this the "second order explicit predictor-corrector" is a first order scheme: for a uniform field
    proportional to an affine density (exact decay exp(-t)), one step has an error of order dt^2, not dt^3. *)
Theorem C86_second_order_refuted : ~ (exists K delta, 0 < delta /\ forall s dt m m', 0 < dt < delta -> given m [1] ->
  explicit_predcorr (toy uniform) s dt 1 m = Ok m' -> Rabs (hd 0 (m_s m' DENSITY_HOST) - exp (- dt)) <= K * dt ^ 3).
Proof. exact order_refuted. Qed.
Print Assumptions C86_second_order_refuted.

(** C87: BslImplicitPredCorrRTheta. *)
(** a run is [steps] steps of the implemented scheme; the density of the last event is the result on a host-only build, and
    the density of the step before otherwise *)
Theorem C87_run : forall o shared dt steps m rho m', given m rho -> implicit_predcorr o shared dt steps m = Ok m' ->
  exists ds, trajectory (implicit_code o dt) (count steps) rho ds /\ m_s m' DENSITY_HOST = ds (count steps) /\
    length (m_events m') = S (count steps) /\
    (forall k, (k < count steps)%nat -> exists e, nth_error (m_events m') k = Some e /\
       is_event e false (Z.of_nat k) (INR k * dt) (ds k) (polar_potential_of o (ds k))) /\
    exists e, nth_error (m_events m') (count steps) = Some e /\
       is_event e true steps (IZR steps * dt) (if shared then ds (count steps) else ds (count steps - 1)%nat) (grid_potential o (ds (count steps))).
Proof. exact implicit_sound. Qed.
Print Assumptions C87_run.
Theorem C87_progress : forall o shared dt steps m rho ds, given m rho -> trajectory (implicit_code o dt) (count steps) rho ds ->
  (forall k, (k < count steps)%nat -> exists phi, polar_potential_of o (ds k) phi) -> (exists phi, grid_potential o (ds (count steps)) phi) ->
  exists m', implicit_predcorr o shared dt steps m = Ok m'.
Proof. exact implicit_complete. Qed.
Print Assumptions C87_progress.
Theorem C87_independent : forall o s s' dt steps m m2 rho m', given m rho -> given m2 rho -> implicit_predcorr o s dt steps m = Ok m' ->
  exists m2', implicit_predcorr o s' dt steps m2 = Ok m2' /\ m_s m2' DENSITY_HOST = m_s m' DENSITY_HOST /\
    (s = s' -> m_events m2' = m_events m').
Proof. exact implicit_independent. Qed.
Print Assumptions C87_independent.
Theorem C87_restart : forall o s dt n k m m1 m2 m3 rho, (0 <= n)%Z -> (0 <= k)%Z -> given m rho -> implicit_predcorr o s dt n m = Ok m1 ->
  given m2 (m_s m1 DENSITY_HOST) -> implicit_predcorr o s dt k m2 = Ok m3 ->
  exists m4, implicit_predcorr o s dt (n + k) m = Ok m4 /\ m_s m4 DENSITY_HOST = m_s m3 DENSITY_HOST.
Proof. exact implicit_restart. Qed.
Print Assumptions C87_restart.
Example C87_example : forall steps, given (start [1]) [1] /\ exists m', implicit_predcorr (toy uniform) false (1 / 2) steps (start [1]) = Ok m'.
Proof. intros steps. split; [exact (start_given [1])|]. exact (uniform_implicit_runs false (1 / 2) steps _ _ (start_given [1])). Qed.
Example C87_example_step : implicit_code (toy local) 1 [1] [1 - 1 * (1 / 2)].
Proof. exact local_code. Qed.
(** Finding: bsl_predcorr_second_order_implicit.hpp:296-308 computes (A^n(X^n) + A^n(X^P)) / 2 and announces that rho^P is
    advected with it, but passes advection_field_k = A^n(X^P) alone to the advection. *)
Theorem C87_commented_scheme_refuted : ~ (forall o s dt steps m rho m', given m rho -> implicit_predcorr o s dt steps m = Ok m' ->
  exists ds, trajectory (implicit_commented o dt) (count steps) rho ds /\ m_s m' DENSITY_HOST = ds (count steps)).
Proof. exact commented_refuted. Qed.
Print Assumptions C87_commented_scheme_refuted.
(** Finding: bsl_predcorr_second_order_implicit.hpp:392-401 publishes density_host in the event last_iteration before copying
    the density of the device into it: with separate memory spaces the last event has the density of time (steps - 1) dt
    next to the potential of time steps * dt. *)
Theorem C87_last_event_refuted : ~ (forall o s dt steps m rho m', given m rho -> implicit_predcorr o s dt steps m = Ok m' ->
  forall e, In e (m_events m') -> ev_last e = true -> ev_density e = m_s m' DENSITY_HOST).
Proof. exact last_event_refuted. Qed.
Print Assumptions C87_last_event_refuted.

(** C88: the fixed point loop for the feet (implicit_loop). *)
(** only the feet (and the loop's own work fields) change; the result is the iterate at which the feet moved by at most tau in
    the physical plane for the first time, or the 50th *)
Theorem C88_iteration : forall o shared h tau m A m1, 0 <= tau -> ready o shared m A -> implicit_loop o shared h tau m = Ok m1 ->
  m_s m1 = m_s m /\ m_events m1 = m_events m /\ gv (alias_im shared) ADV m1 = A /\ feet_solution o A h tau (feet_in shared m1).
Proof. exact loop_result. Qed.
Print Assumptions C88_iteration.
Theorem C88_progress : forall o shared h tau m A X, 0 <= tau -> ready o shared m A -> feet_solution o A h tau X ->
  exists m1, implicit_loop o shared h tau m = Ok m1 /\ feet_in shared m1 = X.
Proof. exact loop_runs. Qed.
Print Assumptions C88_progress.
(** if the map contracts by L and L^49 times the first displacement is below tau, the loop stops because it converged *)
Theorem C88_converges : forall o A h tau k Xs L D, 0 <= L -> 0 <= D -> feet_lengths o -> contraction o A h L -> feet_iteration o A h tau k Xs ->
  close_feet o (Xs 1%nat) (Xs 0%nat) D -> L ^ 49 * D <= tau -> close_feet o (Xs k) (Xs (k - 1)%nat) tau.
Proof. exact loop_converges. Qed.
Print Assumptions C88_converges.
(** and then the feet are within L / (1 - L) * tau of the solution of the implicit equation *)
Theorem C88_error : forall o A h tau k Xs L X, 0 <= L < 1 -> 0 <= tau -> feet_lengths o -> contraction o A h L -> feet_iteration o A h tau k Xs ->
  close_feet o (Xs k) (Xs (k - 1)%nat) tau -> picard o A h X X -> close_feet o (Xs k) X (L / (1 - L) * tau).
Proof. exact loop_error. Qed.
Print Assumptions C88_error.
Example C88_example : forall s, ready (toy linear) s runaway_mem [(1, 0)] /\ feet_iteration (toy linear) [(1, 0)] (- 1) 1 50 (fun i => [(1 + 2 * INR i, 0)]).
Proof. intros s. split; [exact (runaway_ready s)|exact runaway_feet]. Qed.
Example C88_example_contraction : feet_lengths (toy linear) /\ contraction (toy linear) [(1 / 2, 0)] (1 / 2) (Rabs (1 / 2 * (1 / 2))).
Proof. split; [exact (toy_lengths linear)|exact (linear_contraction (1 / 2) (1 / 2))]. Qed.
Example C88_example_error : feet_solution (toy local) [(1, 0)] (1 / 4) (/ 10 ^ 6) [(1 - 1 / 4 * 1, 0)].
Proof. apply local_feet. pose proof tau_small. lra. Qed.
(** Finding: bsl_predcorr_second_order_implicit.hpp:441-499: after 50 iterations without convergence the loop returns the last
    feet without any error or message. *)
Theorem C88_converged_refuted : ~ (forall o s h tau m A m', 0 < tau -> ready o s m A -> implicit_loop o s h tau m = Ok m' ->
  exists X, picard o A h X (feet_in s m') /\ close_feet o (feet_in s m') X tau).
Proof. exact converged_refuted. Qed.
Print Assumptions C88_converged_refuted.

(** C89: what the three solvers have in common. *)
(** whatever every advection preserves (positivity, bounds, the total mass, ...) holds in the result and in every event *)
Theorem C89_invariants : forall o P s dt steps m rho m', advection_keeps o P -> given m rho -> P rho ->
  (predcorr o s dt steps m = Ok m' \/ explicit_predcorr o s dt steps m = Ok m' \/ implicit_predcorr o s dt steps m = Ok m') ->
  P (m_s m' DENSITY_HOST) /\ forall e, In e (m_events m') -> P (ev_density e).
Proof. exact invariants. Qed.
Print Assumptions C89_invariants.
(** no step: the density is unchanged, one event *)
Theorem C89_no_steps : forall o s dt steps m rho m', (steps <= 0)%Z -> given m rho ->
  (predcorr o s dt steps m = Ok m' \/ explicit_predcorr o s dt steps m = Ok m' \/ implicit_predcorr o s dt steps m = Ok m') ->
  m_s m' DENSITY_HOST = rho /\ length (m_events m') = 1%nat.
Proof. exact no_steps. Qed.
Print Assumptions C89_no_steps.
Example C89_example : advection_keeps (toy linear) (fun rho => length rho = 1%nat).
Proof. intros rho A dt rho' _ [= <-]. reflexivity. Qed.
