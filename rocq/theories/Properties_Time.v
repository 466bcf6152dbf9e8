(** Properties C09-C11: the time steppers of src/timestepper.
    Vocabulary: TimeSpec.v ([smooth_at], [solves_ode], [vle], [lipschitz], [cn_iterate]). *)
From Verif Require Import Lib TimeModel TimeSpec TimeProofs CNProofs.
Open Scope R_scope.

(** ** C09: order of the explicit steppers *)
(** For any system of n equations y' = f(y) with f smooth at the initial value and any
    exact solution Y, the error of one step of size h is O(h^(p+1)), p = 1, 2, 3, 4. *)
Theorem C09_order_of_accuracy : forall n H f y Y, 0 < H -> H <= 1 ->
  smooth_at n f y -> solves_ode n f y H Y ->
  let order (stepper : vec -> R -> vec) (p : nat) :=
    exists C, 0 <= C /\ forall h, Rabs h <= H ->
      vle n (fun i => stepper y h i - Y h i) (C * Rabs h ^ (p + 1)) in
  order (euler vec nat f default_update) 1%nat /\ order (rk2 vec nat f default_update) 2%nat /\
  order (rk3 vec nat f default_update) 3%nat /\ order (rk4 vec nat f default_update) 4%nat.
Proof.
  exact (fun n H f y Y H0 H1 HS HY => match HS with ex_intro _ A (ex_intro _ B (ex_intro _ T HT)) =>
    conj (order_euler n H H0 H1 f y A B T HT Y HY) (conj (order_rk2 n H H0 H1 f y A B T HT Y HY)
    (conj (order_rk3 n H H0 H1 f y A B T HT Y HY) (order_rk4 n H H0 H1 f y A B T HT Y HY))) end).
Qed.
Print Assumptions C09_order_of_accuracy.

(** the premises hold for y' = y^2, y(0) = 1, solved by 1/(1-t) *)
Example C09_example : let f := (fun u : vec => fun i : nat => u i * u i) in
  smooth_at 1 f (fun _ => 1) /\ solves_ode 1 f (fun _ => 1) (1 / 2) (fun t _ => 1 / (1 - t)).
Proof.
  cbv zeta. split.
  - exists (fun u i => 2 * u i), (fun u v i => u i * v i), (fun _ _ _ _ => 0).
    split; [|split; [|split]].
    + split; [intros; unfold vadd, vscal; ring|]. exists 2. split; [lra|]. intros u m Hu i Hi.
      rewrite Rabs_mult, (Rabs_pos_eq 2) by lra. specialize (Hu i Hi). lra.
    + split; [intros; unfold vadd, vscal; ring|]. split; [intros; ring|]. exists 1. split; [lra|].
      intros u v m m' Hm Hm' Hu Hv i Hi. rewrite Rabs_mult, Rmult_1_l.
      apply Rmult_le_compat; try apply Rabs_pos; [apply Hu|apply Hv]; exact Hi.
    + split; [intros; ring|]. split; [intros; split; reflexivity|]. exists 0. split; [lra|].
      intros. intros i Hi. rewrite Rabs_R0. lra.
    + intros M. exists 0. split; [lra|]. intros u m Hu Hm i Hi. unfold vadd.
      replace ((1 + u i) * (1 + u i) - (1 * 1 + 2 * u i + u i * u i + 0)) with 0 by ring. rewrite Rabs_R0. lra.
  - split.
    + intros i _. field.
    + intros t i Ht Hi. pose proof (Rle_abs t). assert (D : 1 - t <> 0) by lra.
      replace (1 / (1 - t) * (1 / (1 - t))) with ((0 * (1 - t) - (0 - 1) * 1) / Rsqr (1 - t)) by (unfold Rsqr; field; exact D).
      apply (derivable_pt_lim_div (fun _ => 1) (fun s => 1 - s)); [apply derivable_pt_lim_const| |exact D].
      apply (derivable_pt_lim_minus (fun _ => 1) (fun s => s)); [apply derivable_pt_lim_const|apply derivable_pt_lim_id].
Qed.

(** Linear systems: the update is the Taylor polynomial of exp(dt A) of degree 1, 2, 3, 4
    applied to y (any index set). *)
Theorem C09_linear_systems : forall (A : vec -> vec),
  (forall a b u v i, A (fun j => a * u j + b * v j) i = a * A u i + b * A v i) ->
  let taylor p dt y i := Rsum (p + 1) (fun k => dt ^ k / INR (fact k) * iter_map k A y i) in
  forall y dt i,
  euler vec nat A default_update y dt i = taylor 1%nat dt y i /\
  rk2 vec nat A default_update y dt i = taylor 2%nat dt y i /\
  rk3 vec nat A default_update y dt i = taylor 3%nat dt y i /\
  rk4 vec nat A default_update y dt i = taylor 4%nat dt y i.
Proof.
  exact (fun A HA y dt i => conj (euler_linear A y dt i) (conj (rk2_linear A HA y dt i)
    (conj (rk3_linear A HA y dt i) (rk4_linear A HA y dt i)))).
Qed.
Print Assumptions C09_linear_systems.

Theorem C09_zero_step : forall (J : Type) (f : (J -> R) -> (J -> R)) (y : J -> R) j,
  euler _ J f default_update y 0 j = y j /\ rk2 _ J f default_update y 0 j = y j /\
  rk3 _ J f default_update y 0 j = y j /\ rk4 _ J f default_update y 0 j = y j.
Proof. exact zero_dt. Qed.
Print Assumptions C09_zero_step.

Example C09_linear_example : forall a b (u v : vec) (i : nat),
  (fun w : vec => fun i => w (S i) - 3 * w i) (fun j => a * u j + b * v j) i =
  a * (fun w : vec => fun i => w (S i) - 3 * w i) u i + b * (fun w : vec => fun i => w (S i) - 3 * w i) v i.
Proof. intros. cbv beta. ring. Qed.

(** ** C10 *)
(** If some of the components (selected by s) evolve on their own under g, the update of
    the whole field restricted to them is the update of their own system. *)
Theorem C10_componentwise : forall (J J' : Type) (s : J' -> J)
  (f : (J -> R) -> (J -> R)) (g : (J' -> R) -> (J' -> R)),
  (forall u j, f u (s j) = g (fun j => u (s j)) j) -> forall y dt j,
  euler _ J f default_update y dt (s j) = euler _ J' g default_update (fun j => y (s j)) dt j /\
  rk2 _ J f default_update y dt (s j) = rk2 _ J' g default_update (fun j => y (s j)) dt j /\
  rk3 _ J f default_update y dt (s j) = rk3 _ J' g default_update (fun j => y (s j)) dt j /\
  rk4 _ J f default_update y dt (s j) = rk4 _ J' g default_update (fun j => y (s j)) dt j.
Proof. exact steppers_componentwise. Qed.
Print Assumptions C10_componentwise.

Theorem C10_linear_derivative_linear_update : forall (J : Type) (f : (J -> R) -> (J -> R)),
  (forall a b u v j, f (fun j => a * u j + b * v j) j = a * f u j + b * f v j) ->
  forall a b u v dt j,
  let lin (F : (J -> R) -> J -> R) := F (fun j => a * u j + b * v j) j = a * F u j + b * F v j in
  lin (fun y => euler _ J f default_update y dt) /\ lin (fun y => rk2 _ J f default_update y dt) /\
  lin (fun y => rk3 _ J f default_update y dt) /\ lin (fun y => rk4 _ J f default_update y dt).
Proof. exact steppers_linear. Qed.
Print Assumptions C10_linear_derivative_linear_update.

(** a two-component field, the second component decoupled and non-linear *)
Example C10_example : forall (u : bool * nat -> R) (j : nat),
  (fun (u : bool * nat -> R) (p : bool * nat) => if fst p then u (true, snd p) * u (true, snd p) else u (true, snd p) + u p)
     u ((fun j : nat => (true, j)) j)
  = (fun (w : nat -> R) j => w j * w j) (fun j => u (true, j)) j.
Proof. intros. reflexivity. Qed.

(** ** C11: Crank-Nicolson *)
(** c iterations are done, 1 <= c <= max(1, max_counter); the result b is the c-th iterate
    and the last-but-one is a; the loop stopped before the limit only because the relative
    change was below the tolerance, and not earlier. *)
Theorem C11_loop_bounded_and_exit : forall (J : Type) (f : (J -> R) -> (J -> R)) err nrm maxc eps y dt c a b,
  crank_nicolson _ J f default_update err nrm maxc eps y dt = (c, a, b) ->
  (1 <= Z.of_nat c <= Z.max 1 maxc)%Z /\ b = cn_iterate f y dt c /\ a = cn_iterate f y dt (c - 1) /\
  ((Z.of_nat c < maxc)%Z -> quot_ge (err a b) (nrm a) eps = false) /\
  (forall l, (S l < c)%nat ->
     quot_ge (err (cn_iterate f y dt l) (cn_iterate f y dt (S l))) (nrm (cn_iterate f y dt l)) eps = true).
Proof. exact crank_nicolson_spec. Qed.
Print Assumptions C11_loop_bounded_and_exit.

Theorem C11_fixed_point : forall (J : Type) (f : (J -> R) -> (J -> R)) err nrm maxc eps y dt c a b,
  crank_nicolson _ J f default_update err nrm maxc eps y dt = (c, a, b) ->
  (forall j, a j = b j) -> forall j, b j = y j + dt / 2 * (f y j + f b j).
Proof. exact cn_fixed_point. Qed.
Print Assumptions C11_fixed_point.

(** early exit: the implicit equation holds up to dt/2 L eps |a| *)
Theorem C11_early_exit_residual : forall n f L maxc eps y dt c a b, 0 <= L -> 0 <= eps -> lipschitz n f L ->
  crank_nicolson _ nat f default_update (error_norm_inf n) (norm_inf n) maxc eps y dt = (c, a, b) ->
  (Z.of_nat c < maxc)%Z ->
  vle n (fun i => a i - b i) (eps * norm_inf n a) /\
  vle n (fun i => b i - (y i + dt / 2 * (f y i + f b i))) (Rabs dt / 2 * L * eps * norm_inf n a).
Proof. exact cn_early_exit. Qed.
Print Assumptions C11_early_exit_residual.

(** the iterates approach the implicit solution geometrically, which is unique *)
Theorem C11_contraction : forall n f L y dt ys m0, 0 <= L -> lipschitz n f L -> cn_solution n f y dt ys ->
  vle n (fun i => y i - ys i) m0 ->
  forall m, vle n (fun i => cn_iterate f y dt m i - ys i) ((Rabs dt * L / 2) ^ m * m0).
Proof. exact cn_contraction. Qed.
Print Assumptions C11_contraction.

Theorem C11_implicit_solution_unique : forall n f L y dt y1 y2, 0 <= L -> lipschitz n f L ->
  Rabs dt * L / 2 < 1 -> cn_solution n f y dt y1 -> cn_solution n f y dt y2 -> veq n y1 y2.
Proof. exact cn_unique. Qed.
Print Assumptions C11_implicit_solution_unique.

(** the norm used is the maximum norm *)
Theorem C11_norm_is_maximum : forall n v, is_max_abs n v (norm_inf n v).
Proof. exact norm_inf_spec. Qed.
Print Assumptions C11_norm_is_maximum.

(** y' = -2y with dt = 1/2: solution of the implicit equation and Lipschitz constant *)
Example C11_example : lipschitz 1 (fun u i => -2 * u i) 2 /\
  cn_solution 1 (fun u i => -2 * u i) (fun _ => 3) (1 / 2) (fun _ => 1) /\ Rabs (1/2) * 2 / 2 < 1.
Proof.
  split; [|split].
  - intros u v m H i Hi. replace (-2 * u i - -2 * v i) with (- 2 * (u i - v i)) by ring.
    rewrite Rabs_mult, Rabs_left by lra. specialize (H i Hi). lra.
  - intros i _. field.
  - rewrite Rabs_pos_eq by lra. lra.
Qed.
