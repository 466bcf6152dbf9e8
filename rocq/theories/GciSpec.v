(** Vocabulary of the properties of the initial conditions and of the (x, y) time solver (C90 - C94). *)
From Verif Require Import Lib DerivModel MathModel GciModel PcrSpec.
Open Scope R_scope.

(** ** The dispersion relation (omega / omega_D)^2 - b omega / omega_D + c = 0 *)
(** x + i y is a root *)
Definition root (b c x y : R) : Prop := x * x - y * y - b * x + c = 0 /\ 2 * x * y - b * y = 0.
(** the coefficients of diocotron_initialisation_equilibrium.hpp:192-224, for a mode n > 0 *)
Definition omega_ratio (d : diocotron) : R := - 2 * charge d / R1 d ^ 2 / (1 / 2).
Definition documented_b (d : diocotron) (n : nat) : R :=
  1 / (1 - (W1 d / W2 d) ^ (2 * n)) *
  (INR n * (1 - (W1 d / W2 d) ^ (2 * n)) * (1 - (R1 d / R2 d) ^ 2 + omega_ratio d * (1 + (R1 d / R2 d) ^ 2))
   + (1 - (R1 d / R2 d) ^ (2 * n)) * ((R2 d / W2 d) ^ (2 * n) - (W1 d / R1 d) ^ (2 * n))).
Definition documented_c (d : diocotron) (n : nat) : R :=
  1 / (1 - (W1 d / W2 d) ^ (2 * n)) *
  (INR n ^ 2 * omega_ratio d * (1 - (R1 d / R2 d) ^ 2 + omega_ratio d * (R1 d / R2 d) ^ 2) * (1 - (W1 d / W2 d) ^ (2 * n))
   - INR n * omega_ratio d * (1 - (W1 d / R2 d) ^ (2 * n)) * (1 - (R2 d / W2 d) ^ (2 * n))
   + INR n * (1 - (R1 d / R2 d) ^ 2 + omega_ratio d * (R1 d / R2 d) ^ 2) * (1 - (W1 d / R1 d) ^ (2 * n)) * (1 - (R1 d / W2 d) ^ (2 * n))
   - (1 - (R2 d / W2 d) ^ (2 * n)) * (1 - (W1 d / R1 d) ^ (2 * n)) * (1 - (R1 d / R2 d) ^ (2 * n))).
(** the coefficients which are implemented: the factor only multiplies the first term *)
Definition implemented_b (d : diocotron) (n : nat) : R :=
  INR n * (1 - (R1 d / R2 d) ^ 2 + omega_ratio d * (1 + (R1 d / R2 d) ^ 2))
  + (1 - (R1 d / R2 d) ^ (2 * n)) * ((R2 d / W2 d) ^ (2 * n) - (W1 d / R1 d) ^ (2 * n)).
Definition implemented_c (d : diocotron) (n : nat) : R :=
  INR n ^ 2 * omega_ratio d * (1 - (R1 d / R2 d) ^ 2 + omega_ratio d * (R1 d / R2 d) ^ 2)
  - INR n * omega_ratio d * (1 - (W1 d / R2 d) ^ (2 * n)) * (1 - (R2 d / W2 d) ^ (2 * n))
  + INR n * (1 - (R1 d / R2 d) ^ 2 + omega_ratio d * (R1 d / R2 d) ^ 2) * (1 - (W1 d / R1 d) ^ (2 * n)) * (1 - (R1 d / W2 d) ^ (2 * n))
  - (1 - (R2 d / W2 d) ^ (2 * n)) * (1 - (W1 d / R1 d) ^ (2 * n)) * (1 - (R1 d / R2 d) ^ (2 * n)).
(** the walls and the ring are ordered, the ring does not touch the axis *)
Definition ring_ok (d : diocotron) (n : nat) : Prop :=
  0 <= W1 d <= R1 d /\ 0 < R1 d < R2 d /\ R2 d <= W2 d /\ mode d = Z.of_nat n /\ (1 <= n)%nat /\ (2 * Z.of_nat n <= int_max)%Z.
(** (re, im) is the fastest growing solution omega of the dispersion relation with coefficients b, c (omega_D = 1/2); among
    real solutions the largest one *)
Definition fastest (b c re im : R) : Prop :=
  root b c (re / (1 / 2)) (im / (1 / 2)) /\ 0 <= im /\
  forall x y, root b c x y -> y <= im / (1 / 2) /\ (im = 0 -> y = 0 -> x <= re / (1 / 2)).

(** ** The equilibrium of the vortex merger *)
(** the largest absolute value is m *)
Definition sup_norm (l : list R) (m : R) : Prop := (forall x, In x l -> Rabs x <= m) /\ (l = [] /\ m = 0 \/ exists x, In x l /\ Rabs x = m).
Definition times (c : R) (l : list R) : list R := map (fun x => c * x) l.
(** the density sigma f(phi) *)
Definition product (f : R -> R) (sigma phi : list R) : list R := map (fun p => fst p * f (snd p)) (combine sigma phi).
(** one step: phi_star solves the Poisson equation for sigma f(phi), and both fields are scaled by phi_max / |phi_star| *)
Definition eq_step (poisson : list R -> res (list R)) (f : R -> R) (phi_max : R) (s s' : list R * list R) : Prop :=
  exists star norm, poisson (product f (fst s) (snd s)) = Ok star /\ sup_norm star norm /\ norm <> 0 /\
    s' = (times (phi_max / norm) (fst s), times (phi_max / norm) star).
(** sigma moved by at most tau *)
Definition settled (tau : R) (s s' : list R * list R) : Prop :=
  forall a b, In (a, b) (combine (fst s) (fst s')) -> Rabs (a - b) <= tau.
(** the iterates ss 0, ..., ss k; at most max(1, count_max), stopped at the first one where sigma is settled *)
Definition eq_run (poisson : list R -> res (list R)) (f : R -> R) (phi_max tau : R) (count_max : Z) (k : nat) (ss : nat -> list R * list R) : Prop :=
  (1 <= k <= Nat.max 1 (Z.to_nat count_max))%nat /\ (forall i, (i < k)%nat -> eq_step poisson f phi_max (ss i) (ss (S i))) /\
  (forall i, (S i < k)%nat -> ~ settled tau (ss i) (ss (S i))) /\
  (settled tau (ss (k - 1)%nat) (ss k) \/ k = Nat.max 1 (Z.to_nat count_max)).
(** the Poisson solver is homogeneous *)
Definition homogeneous (poisson : list R -> res (list R)) : Prop :=
  forall c rho phi, poisson rho = Ok phi -> poisson (times c rho) = Ok (times c phi).
(** the first radius is zero (to 1e-15) *)
Definition at_pole (rs : list R) : Prop := exists r0 t, rs = r0 :: t /\ Rabs r0 < / 10 ^ 15.
(** value at (i-th radius, j-th angle) *)
Definition at_rt (nt i j : nat) (rho : list R) : option R := nth_error rho (i * nt + j).

(** ** The (x, y) solver *)
(** Strang splitting of the advection with A = (-E_y, E_x) *)
Definition strang (o : xy_operators) (f : list R) (E : list (R * R)) (dt : R) (f' : list R) : Prop :=
  exists f1 f2, x_advect_x o f (map (fun e => - snd e) E) (dt / 2) = Ok f1 /\ x_advect_y o f1 (map fst E) dt = Ok f2 /\
    x_advect_x o f2 (map (fun e => - snd e) E) (dt / 2) = Ok f'.
Definition electric (o : xy_operators) (f phi : list R) (E : list (R * R)) : Prop := exists g, x_poisson o f = Ok (phi, E, g).
(** midpoint rule *)
Definition xy_step (o : xy_operators) (dt : R) (f f' : list R) : Prop :=
  exists E fP EP, (exists phi, electric o f phi E) /\ strang o f E (dt / 2) fP /\ (exists phi, electric o fP phi EP) /\ strang o f EP dt f'.
(** the Poisson solver leaves its right-hand side alone *)
Definition keeps_rhs (o : xy_operators) : Prop := forall f phi E g, x_poisson o f = Ok (phi, E, g) -> g = f.
Definition is_xy_event (e : xy_event) (iter : Z) (time : R) (f : list R) (P : list R -> list (R * R) -> Prop) : Prop :=
  xe_iter e = iter /\ xe_time e = time /\ xe_f e = f /\ P (xe_phi e) (xe_E e).
