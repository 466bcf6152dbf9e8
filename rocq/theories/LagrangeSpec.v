(** Specification vocabulary for Lagrange interpolation. *)
From Verif Require Export LagrangeModel QuadSpec.
Open Scope R_scope.

(** the basis polynomial of node [i] among the nodes 0..D: prod_{j<>i} (x - x_j)/(x_i - x_j) *)
Fixpoint prod_upto (n : nat) (f : nat -> R) : R :=
  match n with O => 1 | S n' => prod_upto n' f * f n' end.
Definition lagrange_poly (D : nat) (xs : nat -> R) (i : nat) (x : R) : R :=
  prod_upto (S D) (fun j => if (i =? j)%nat then 1 else (x - xs j) / (xs i - xs j)).

(** a basis that was initialised on a whole grid: [uniform_basis] with a positive step, or
    [non_uniform_basis] on all the points of an increasing grid; positive degree *)
Definition initialised (b : basis) : Prop :=
  (0 < b_degree b)%nat /\
  ((exists per rmin step n, 0 < step /\ uniform_basis per (b_degree b) rmin step n = Ok b) \/
   (exists per pts, increasing pts /\ non_uniform_basis per (b_degree b) pts 0 (length pts) = Ok b)).
(** coordinate of a knot, first and last break points *)
Definition kn (b : basis) (i : nat) : R := nth i (b_knots b) 0.
Definition in_domain (b : basis) (x : R) : Prop := kn b 0 <= x <= kn b (b_bp b - 1).
Definition period (b : basis) : R := kn b (b_bp b - 1) - kn b 0.
(** distance below which a coordinate is considered to be a node *)
Definition tolerance (b : basis) : R :=
  if b_uniform b then dbl_epsilon * (INR (b_degree b) + 1) * b_step b else dbl_epsilon * 4.
(** [x2] is the coordinate really evaluated for [x]: [x], or the node of the stencil [s] it is
    identified with *)
Definition evaluated_at (b : basis) (s : nat) (x x2 : R) : Prop :=
  x2 = x \/ exists i, (i <= b_degree b)%nat /\ x2 = kn b (s + i) /\ Rabs (x - x2) <= tolerance b.
(** the middle of the stencil: the cell (odd degree) or the nearest knot (even degree) *)
Definition centred (b : basis) (s : nat) (x : R) : Prop :=
  let h := (b_degree b / 2)%nat in
  if Nat.even (b_degree b) then
    kn b (s + h - 1) + kn b (s + h) <= 2 * x <= kn b (s + h) + kn b (s + h + 1)
  else kn b (s + h) <= x <= kn b (s + h + 1).
(** neighbouring knots are further apart than the tolerance *)
Definition separated (b : basis) : Prop :=
  forall i, (S i < length (b_knots b))%nat -> tolerance b < kn b (S i) - kn b i.
