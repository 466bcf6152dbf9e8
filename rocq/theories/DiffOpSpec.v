(** Specification vocabulary for the differential operators: Cartesian vector calculus and
    differentiability. *)
From Verif Require Export DiffOpModel MappingSpec.
Open Scope R_scope.

(** Cartesian vector product *)
Definition cross (a b : nat -> R) : nat -> R :=
  c3 (a 1%nat * b 2%nat - a 2%nat * b 1%nat)
     (a 2%nat * b 0%nat - a 0%nat * b 2%nat)
     (a 0%nat * b 1%nat - a 1%nat * b 0%nat).
(** Cartesian curl of a field whose matrix of partial derivatives is [D] (D i j = d U_i / d x_j) *)
Definition cartesian_curl (D : nat -> nat -> R) : nat -> R :=
  c3 (D 2%nat 1%nat - D 1%nat 2%nat) (D 0%nat 2%nat - D 2%nat 0%nat) (D 1%nat 0%nat - D 0%nat 1%nat).
(** components of a vector and of a matrix stored row by row in a list *)
Definition comp (d : list R) (i : nat) : R := nth i d 0.
Definition comp2 (n : nat) (d : list R) (i j : nat) : R := nth (i * n + j)%nat d 0.
(** [F] is differentiable at [x] with partial derivatives [D] *)
Definition differentiable_at (n : nat) (F : (nat -> R) -> R) (x : nat -> R) (D : nat -> R) : Prop :=
  forall eps, 0 < eps -> exists delta, 0 < delta /\
    forall y, (forall i, (i < n)%nat -> Rabs (y i - x i) < delta) ->
      Rabs (F y - F x - Rsum n (fun i => D i * (y i - x i))) <= eps * Rsum n (fun i => Rabs (y i - x i)).
(** [d] are the partial derivatives of [f] at [p] *)
Definition partials_of (n : nat) (f : (nat -> R) -> R) (p : nat -> R) (d : nat -> R) : Prop :=
  forall l, (l < n)%nat -> derivable_pt_lim (fun t => f (upd p l t)) (p l) (d l).
(** second derivatives of the mapping at [p]: H i j l = d J_ij / d l, symmetric in j and l *)
Definition second_derivatives (n : nat) (m : mapping) (p : nat -> R) (H : nat -> nat -> nat -> R) : Prop :=
  (forall i j l, (i < n)%nat -> (j < n)%nat -> (l < n)%nat ->
     derivable_pt_lim (fun t => m_J m (upd p l t) i j) (p l) (H i j l)) /\
  (forall i j l, (i < n)%nat -> (j < n)%nat -> (l < n)%nat -> H i j l = H i l j).
(** the mapping can be used by the Levi-Civita tensor at [p]: its jacobian is the determinant of its
    Jacobian matrix and is not too small; it is 1 when the coordinates are Cartesian *)
Definition usable (cart : bool) (m : mapping) (p : nat -> R) : Prop :=
  m_jac m p = det_n 3 (m_J m p) /\ 1 / 10 ^ 19 <= Rabs (m_jac m p) /\ (cart = true -> m_jac m p = 1).
(** functions of the [n] components *)
Definition depends_on (n : nat) (F : (nat -> R) -> R) : Prop :=
  forall y y', (forall i, (i < n)%nat -> y i = y' i) -> F y = F y'.
(** covariant components of a physical field at the point [q] *)
Definition cov_field (n : nat) (m : mapping) (U : (nat -> R) -> nat -> R) (j : nat) (q : nat -> R) : R :=
  Rsum n (fun i => m_J m q i j * U (m_apply m q) i).
(** the loop over [range] writes [val] and leaves the rest of the output as it was *)
Definition writes {X : Type} (range : list X) (out o : X -> R) (val : X -> R) : Prop :=
  (forall i, In i range -> o i = val i) /\ (forall i, ~ In i range -> o i = out i).
(** an operator without shared state computes [op] *)
Definition computes {X : Type} (c : @creator X unit) (op : (X -> R) -> X -> R) : Prop :=
  forall range field out s, NoDup range ->
    exists o, c range field out s = Ok (o, s) /\ writes range out o (op field).
