(** Specification vocabulary for the coordinate transformations. *)
From Verif Require Export MappingModel MathSpec.
Open Scope R_scope.

(** the Jacobian functions of [m] at [p] are what their names say: partial derivatives, determinant,
    and the component accessors agree with the matrix *)
Definition jacobian_ok (n : nat) (m : mapping) (p : nat -> R) : Prop :=
  (forall i j, (i < n)%nat -> (j < n)%nat ->
     derivable_pt_lim (fun t => m_apply m (upd p j t) i) (p j) (m_J m p i j)) /\
  m_jac m p = det_n n (m_J m p) /\
  (forall i j, (i < n)%nat -> (j < n)%nat -> m_Jc m i j p = Ok (m_J m p i j)).
(** [K] is the two-sided inverse of [J] *)
Definition inverse_of (n : nat) (K J : nat -> nat -> R) : Prop :=
  is_identity n (mmul n K J) /\ is_identity n (mmul n J K).
(** the inverse Jacobian functions of [m] at [p] exist, agree and invert the Jacobian matrix *)
Definition inv_jacobian_ok (n : nat) (m : mapping) (p : nat -> R) : Prop :=
  exists K, m_invJ m p = Ok K /\ inverse_of n K (m_J m p) /\
    forall i j, (i < n)%nat -> (j < n)%nat -> m_invJc m i j p = Ok (K i j).
(** equality of coordinates of dimension n *)
Definition same_coord (n : nat) (p q : nat -> R) : Prop := forall i, (i < n)%nat -> p i = q i.

(** parameters and points at which the Czarny mapping is regular *)
Definition cz_admissible (c : czarny_par) (p : nat -> R) : Prop :=
  0 < cz_eps c /\ cz_eps c * cz_eps c < 4 /\ 0 < cz_e c /\
  0 < 1 + cz_eps c * (cz_eps c + 2 * p 0%nat * cos (p 1%nat)) < 4.

(** the inverse Jacobian helper succeeds at [p] and inverts the Jacobian matrix *)
Definition invertible_at (n : nat) (m : mapping) (p : nat -> R) : Prop :=
  exists K, inverse_jacobian_matrix n m p = Ok K /\ inverse_of n K (m_J m p).
(** [v] holds the components in the space [s] of the geometric vector whose contravariant components in
    the result space are [u]; the result space being Cartesian, these are also the covariant ones.
    Contravariant components of the argument: u = sum_j v^j d(result)/d(arg_j).
    Covariant components of the argument: v_j = u . d(result)/d(arg_j). *)
Definition represents (n : nat) (J : nat -> nat -> R) (s : space) (v u : nat -> R) : Prop :=
  forall i, (i < n)%nat ->
  match s with
  | ResContra | ResCov => v i = u i
  | ArgContra => u i = Rsum n (fun j => J i j * v j)
  | ArgCov => v i = Rsum n (fun j => J j i * u j)
  end.
Definition dot (n : nat) (a b : nat -> R) : R := Rsum n (fun i => a i * b i).
(** [D] is the matrix of the partial derivatives of [f] at [q] *)
Definition partials (n : nat) (f : (nat -> R) -> nat -> R) (q : nat -> R) (D : nat -> nat -> R) : Prop :=
  forall i j, (i < n)%nat -> (j < n)%nat -> derivable_pt_lim (fun t => f (upd q j t) i) (q j) (D i j).
(** the result depends only on the [n] components of the coordinate *)
Definition well_typed (n : nat) (m : mapping) : Prop :=
  forall q r, same_coord n q r -> same_coord n (m_apply m q) (m_apply m r).
(** twice the signed area of a triangle *)
Definition area2 (t : bary_triangle) : R :=
  (bx1 t - bx3 t) * (by2 t - by3 t) - (bx2 t - bx3 t) * (by1 t - by3 t).
