(** Specification of the 1-D finite element Poisson solver: basis functions, functions of
    the discrete space, quadrature, the weak form.  No reference to matrices or storage. *)
From Coq Require Import Permutation.
From Verif Require Import Lib MatrixSolveModel MatrixLinkModel FemModel.
Open Scope R_scope.

(** value at x of the i-th basis function (and of its derivative): the entries of the
    table returned at x that belong to function i (indices are modulo the number of functions) *)
Definition bfun (b : basis) (i : nat) (x : R) : R :=
  Rsum (S (deg b)) (fun j => if ((fst (ev b x) + j) mod nbas b =? i)%nat then snd (ev b x) j else 0).
Definition dbfun (b : basis) (i : nat) (x : R) : R :=
  Rsum (S (deg b)) (fun j => if ((fst (dv b x) + j) mod nbas b =? i)%nat then snd (dv b x) j else 0).

(** the function of the discrete space with coefficients c, and its derivative *)
Definition sfun (b : basis) (c : nat -> R) (x : R) : R := Rsum (nbas b) (fun i => c i * bfun b i x).
Definition dsfun (b : basis) (c : nat -> R) (x : R) : R := Rsum (nbas b) (fun i => c i * dbfun b i x).
(** its integral *)
Definition sint (b : basis) (c : nat -> R) : R := Rsum (nbas b) (fun i => c i * ints b i).

(** quadrature of a function *)
Fixpoint quad (q : list (R * R)) (f : R -> R) : R :=
  match q with [] => 0 | (x, w) :: t => w * f x + quad t f end.

(** a B-spline basis: degree at least 1, more functions than the degree, the table returned
    at x lies inside the basis, the functions sum to one and their derivatives to zero *)
Definition bspline_basis (b : basis) : Prop :=
  (1 <= deg b < nbas b)%nat /\
  (forall x, (fst (ev b x) + (if per b then 0 else deg b) < nbas b)%nat /\
             (fst (dv b x) + (if per b then 0 else deg b) < nbas b)%nat) /\
  (forall x, Rsum (S (deg b)) (snd (ev b x)) = 1 /\ Rsum (S (deg b)) (snd (dv b x)) = 0).

(** the quadrature weights are positive and a function of the space whose derivative
    vanishes at all quadrature points is constant (true of degree+1 Gauss points per cell) *)
Definition good_quadrature (b : basis) (q : list (R * R)) : Prop :=
  (forall x w, In (x, w) q -> 0 < w) /\
  (forall c, (forall x w, In (x, w) q -> dsfun b c x = 0) ->
     forall i j, (i < nbas b)%nat -> (j < nbas b)%nat -> c i = c j).

(** the discrete weak form of -phi'' = f, for test coefficients v *)
Definition weak (b : basis) (q : list (R * R)) (dphi f : R -> R) (v : nat -> R) : Prop :=
  quad q (fun x => dphi x * dsfun b v x) = quad q (fun x => f x * sfun b v x).

(** coefficients that vanish at both ends *)
Definition dirichlet (b : basis) (v : nat -> R) : Prop := v O = 0 /\ v (nbas b - 1)%nat = 0.

(** What an output of the solver is: for every batch, the values and minus the derivative,
    at the grid points, of a function of the space whose coefficients satisfy [P] *)
Definition fem_output (b : basis) (grid : list R) (nbatch : nat) (P : nat -> (nat -> R) -> Prop) (o : res (list (list (R * R)))) : Prop :=
  exists out c, o = Ok out /\ length out = nbatch /\
    forall ib, (ib < nbatch)%nat ->
      nth ib out [] = map (fun x => (sfun b (c ib) x, - dsfun b (c ib) x)) grid /\ P ib (c ib).

(** The discrete solution of -phi'' = f - mean(f), periodic with zero integral.  The mean is
    subtracted through the integrals of the basis functions. *)
Definition periodic_solution (b : basis) (q : list (R * R)) (f : R -> R) (c : nat -> R) : Prop :=
  sint b c = 0 /\
  forall v, quad q (fun x => dsfun b c x * dsfun b v x) =
            quad q (fun x => f x * sfun b v x) - quad q f / sint b (fun _ => 1) * sint b v.
(** The discrete solution of -phi'' = f with phi = 0 at both ends. *)
Definition dirichlet_solution (b : basis) (q : list (R * R)) (f : R -> R) (c : nat -> R) : Prop :=
  dirichlet b c /\ forall v, dirichlet b v -> weak b q (dsfun b c) f v.
Definition weak_solution (b : basis) (q : list (R * R)) (f : R -> R) (c : nat -> R) : Prop :=
  if per b then periodic_solution b q f c else dirichlet_solution b q f c.

(** Inputs: a correct LAPACK, a B-spline basis, a good quadrature, a domain of non-zero length
    (periodic) or at least one interior function (Dirichlet), and any order of the atomic
    additions of the right-hand side. *)
Definition fem_inputs (lapack lapackT : routine -> nat -> mat -> vec -> vec) (b : basis)
  (q : list (R * R)) (nbatch : nat) (sched : list (nat * nat * nat)) : Prop :=
  lapack_correct lapack lapackT /\ bspline_basis b /\ good_quadrature b q /\
  (if per b then sint b (fun _ => 1) <> 0 else (2 < nbas b)%nat) /\
  Permutation sched (all_tasks b q nbatch).
