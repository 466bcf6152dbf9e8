(** Model of FEM1DPoissonSolver, src/pde_solvers/fem_1d_poisson_solver.hpp.
    The B-spline basis (DDC: eval_basis, eval_deriv, integrals, nbasis, degree), the
    Gauss-Legendre points and coefficients (src/quadrature/gauss_legendre_integration.hpp)
    and the right-hand side spline (DDC builder and evaluator applied to rho) are inputs.
    double is modelled by R, LAPACK by an oracle (MatrixLinkModel). *)
From Verif Require Import Lib DerivModel QuadModel MatrixModel MatrixSpec MatrixSolveModel MatrixLinkModel.
Open Scope R_scope.

(** A B-spline basis as DDC presents it: eval_basis/eval_deriv fill an array of degree+1
    values and return the index of the first of them (relative to full_domain().front(),
    which is 0). *)
Record basis : Type := {
  deg : nat;                       (* degree() *)
  nbas : nat;                      (* nbasis() *)
  per : bool;                      (* is_periodic() *)
  ev : R -> nat * (nat -> R);      (* eval_basis *)
  dv : R -> nat * (nat -> R);      (* eval_deriv *)
  ints : nat -> R                  (* ddc::integrals *)
}.

(** full_domain().size(): the repeated elements of a periodic basis included *)
Definition nfull (b : basis) : nat := if per b then (nbas b + deg b)%nat else nbas b.

(** fem_1d_poisson_solver.hpp:322-326 and 387-391: get_element, +=, set_element *)
Definition add_element (m : Rmatrix) (i j : Z) (v : R) : res Rmatrix :=
  let* a := get R 0 m i j in set R tinyR m i j (a + v).

Definition dval (b : basis) (x : R) (j : nat) : R := snd (dv b x) j.

(** build_periodic_matrix, fem_1d_poisson_solver.hpp:311-329, body of the loop over the
    quadrature points; one quadrature point is (coordinate, coefficient) *)
Definition add_point_periodic (b : basis) (xw : R * R) (m : Rmatrix) : res Rmatrix :=
  let jmin := Z.of_nat (fst (dv b (fst xw))) in
  let n := Z.of_nat (nbas b) in
  for_res (S (deg b)) (fun j m =>
    for_res (S (deg b)) (fun k m =>
      add_element m ((Z.of_nat j + jmin) mod n) ((Z.of_nat k + jmin) mod n)
        (dval b (fst xw) j * dval b (fst xw) k * snd xw)) m) m.

(** the loop over the points of the quadrature (host_for_each: in order) *)
Fixpoint for_points (body : R * R -> Rmatrix -> res Rmatrix) (q : list (R * R)) (m : Rmatrix) : res Rmatrix :=
  match q with
  | [] => Ok m
  | p :: t => let* m' := body p m in for_points body t m'
  end.

(** build_periodic_matrix, fem_1d_poisson_solver.hpp:289-348 (factorise() is part of
    msolve: MatrixLinkModel) *)
Definition build_periodic_matrix (b : basis) (q : list (R * R)) : res Rmatrix :=
  let n := Z.of_nat (nbas b) in
  let d := Z.of_nat (deg b) in
  let* m := make_new_block_with_banded_region R 0 (n + 1)%Z (d + 1)%Z (d + 1)%Z false (d + 1)%Z 0%Z in
  let* m := for_points (add_point_periodic b) q m in
  for_res (nbas b) (fun i m =>
    let* m := set R tinyR m n (Z.of_nat i) (ints b i) in
    set R tinyR m (Z.of_nat i) n (ints b i)) m.

(** build_non_periodic_matrix, fem_1d_poisson_solver.hpp:372-395, body of the loop *)
Definition add_point_dirichlet (b : basis) (size : Z) (xw : R * R) (m : Rmatrix) : res Rmatrix :=
  let jmin := Z.of_nat (fst (dv b (fst xw))) in
  let n := Z.of_nat (nbas b) in
  for_res (S (deg b)) (fun j m =>
    for_res (S (deg b)) (fun k m =>
      let ji := ((Z.of_nat j + jmin) mod n - 1)%Z in
      let ki := ((Z.of_nat k + jmin) mod n - 1)%Z in
      if (negb (ji =? -1) && negb (ji =? size) && negb (ki =? -1) && negb (ki =? size))%Z
      then add_element m ji ki (dval b (fst xw) j * dval b (fst xw) k * snd xw)
      else Ok m) m) m.

(** build_non_periodic_matrix, fem_1d_poisson_solver.hpp:350-399 *)
Definition build_non_periodic_matrix (b : basis) (q : list (R * R)) : res Rmatrix :=
  let size := (Z.of_nat (nbas b) - 2)%Z in
  let d := Z.of_nat (deg b) in
  let* m := make_new_banded R 0 size d d false in
  for_points (add_point_dirichlet b size) q m.

(** build_matrix, fem_1d_poisson_solver.hpp:536-558 *)
Definition build_matrix (b : basis) (q : list (R * R)) : res Rmatrix :=
  if per b then build_periodic_matrix b q else build_non_periodic_matrix b q.

(** m_matrix_size, fem_1d_poisson_solver.hpp:293 and 355 *)
Definition matrix_size (b : basis) : Z :=
  if per b then (Z.of_nat (nbas b) + 1)%Z else (Z.of_nat (nbas b) - 2)%Z.

(** while (j_idx > last_basis_element) j_idx -= nbasis_proxy;
    fem_1d_poisson_solver.hpp:457-459 (fuel: j_idx itself, the loop stops before) *)
Fixpoint wrap_index (fuel : nat) (n j : Z) : Z :=
  match fuel with
  | O => j
  | S f => if (n - 1 <? j)%Z then wrap_index f n (j - n) else j
  end.

(** One Kokkos::atomic_fetch_add on rhs(ib, j_idx), fem_1d_poisson_solver.hpp:460-462.
    [rhs] is one row of coefficients per batch index. *)
Definition atomic_add (rhs : list (list R)) (ib j : Z) (v : R) : res (list (list R)) :=
  let* row := rd rhs ib in
  let* a := rd row j in
  let* row' := wr row j (a + v) in
  wr rhs ib row'.

(** The addition made by the work item (ib, iq) at iteration j of its loop,
    fem_1d_poisson_solver.hpp:444-463; rho_h ib is the right-hand side spline of batch ib *)
Definition rhs_task (b : basis) (q : list (R * R)) (rho_h : nat -> R -> R)
  (t : nat * nat * nat) (rhs : list (list R)) : res (list (list R)) :=
  let '(ib, iq, j) := t in
  match nth_error q iq with
  | None => Ub
  | Some (x, w) =>
      let (jmin, values) := ev b x in
      let idx := Z.of_nat (jmin + j) in
      atomic_add rhs (Z.of_nat ib) (wrap_index (jmin + j) (Z.of_nat (nbas b)) idx)
        (rho_h ib x * values j * w)
  end.

(** parallel_for_each: the atomic additions happen one at a time in some order [sched] *)
Fixpoint run_tasks (step : nat * nat * nat -> list (list R) -> res (list (list R)))
  (sched : list (nat * nat * nat)) (rhs : list (list R)) : res (list (list R)) :=
  match sched with
  | [] => Ok rhs
  | t :: s => let* rhs' := step t rhs in run_tasks step s rhs'
  end.

(** every (batch, quadrature point, j) *)
Definition all_tasks (b : basis) (q : list (R * R)) (nbatch : nat) : list (nat * nat * nat) :=
  list_prod (list_prod (seq 0 nbatch) (seq 0 (length q))) (seq 0 (S (deg b))).

(** DSpan1D phi_spline_coef_host[ib][solve_idx_range], then solve_inplace:
    fem_1d_poisson_solver.hpp:473-480.  A sub-range outside the row is undefined. *)
Definition solve_view (lapack : routine -> nat -> mat -> vec -> vec) (m : Rmatrix) (swap : vec)
  (row : list R) (start size : nat) : res (list R) :=
  if (start + size <=? length row)%nat then
    let* x := msolve lapack m swap (fun i => nth (start + i) row 0) in
    Ok (firstn start row ++ map x (seq 0 size) ++ skipn (start + size) row)
  else Ub.

(** the solve and the boundary conditions of one batch, fem_1d_poisson_solver.hpp:472-504 *)
Definition finish_row (lapack : routine -> nat -> mat -> vec -> vec) (b : basis) (m : Rmatrix) (swap : vec)
  (row : list R) : res (list R) :=
  let* c := solve_view lapack m swap row (if per b then 0 else 1) (Z.to_nat (matrix_size b)) in
  if per b then
    for_res (deg b) (fun i c => let* a := rd c (Z.of_nat i) in wr c (Z.of_nat (nbas b + i)) a) c
  else
    let* c := wr c 0 0 in wr c (Z.of_nat (length c) - 1) 0.

(** solve_matrix_system, fem_1d_poisson_solver.hpp:409-505: the coefficients of phi for
    every batch index *)
Definition solve_matrix_system (lapack : routine -> nat -> mat -> vec -> vec) (b : basis)
  (q : list (R * R)) (m : Rmatrix) (swap : vec) (nbatch : nat) (rho_h : nat -> R -> R)
  (sched : list (nat * nat * nat)) : res (list (list R)) :=
  let* rhs := run_tasks (rhs_task b q rho_h) sched (repeat (repeat 0 (nfull b)) nbatch) in
  map_res (finish_row lapack b m swap) rhs.

(** DDC's SplineEvaluator: the sum of the degree+1 values times the coefficients from jmin *)
Definition eval_with (b : basis) (jv : nat * (nat -> R)) (c : list R) : res R :=
  for_res (S (deg b)) (fun j acc =>
    let* a := rd c (Z.of_nat (fst jv + j)) in Ok (acc + a * snd jv j)) 0.

(** operator()(phi, E, rho), fem_1d_poisson_solver.hpp:265-286, on the points [grid]; phi
    alone is operator()(phi, rho), 237-251.  One (phi, E) pair per point and batch. *)
Definition fem_point (b : basis) (c : list R) (x : R) : res (R * R) :=
  let* p := eval_with b (ev b x) c in
  let* e := eval_with b (dv b x) c in
  Ok (p, - e).
Definition fem_poisson (lapack : routine -> nat -> mat -> vec -> vec) (b : basis) (q : list (R * R))
  (swap : vec) (nbatch : nat) (rho_h : nat -> R -> R) (sched : list (nat * nat * nat))
  (grid : list R) : res (list (list (R * R))) :=
  let* m := build_matrix b q in
  let* coefs := solve_matrix_system lapack b q m swap nbatch rho_h sched in
  map_res (fun c => map_res (fem_point b c) grid) coefs.
