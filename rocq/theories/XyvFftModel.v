(** The Poisson solver of the 2d2v simulation: FFTPoissonSolver on the whole spatial grid of every rank. *)
From Verif Require Export FftModel.
Open Scope R_scope.

(** contents of an array of the grid in row-major order, and the other way round *)
Definition grid_list (nx ny : nat) (f : midx -> R) : list R :=
  flat_map (fun i => map (fun j => f [Z.of_nat i; Z.of_nat j]) (seq 0 ny)) (seq 0 nx).
Definition of_list (ny : nat) (l : list R) (n : midx) : R :=
  match n with
  | [i; j] => nth (Z.to_nat i * ny + Z.to_nat j) l 0
  | _ => 0
  end.

(** qnsolver.cpp 35: m_solve_poisson(electrostatic_potential, electric_field, rho) with the solver of
    landau4d_fft.cpp 139 (fft_poisson_solver.hpp 317-350 without batch): potential (array 0), the components
    of the electric field (1 and 2), charge density (3).  [m0], [c0], [f0]: previous contents of the arrays and
    of the Fourier buffers. *)
Definition fft_poisson (clobber : (midx -> cplx) -> midx -> cplx) (nx ny : nat) (dx dy : R)
    (m0 : memory) (c0 f0 : midx -> cplx) (rho : list R) : res (list R * (list R * list R)) :=
  let ds := [ {| d_n := Z.of_nat nx; d_dx := dx |}; {| d_n := Z.of_nat ny; d_dx := dy |} ] in
  let m := put m0 3 0 (of_list ny rho) (sizes ds) in
  let '(m, _, _) := solve_phi_E clobber ds 1 0 [(0%nat, 1%nat); (1%nat, 2%nat)] 3 (m, c0, f0) in
  Ok (grid_list nx ny (m 0%nat 0%nat), (grid_list nx ny (m 1%nat 0%nat), grid_list nx ny (m 2%nat 0%nat))).
