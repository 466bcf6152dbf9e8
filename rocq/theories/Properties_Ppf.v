(** Properties C77 - C81: the polar spline finite element solver of the Poisson-like equation. *)
From Verif Require Import Lib DerivModel QuadModel MappingModel MappingSpec PspModel PspSpec PspExamples PpfModel PpfSpec PpfCsr PpfSolve PpfLimits PpfDefinite PpfUnique PpfVolume PpfExamples PpfFinal.
Open Scope R_scope.

(** C77: for every order of the parallel iterations the constructor builds the same compressed rows, and the column j is
    stored in row i, once, in increasing order, exactly if the functions i and j live on a common cell *)
Theorem C77_pattern : forall p, fem_sizes p -> exists nnz cols, csr_pattern (n_interior p) (share_cell p) nnz cols /\
  forall sched, any_order sched -> setup_sparse_matrix p sched = Ok (nnz, cols).
Proof. exact pattern_theorem. Qed.
Print Assumptions C77_pattern.
Example C77_example : fem_sizes (sized 2 2 5 6) /\ fem_sizes (sized 0 3 7 8) /\ any_order rev_sched /\
  share_cell (sized 2 2 5 6) 0 3 /\ ~ share_cell (sized 2 2 5 6) 0 20.
Proof.
  split; [constructor; cbn; lia|]. split; [constructor; cbn; lia|]. split; [exact rev_sched_ok|]. split.
  - exists 0%nat, 0%nat. unfold touches. cbn. do 4 (split; [repeat constructor|]).
    exists 0%nat. split; [lia|reflexivity].
  - intros [a [b [_ [_ [Ha [[_ Hb] _]]]]]]. cbn in Ha, Hb. lia.
Qed.

(** C78: the constructor and every call of update_coefficients succeed *)
Theorem C78_progress : forall p tr tt m x0 y0, fem_setup p tr tt m x0 y0 ->
  (forall sched, any_order sched -> exists s, solver_make p sched = Ok s) /\
  forall o s q al be sched, reached p o s -> fem_equation p q al be -> any_order sched -> exists s', update_coefficients p q sched s = Ok s'.
Proof. exact progress_theorem. Qed.
Print Assumptions C78_progress.
(** nothing depends on the order of the parallel iterations *)
Theorem C78_deterministic : forall p tr tt m x0 y0, fem_setup p tr tt m x0 y0 -> forall sched sched', any_order sched -> any_order sched' ->
  solver_make p sched = solver_make p sched' /\
  (forall o s q al be, reached p o s -> fem_equation p q al be -> update_coefficients p q sched s = update_coefficients p q sched' s) /\
  (forall s cg rhs f, at_points p (fun r th => rhs r th = Ok (f r th)) -> solve_spline p cg sched s rhs = solve_spline p cg sched' s rhs).
Proof. exact deterministic_theorem. Qed.
Print Assumptions C78_deterministic.
(** after any history of calls, the matrix is that of the weak form of the equation given last *)
Theorem C78_matrix_is_weak_form : forall p tr tt m x0 y0, fem_setup p tr tt m x0 y0 -> forall q al be s x u ux uy y v vx vy,
  fem_equation p q al be -> reached p (Some q) s -> fem_function p (eq_map q) x u ux uy -> fem_function p (eq_map q) y v vx vy ->
  csr_form (n_interior p) s y x = weak_form p al be u ux uy v vx vy.
Proof. exact form_theorem. Qed.
Print Assumptions C78_matrix_is_weak_form.
(** each vector of coefficients is that of a function with a gradient *)
Theorem C78_functions : forall p tr tt m x0 y0, fem_setup p tr tt m x0 y0 -> forall q al be x, fem_equation p q al be -> length x = n_interior p ->
  exists u ux uy, fem_function p (eq_map q) x u ux uy.
Proof. exact function_theorem. Qed.
Print Assumptions C78_functions.
(** the pattern is unchanged and the matrix is symmetric *)
Theorem C78_symmetric : forall p tr tt m x0 y0, fem_setup p tr tt m x0 y0 -> forall q s, reached p (Some q) s ->
  csr_pattern (n_interior p) (share_cell p) (st_nnz s) (st_cols s) /\
  forall i j, (i < n_interior p)%nat -> (j < n_interior p)%nat ->
    csr_element (st_nnz s) (st_cols s) (st_vals s) i j = csr_element (st_nnz s) (st_cols s) (st_vals s) j i.
Proof. exact symmetric_theorem. Qed.
Print Assumptions C78_symmetric.
(** the quadrature points and weights the solver computes from the mapping: the points are strictly inside of the cells,
    and different; the weights are those of Gauss-Legendre times |J| *)
Theorem C78_quadrature : forall br bt tr tt pos_r w_r pos_t w_t mp qr qt vol, bspline_space br tr -> bspline_space bt tt ->
  gauss_table (b_deg br + 1) pos_r w_r -> gauss_table (b_deg bt + 1) pos_t w_t ->
  int_volume pos_r w_r (break_points br tr) pos_t w_t (break_points bt tt) mp = (qr, qt, vol) ->
  (length qr = ((b_deg br + 1) * b_cells br)%nat /\ length qt = ((b_deg bt + 1) * b_cells bt)%nat /\ length vol = (length qr * length qt)%nat) /\
  (forall c k, (c < b_cells br)%nat -> (k <= b_deg br)%nat -> tr (b_deg br + c)%nat < nth (c * (b_deg br + 1) + k) qr 0 < tr (b_deg br + c + 1)%nat) /\
  (forall c k, (c < b_cells bt)%nat -> (k <= b_deg bt)%nat -> tt (b_deg bt + c)%nat < nth (c * (b_deg bt + 1) + k) qt 0 < tt (b_deg bt + c + 1)%nat) /\
  (NoDup qr /\ NoDup qt) /\
  (forall a b, (a < length qr)%nat -> (b < length qt)%nat -> nth (a * length qt + b) vol 0 =
     point_weight br tr (fun i => nth i w_r 0) a * point_weight bt tt (fun i => nth i w_t 0) b * Rabs (m_jac mp (c2 (nth a qr 0) (nth b qt 0)))) /\
  ((forall r th, In r qr -> In th qt -> m_jac mp (c2 r th) <> 0) -> forall w, In w vol -> 0 < w).
Proof. exact volume_theorem. Qed.
Print Assumptions C78_quadrature.
Example C78_example : exists e s, fem_setup (fem_disc 2 e) (knots_r 5) knots8 (ring 5) 0 0 /\ reached (fem_disc 2 e) (Some disc_equation) s /\
  fem_equation (fem_disc 2 e) disc_equation (fun _ _ => 2) (fun _ _ => 1) /\ gauss_table 3 [-0.5; 0; 0.5] [1; 1; 1].
Proof.
  destruct disc_reached as [e [s [F1 F2]]]. exists e, s. split; [exact F1|]. split; [exact F2|]. split; [exact (disc_equation_ok 2 e)|exact gauss_3].
Qed.

(** C79: with a conjugate gradient whose residuals are at most eps, the result satisfies the weak form of the equation given
    last up to eps times the sum of the absolute values of the coefficients of the test function *)
Theorem C79_solution : forall p tr tt m x0 y0, fem_setup p tr tt m x0 y0 -> forall q al be s cg eps sched rhs f s' spline,
  fem_equation p q al be -> reached p (Some q) s -> any_order sched -> cg_solves eps cg -> at_points p (fun r th => rhs r th = Ok (f r th)) ->
  solve_spline p cg sched s rhs = Ok (s', spline) ->
  exists x, length x = n_interior p /\ spline = dirichlet p x /\
    forall u ux uy y v vx vy, fem_function p (eq_map q) x u ux uy -> fem_function p (eq_map q) y v vx vy ->
      Rabs (weak_form p al be u ux uy v vx vy - load_form p f v) <= eps * Rsum (n_interior p) (fun i => Rabs (nth i y 0)).
Proof. exact solve_theorem. Qed.
Print Assumptions C79_solution.
(** operator() fails only if the conjugate gradient fails or if no equation was given *)
Theorem C79_progress : forall p tr tt m x0 y0, fem_setup p tr tt m x0 y0 -> forall o s cg sched rhs f, reached p o s -> any_order sched ->
  at_points p (fun r th => rhs r th = Ok (f r th)) ->
  (o = None -> solve_spline p cg sched s rhs = Ub) /\
  (forall q, o = Some q -> (forall prec nnz cols vals guess b, exists x, cg prec nnz cols vals guess b = Ok x /\ length x = length b) ->
     exists s' spline, solve_spline p cg sched s rhs = Ok (s', spline)).
Proof. exact solve_progress. Qed.
Print Assumptions C79_progress.
(** the solution vanishes on the boundary *)
Theorem C79_boundary : forall p tr tt m x0 y0, fem_setup p tr tt m x0 y0 -> clamped_end (pf_r p) tr -> forall x th,
  length x = n_interior p -> b_rmin (pf_t p) <= th <= b_rmax (pf_t p) ->
  derivative (pf_c1 p) (pf_r p) (pf_t p) (pf_el p) (dirichlet p x) 0 0 (b_rmax (pf_r p)) th = Ok 0.
Proof. exact boundary_theorem. Qed.
Print Assumptions C79_boundary.
(** the values on a grid are those of the polar spline; they are 0 at the points which are not in the domain *)
Theorem C79_grid : forall p cg sched s rhs grid s' phi, solve_grid p cg sched s rhs grid = Ok (s', phi) ->
  exists spline, solve_spline p cg sched s rhs = Ok (s', spline) /\ length phi = length grid /\
    forall k r th, nth_error grid k = Some (r, th) ->
      (r <= b_rmax (pf_r p) -> b_rmin (pf_t p) <= th <= b_rmax (pf_t p) -> derivative (pf_c1 p) (pf_r p) (pf_t p) (pf_el p) spline 0 0 r th = Ok (nth k phi 0)) /\
      (b_rmax (pf_r p) < r -> nth k phi 0 = 0).
Proof. exact grid_theorem. Qed.
Print Assumptions C79_grid.
Example C79_example : (exists e s s' spline, fem_setup (fem_disc 2 e) (knots_r 5) knots8 (ring 5) 0 0 /\ reached (fem_disc 2 e) (Some disc_equation) s /\
  solve_spline (fem_disc 2 e) (elim_cg 0) id_sched s (fun r _ => Ok (1 - r)) = Ok (s', spline)) /\ cg_solves 0 (elim_cg 0) /\
  forall e, clamped_end (pf_r (fem_disc 2 e)) (knots_r 5).
Proof. split; [exact disc_solved|]. split; [apply elim_cg_ok; lra|]. intros e. exact (disc_clamped_end 2 e). Qed.

(** C80: if alpha and beta are not negative then the matrix is positive semidefinite, and the energy vanishes only if the
    gradient vanishes where alpha is positive and the function vanishes where beta is positive *)
Theorem C80_semidefinite : forall p tr tt m x0 y0, fem_setup p tr tt m x0 y0 -> forall q al be s x u ux uy,
  fem_equation p q al be -> reached p (Some q) s -> fem_function p (eq_map q) x u ux uy ->
  (forall w, In w (pf_vol p) -> 0 <= w) -> at_points p (fun r th => 0 <= al r th /\ 0 <= be r th) ->
  0 <= csr_form (n_interior p) s x x /\
  ((forall w, In w (pf_vol p) -> 0 < w) -> csr_form (n_interior p) s x x = 0 ->
   at_points p (fun r th => (0 < al r th -> ux r th = 0 /\ uy r th = 0) /\ (0 < be r th -> u r th = 0))).
Proof. exact positive_theorem. Qed.
Print Assumptions C80_semidefinite.
(** if one of them is positive then the matrix is positive definite, *)
Theorem C80_positive_definite : forall p tr tt m x0 y0, fem_setup p tr tt m x0 y0 -> distinct_points p -> (pf_c1 p = 2%nat -> row1_spans (pf_t p) m x0 y0) ->
  forall q al be s, fem_equation p q al be -> reached p (Some q) s -> elliptic p al be ->
  forall x u ux uy, fem_function p (eq_map q) x u ux uy ->
  0 <= csr_form (n_interior p) s x x /\ (csr_form (n_interior p) s x x = 0 -> forall i, nth i x 0 = 0).
Proof. exact posdef. Qed.
Print Assumptions C80_positive_definite.
(** and the discrete problem has one and only one solution, for every right-hand side *)
Theorem C80_one_solution : forall p tr tt m x0 y0, fem_setup p tr tt m x0 y0 -> distinct_points p -> (pf_c1 p = 2%nat -> row1_spans (pf_t p) m x0 y0) ->
  forall q al be s, fem_equation p q al be -> reached p (Some q) s -> elliptic p al be -> forall f,
  exists x, length x = n_interior p /\ discrete_solution p (eq_map q) al be f x /\
    forall x', length x' = n_interior p -> discrete_solution p (eq_map q) al be f x' -> x' = x.
Proof. exact one_solution. Qed.
Print Assumptions C80_one_solution.
Example C80_example : exists e s, fem_setup (fem_disc 2 e) (knots_r 5) knots8 (ring 5) 0 0 /\ reached (fem_disc 2 e) (Some disc_equation) s /\
  distinct_points (fem_disc 2 e) /\ row1_spans ring_t (ring 5) 0 0 /\ elliptic (fem_disc 2 e) (fun _ _ => 2) (fun _ _ => 1).
Proof.
  destruct disc_reached as [e [s [F1 F2]]]. exists e, s. split; [exact F1|]. split; [exact F2|]. split; [exact (disc_distinct 2 e)|]. split; [exact ring_spans|exact (disc_elliptic 2 e)].
Qed.

(** Finding: with 2 degree + 1 poloidal cells (all the functions of a ring overlap) the constructor returns, but 350 of the
    419 column indices are never written: first and last poloidal index of the stencil coincide, so that both loops are empty;
    update_coefficients then uses the unwritten indices *)
Theorem C81_five_poloidal_cells_refuted : forall (a b a' b' : R) f f' e qr qt vol,
  let p := {| pf_c1 := 2; pf_r := {| b_deg := 2; b_cells := 5; b_rmin := a; b_rmax := b; b_eval := f |};
              pf_t := {| b_deg := 2; b_cells := 5; b_rmin := a'; b_rmax := b'; b_eval := f' |};
              pf_el := e; pf_qr := qr; pf_qt := qt; pf_vol := vol |} in
  exists s, solver_make p id_sched = Ok s /\ (length (filter (fun o => match o with None => true | Some _ => false end) (st_cols s)) = 350%nat) /\ length (st_cols s) = 419%nat /\
    forall q sched s', any_order sched -> update_coefficients p q sched s <> Ok s'.
Proof. exact five_cells. Qed.
Print Assumptions C81_five_poloidal_cells_refuted.
(** Finding: with fewer than 2 degree + 1 poloidal cells the column indices are written outside of their array: the number
    of elements is computed with min(2 degree + 1, number of cells), the rows with 2 degree + 1 *)
Theorem C81_four_poloidal_cells_refuted : forall (a b a' b' : R) f f' e qr qt vol,
  solver_make {| pf_c1 := 2; pf_r := {| b_deg := 2; b_cells := 5; b_rmin := a; b_rmax := b; b_eval := f |};
              pf_t := {| b_deg := 2; b_cells := 4; b_rmin := a'; b_rmax := b'; b_eval := f' |};
              pf_el := e; pf_qr := qr; pf_qt := qt; pf_vol := vol |} id_sched = Ub.
Proof. exact four_cells. Qed.
Print Assumptions C81_four_poloidal_cells_refuted.
(** Finding: with fewer than degree + continuity + 2 radial cells the constructor asks for an index range of negative size *)
Theorem C81_few_radial_cells_refuted : forall p sched, (pf_c1 p < b_cells (pf_r p))%nat -> (b_cells (pf_r p) < b_deg (pf_r p) + pf_c1 p + 1)%nat ->
  forall s, solver_make p sched <> Ok s.
Proof. exact radial_theorem. Qed.
Print Assumptions C81_few_radial_cells_refuted.
(** Finding: nothing forbids B-splines of a different degree in r and in theta, but neither update_coefficients nor operator()
    ever succeeds with them: the table of the values is sized with the radial degree in both directions *)
Theorem C81_degrees_refuted : forall p sched, (1 <= pf_c1 p)%nat -> (1 <= b_cells (pf_t p))%nat -> b_deg (pf_t p) <> b_deg (pf_r p) -> any_order sched ->
  (forall q s s', update_coefficients p q sched s <> Ok s') /\ (forall cg s rhs s', solve_spline p cg sched s rhs <> Ok s').
Proof. exact degree_theorem. Qed.
Print Assumptions C81_degrees_refuted.
(** Finding: every call of update_coefficients appends a Ginkgo solver and operator() uses the first one, so that the
    preconditioner stays that of the first equation (and the memory grows) *)
Theorem C81_stale_preconditioner_refuted : forall p tr tt m x0 y0, fem_setup p tr tt m x0 y0 -> forall q s sched s', reached p (Some q) s -> any_order sched ->
  forall q' al be, fem_equation p q' al be -> update_coefficients p q' sched s = Ok s' ->
  length (st_solvers s') = S (length (st_solvers s)) /\
  forall cg rhs f, at_points p (fun r th => rhs r th = Ok (f r th)) -> exists prec b, hd_error (st_solvers s) = Some prec /\
    forall x, cg prec (st_nnz s') (st_cols s') (st_vals s') (st_x s') b = Ok x -> length x = n_interior p ->
      exists s'', solve_spline p cg sched s' rhs = Ok (s'', dirichlet p x).
Proof. exact stale_theorem. Qed.
Print Assumptions C81_stale_preconditioner_refuted.
Example C81_example : (pf_c1 (sized 2 3 5 8) < b_cells (pf_r (sized 2 3 5 8)))%nat /\ (b_cells (pf_r (sized 2 3 5 8)) < b_deg (pf_r (sized 2 3 5 8)) + pf_c1 (sized 2 3 5 8) + 1)%nat.
Proof. cbn. lia. Qed.
