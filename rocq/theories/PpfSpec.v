(** Vocabulary of the properties of the polar spline finite element solver (C77 - C81), independent of the
    model's helpers. *)
From Coq Require Export Permutation.
From Verif Require Import Lib PspModel PspSpec MappingModel MappingSpec PpfModel.
Open Scope R_scope.

(** ** Parallel loops: every iteration is run exactly once, in an arbitrary order *)
Definition any_order (s : schedule) : Prop := forall k n, Permutation (s k n) (seq 0 n).

(** ** The supports.  The domain is cut into b_cells r x b_cells theta cells.  The functions 0, ..., ns-1 cover the
    pole: they live on the first c1 rings; function ns + (i - c1) nt + j is the tensor product of the
    radial function i (cells i - degree, ..., i) and of the periodic function j *)
Definition touches (p : pfem) (idx a b : nat) : Prop :=
  let c1 := pf_c1 p in
  let nt := b_cells (pf_t p) in
  let ns := (c1 * (c1 + 1) / 2)%nat in
  if (idx <? ns)%nat then (a < c1)%nat
  else let i := (c1 + (idx - ns) / nt)%nat in
       let j := ((idx - ns) mod nt)%nat in
       (a <= i <= a + b_deg (pf_r p))%nat /\ exists m, (m <= b_deg (pf_t p))%nat /\ ((b + m) mod nt = j)%nat.
Definition share_cell (p : pfem) (i j : nat) : Prop :=
  exists a b, (a < b_cells (pf_r p))%nat /\ (b < b_cells (pf_t p))%nat /\ touches p i a b /\ touches p j a b.
(** number of functions which vanish on the boundary *)
Definition n_interior (p : pfem) : nat :=
  (pf_c1 p * (pf_c1 p + 1) / 2 + (b_cells (pf_r p) + b_deg (pf_r p) - pf_c1 p - 1) * b_cells (pf_t p))%nat.

(** ** Compressed rows of a sparse n x n matrix whose pattern is the relation [rel] *)
Record csr_pattern (n : nat) (rel : nat -> nat -> Prop) (nnz : list Z) (cols : list (option Z)) : Prop := {
  cp_len : length nnz = (n + 1)%nat;
  cp_first : nth 0 nnz 0%Z = 0%Z;
  cp_last : nth n nnz 0%Z = Z.of_nat (length cols);
  cp_mono : forall i, (i < n)%nat -> (nth i nnz 0 <= nth (i + 1) nnz 0)%Z;
  cp_written : forall k, (k < length cols)%nat -> exists j, (j < n)%nat /\ nth k cols None = Some (Z.of_nat j);
  cp_sorted : forall i k k' j j', (i < n)%nat -> (nth i nnz 0 <= Z.of_nat k)%Z -> (k < k')%nat -> (Z.of_nat k' < nth (i + 1) nnz 0)%Z ->
    nth k cols None = Some j -> nth k' cols None = Some j' -> (j < j')%Z;
  cp_rel : forall i j, (i < n)%nat -> (j < n)%nat ->
    rel i j <-> exists k, (nth i nnz 0 <= Z.of_nat k < nth (i + 1) nnz 0)%Z /\ nth k cols None = Some (Z.of_nat j)
}.
(** the element (i, j) of the matrix stored with these arrays *)
Definition csr_element (nnz : list Z) (cols : list (option Z)) (vals : list (option R)) (i j : nat) : R :=
  Rsum (length cols) (fun k =>
    if (((nth i nnz 0 <=? Z.of_nat k) && (Z.of_nat k <? nth (i + 1) nnz 0))%Z)%bool
    then match nth k cols None, nth k vals None with
         | Some c, Some v => if (c =? Z.of_nat j)%Z then v else 0
         | _, _ => 0
         end
    else 0).

(** ** The sizes the solver works for *)
Record fem_sizes (p : pfem) : Prop := {
  fs_deg : b_deg (pf_t p) = b_deg (pf_r p);
  fs_theta : (2 * b_deg (pf_r p) + 2 <= b_cells (pf_t p))%nat;
  fs_radial : (b_deg (pf_r p) + pf_c1 p + 1 <= b_cells (pf_r p))%nat
}.
(** the polar splines of a mapping, and degree + 1 quadrature points strictly inside of each cell *)
Record fem_setup (p : pfem) (tr tt : nat -> R) (m : dmap) (x0 y0 : R) : Prop := {
  fe_polar : polar_setup (pf_c1 p) (pf_r p) (pf_t p) tr tt m x0 y0;
  fe_elements : polar_make (pf_c1 p) (pf_r p) (pf_t p) m = Ok (pf_el p);
  fe_sizes : fem_sizes p;
  fe_len_r : length (pf_qr p) = ((b_deg (pf_r p) + 1) * b_cells (pf_r p))%nat;
  fe_len_t : length (pf_qt p) = ((b_deg (pf_t p) + 1) * b_cells (pf_t p))%nat;
  fe_in_r : forall c k, (c < b_cells (pf_r p))%nat -> (k <= b_deg (pf_r p))%nat ->
    tr (b_deg (pf_r p) + c)%nat < nth (c * (b_deg (pf_r p) + 1) + k) (pf_qr p) 0 < tr (b_deg (pf_r p) + c + 1)%nat;
  fe_in_t : forall c k, (c < b_cells (pf_t p))%nat -> (k <= b_deg (pf_t p))%nat ->
    tt (b_deg (pf_t p) + c)%nat < nth (c * (b_deg (pf_t p) + 1) + k) (pf_qt p) 0 < tt (b_deg (pf_t p) + c + 1)%nat;
  fe_vol : length (pf_vol p) = (length (pf_qr p) * length (pf_qt p))%nat
}.
(** the quadrature formula: sum over all the points of the weight (|J| included) times the integrand *)
Definition quadrature_sum (p : pfem) (f : R -> R -> R) : R :=
  Rsum (length (pf_qr p)) (fun a => Rsum (length (pf_qt p)) (fun b =>
    nth (a * length (pf_qt p) + b) (pf_vol p) 0 * f (nth a (pf_qr p) 0) (nth b (pf_qt p) 0))).
(** at the quadrature points *)
Definition at_points (p : pfem) (P : R -> R -> Prop) : Prop := forall r th, In r (pf_qr p) -> In th (pf_qt p) -> P r th.

(** ** Functions of the finite element space *)
(** the interior coefficients x, and 0 on the boundary *)
Definition dirichlet (p : pfem) (x : list R) : list R := x ++ repeat 0 (b_cells (pf_t p)).
(** (gx, gy) is the gradient, in the Cartesian coordinates of the mapping, of a function of (r, theta) with
    the partial derivatives (dr, dt): the chain rule *)
Definition cartesian_gradient (m : mapping) (r th dr dt gx gy : R) : Prop :=
  let J := m_J m (c2 r th) in
  dr = J 0%nat 0%nat * gx + J 1%nat 0%nat * gy /\ dt = J 0%nat 1%nat * gx + J 1%nat 1%nat * gy.
(** u is the polar spline with the interior coefficients x, which vanishes on the boundary, and (ux, uy) its
    gradient in the Cartesian coordinates, at the quadrature points *)
Record fem_function (p : pfem) (m : mapping) (x : list R) (u ux uy : R -> R -> R) : Prop := {
  ff_len : length x = n_interior p;
  ff_value : at_points p (fun r th => derivative (pf_c1 p) (pf_r p) (pf_t p) (pf_el p) (dirichlet p x) 0 0 r th = Ok (u r th));
  ff_grad : at_points p (fun r th => exists dr dt,
    derivative (pf_c1 p) (pf_r p) (pf_t p) (pf_el p) (dirichlet p x) 1 0 r th = Ok dr /\
    derivative (pf_c1 p) (pf_r p) (pf_t p) (pf_el p) (dirichlet p x) 0 1 r th = Ok dt /\
    cartesian_gradient m r th dr dt (ux r th) (uy r th))
}.
(** the equation is defined at the quadrature points, with the coefficients alpha and beta *)
Record fem_equation (p : pfem) (q : equation) (alpha beta : R -> R -> R) : Prop := {
  fq_alpha : at_points p (fun r th => eq_alpha q r th = Ok (alpha r th));
  fq_beta : at_points p (fun r th => eq_beta q r th = Ok (beta r th));
  fq_map : at_points p (fun r th => invertible_at 2 (eq_map q) (c2 r th))
}.
(** the weak form of - div (alpha grad u) + beta u = f, with the quadrature *)
Definition weak_form (p : pfem) (alpha beta u ux uy v vx vy : R -> R -> R) : R :=
  quadrature_sum p (fun r th => alpha r th * (ux r th * vx r th + uy r th * vy r th) + beta r th * u r th * v r th).
Definition load_form (p : pfem) (f v : R -> R -> R) : R := quadrature_sum p (fun r th => f r th * v r th).
(** y^T A x *)
Definition csr_form (n : nat) (s : pstate) (y x : list R) : R :=
  Rsum n (fun i => Rsum n (fun j => nth i y 0 * csr_element (st_nnz s) (st_cols s) (st_vals s) i j * nth j x 0)).
(** the states of a solver, after any history of calls of update_coefficients and operator() which did not fail;
    [Some q] is the equation given by the last call of update_coefficients *)
Inductive reached (p : pfem) : option equation -> pstate -> Prop :=
| reached_make sched s : any_order sched -> solver_make p sched = Ok s -> reached p None s
| reached_update o s q alpha beta sched s' : reached p o s -> fem_equation p q alpha beta -> any_order sched ->
    update_coefficients p q sched s = Ok s' -> reached p (Some q) s'
| reached_solve o s cg sched rhs s' spline : reached p o s -> solve_spline p cg sched s rhs = Ok (s', spline) -> reached p o s'.
(** what the conjugate gradient is trusted to do when it does not throw: every residual is at most eps *)
Definition cg_solves (eps : R) (cg : cg_solver) : Prop :=
  forall prec nnz cols vals guess b x, cg prec nnz cols vals guess b = Ok x ->
    length x = length b /\ forall i bi, nth i b None = Some bi ->
      Rabs (Rsum (length b) (fun j => csr_element nnz cols vals i j * nth j x 0) - bi) <= eps.
(** the last knots coincide *)
Definition clamped_end (b : bspace) (t : nat -> R) : Prop := forall i, (i <= b_deg b)%nat -> t (b_deg b + b_cells b + i)%nat = b_rmax b.
(** the pole and the control points of the first ring are not on one line *)
Definition row1_spans (bt : bspace) (m : dmap) (x0 y0 : R) : Prop :=
  exists j1 j2, (j1 < b_size bt)%nat /\ (j2 < b_size bt)%nat /\
    (ctrl_x bt m 1 j1 - x0) * (ctrl_y bt m 1 j2 - y0) - (ctrl_x bt m 1 j2 - x0) * (ctrl_y bt m 1 j1 - y0) <> 0.
(** the quadrature points are different, and the splines are at least linear *)
Definition distinct_points (p : pfem) : Prop := (1 <= b_deg (pf_r p))%nat /\ NoDup (pf_qr p) /\ NoDup (pf_qt p).
(** the weights are positive, alpha and beta are not negative and one of them is positive *)
Definition elliptic (p : pfem) (alpha beta : R -> R -> R) : Prop :=
  (forall w, In w (pf_vol p) -> 0 < w) /\ at_points p (fun r th => 0 <= alpha r th /\ 0 <= beta r th) /\
  (at_points p (fun r th => 0 < alpha r th) \/ at_points p (fun r th => 0 < beta r th)).
(** ** The quadrature: degree + 1 different reference points in (-1, 1), with positive weights, mapped to each cell *)
Record gauss_table (n : nat) (pos w : list R) : Prop := {
  gt_pos : length pos = n;
  gt_w : length w = n;
  gt_in : forall x, In x pos -> -1 < x < 1;
  gt_distinct : NoDup pos;
  gt_positive : forall x, In x w -> 0 < x
}.
(** the break points *)
Definition break_points (b : bspace) (t : nat -> R) : list R := map (fun c => t (b_deg b + c)%nat) (seq 0 (b_cells b + 1)).
(** the weight of the point k of the line: the reference weight times half the length of the cell *)
Definition point_weight (b : bspace) (t w : nat -> R) (k : nat) : R :=
  let c := (k / (b_deg b + 1))%nat in
  (t (b_deg b + c + 1)%nat - t (b_deg b + c)%nat) / 2 * w (k mod (b_deg b + 1))%nat.
(** x solves the discrete problem: the weak form is the load for every test function *)
Definition discrete_solution (p : pfem) (m : mapping) (alpha beta f : R -> R -> R) (x : list R) : Prop :=
  forall u ux uy y v vx vy, fem_function p m x u ux uy -> fem_function p m y v vx vy -> weak_form p alpha beta u ux uy v vx vy = load_form p f v.
