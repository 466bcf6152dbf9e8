(** Model of the polar spline finite element solver of the Poisson-like equation:
    src/pde_solvers/polar_spline_fem_poisson_like_assembler.hpp (written "asm" below) and
    polar_spline_fem_poisson_like_solver.hpp ("slv").
    double is modelled by R and int by Z or nat; the B-splines are DDC's (PspModel.bspace), the knots of
    DDC are counted from break_point_domain().front().  A Kokkos::parallel_for runs its iterations in
    the order given by a schedule, a parallel reduction is a sum.  Ginkgo's conjugate gradient is an
    input.  asserts are enabled. *)
From Verif Require Import Lib DerivModel QuadModel FemModel MathModel MappingModel PspModel.
Open Scope R_scope.

(** Kokkos::parallel_for: the iterations [ord], one after the other *)
Fixpoint par {A} (ord : list nat) (body : nat -> A -> res A) (s : A) : res A :=
  match ord with
  | [] => Ok s
  | k :: t => let* s' := body k s in par t body s'
  end.

(** The polar splines, the quadrature points (ddc::coordinate of the quadrature indices) and
    m_int_volume (asm 390), row by row *)
Record pfem : Type := {
  pf_c1 : nat;           (* PolarBSplinesRTheta::continuity + 1 *)
  pf_r : bspace;
  pf_t : bspace;
  pf_el : elements;      (* m_singular_basis_elements *)
  pf_qr : list R;
  pf_qt : list R;
  pf_vol : list R
}.
Definition pf_ns (p : pfem) : nat := n_singular (pf_c1 p).
Definition pf_d (p : pfem) : nat := b_deg (pf_r p).
Definition pf_dt (p : pfem) : nat := b_deg (pf_t p).
(** m_nbasis_theta, asm 397 *)
Definition pf_nt (p : pfem) : nat := nbasis_t (pf_t p).
(** m_nbasis_r, asm 396 *)
Definition pf_nr (p : pfem) : nat := (nbasis_r (pf_r p) - pf_c1 p - 1)%nat.
(** m_matrix_size, asm 398 *)
Definition pf_size (p : pfem) : nat := (polar_nbasis (pf_c1 p) (pf_r p) (pf_t p) - pf_nt p)%nat.
(** sizes of m_idxrange_quadrature_r and m_idxrange_quadrature_theta, asm 406-413 *)
Definition pf_nqr (p : pfem) : nat := ((pf_d p + 1) * b_cells (pf_r p))%nat.
Definition pf_nqt (p : pfem) : nat := ((pf_dt p + 1) * b_cells (pf_t p))%nat.
(** to_polar, asm 1405-1408 *)
Definition to_polar (p : pfem) (ir it : Z) : res Z := get_polar_index (pf_c1 p) (pf_nt p) ir it.
Definition to_2d (p : pfem) (idx : Z) : res (Z * Z) := get_2d_index (pf_c1 p) (pf_nt p) idx.

(** ** Indices *)
(** theta_mod, asm 31-40 and 65-79: the two loops (their fuel is never used up) *)
Fixpoint add_while (fuel : nat) (n z : Z) : Z :=
  match fuel with
  | O => z
  | S f => if (z <? 0)%Z then add_while f n (z + n) else z
  end.
Definition theta_mod (n z : Z) : Z :=
  let z := add_while (Z.to_nat (- z)) n z in wrap_index (Z.to_nat z) n z.
(** mod_add, asm 42-52, on the index range 0 .. n-1 *)
Definition mod_add (n idx step : Z) : Z :=
  if (idx <? - step)%Z then (idx + n + step)%Z
  else if (n - 1 - idx <? step)%Z then (idx + step - n)%Z
  else (idx + step)%Z.

(** ** One basis function at one point: get_polar_bspline_vals_and_derivs, asm 101-166 *)
(** a call of eval_basis/eval_deriv with the spans of lines 112-120: the poloidal extent is
    BSplinesR::degree() + 1, which PolarBSplines::eval compares with BSplinesTheta::degree() + 1
    (polar_bsplines.hpp 683-685) *)
Definition span_eval (p : pfem) (n m : nat) (r th : R) : res (list R * (nat -> nat -> R) * (nat * nat)) :=
  let* _ := check (pf_d p + 1 =? pf_dt p + 1)%nat in
  polar_eval (pf_c1 p) (pf_r p) (pf_t p) (pf_el p) n m r th.
(** 143-152: the offset of the function in the table *)
Definition table_offset (p : pfem) (idx : Z) (front : nat * nat) : res (nat * nat) :=
  let* (ir, it) := to_2d p idx in
  let oir := (ir - Z.of_nat (fst front))%Z in
  let oit := theta_mod (Z.of_nat (pf_nt p)) (it - Z.of_nat (snd front)) in
  let* _ := check (0 <=? oir)%Z in
  let* _ := check (oir <? Z.of_nat (pf_d p + 1))%Z in
  let* _ := check (0 <=? oit)%Z in
  let* _ := check (oit <? Z.of_nat (pf_d p + 1))%Z in
  Ok (Z.to_nat oir, Z.to_nat oit).
(** with calculate_derivs = false (get_polar_bspline_vals, slv 588-594) *)
Definition bspline_val (p : pfem) (idx : Z) (r th : R) : res R :=
  let* out := span_eval p 0 0 r th in
  let '(sing, vals, front) := out in
  if (idx <? Z.of_nat (pf_ns p))%Z then rd sing idx
  else let* (i, j) := table_offset p idx front in Ok (vals i j).
(** with calculate_derivs = true: the value, the radial and the poloidal derivative *)
Definition bspline_derivs (p : pfem) (idx : Z) (r th : R) : res (R * R * R) :=
  let* out := span_eval p 0 0 r th in
  let '(sing, vals, front) := out in
  if (idx <? Z.of_nat (pf_ns p))%Z then
    let* v := rd sing idx in
    let* out_r := span_eval p 1 0 r th in
    let* dr := rd (fst (fst out_r)) idx in
    let* out_t := span_eval p 0 1 r th in
    let* dt := rd (fst (fst out_t)) idx in Ok (v, dr, dt)
  else
    let* (i, j) := table_offset p idx front in
    let* out_r := span_eval p 1 0 r th in
    let* out_t := span_eval p 0 1 r th in
    Ok (vals i j, snd (fst out_r) i j, snd (fst out_t) i j).

(** ** Quadrature *)
(** get_quadrature_between_knots, asm 197-234: first index and number of the radial and of the
    poloidal quadrature points *)
Definition quadrature_between_knots (p : pfem) (sr er st et : Z) : res (Z * Z * Z * Z) :=
  let gr := Z.of_nat (pf_d p + 1) in
  let gt := Z.of_nat (pf_dt p + 1) in
  let st' := if (st <? 0)%Z then (st + Z.of_nat (pf_nt p))%Z else st in
  let nqr := ((er - sr) * gr)%Z in
  let nqt := ((et - st) * gt)%Z in
  let* _ := check (0 <? nqr)%Z in
  let* _ := check (0 <? nqt)%Z in
  Ok (sr * gr, nqr, st' * gt, nqt)%Z.
(** full_quad_idx_range.contains *)
Definition quad_contains (p : pfem) (a b : Z) : bool :=
  ((0 <=? a) && (a <? Z.of_nat (pf_nqr p)) && (0 <=? b) && (b <? Z.of_nat (pf_nqt p)))%Z.
(** asm 919-922 and 1230-1232: "Manage periodicity" *)
Definition wrap_quad (p : pfem) (a b : Z) : Z :=
  if quad_contains p a b then b else (b - Z.of_nat (pf_nqt p))%Z.
(** the sum of f over the quadrature points a0, a0+1, ... x b0, b0+1, ... *)
Definition sum_points (a0 na b0 nb : Z) (f : Z -> Z -> res R) : res R :=
  for_res (Z.to_nat na) (fun a s => for_res (Z.to_nat nb) (fun b s =>
    let* x := f (a0 + Z.of_nat a)%Z (b0 + Z.of_nat b)%Z in Ok (s + x)) s) 0.

(** The equation: the coefficients alpha and beta, and the inverse of the metric tensor of the mapping
    (MappingModel.metric_inverse) *)
Record equation : Type := {
  eq_alpha : R -> R -> res R;
  eq_beta : R -> R -> res R;
  eq_map : mapping
}.
(** weak_integral_element, asm 1088-1130; tensor_mul is written as the sum it denotes *)
Definition weak_integral_element (p : pfem) (q : equation) (test trial : Z) (a b : Z) : res R :=
  let* r := rd (pf_qr p) a in
  let* th := rd (pf_qt p) b in
  let* alpha := eq_alpha q r th in
  let* beta := eq_beta q r th in
  let* (tv, tr, tth) := bspline_derivs p test r th in
  let* (uv, ur, ut) := bspline_derivs p trial r th in
  let* g := metric_inverse 2 (eq_map q) (c2 r th) in
  let* vol := rd2 (pf_vol p) (pf_nqr p) (pf_nqt p) a b in
  Ok (vol * (alpha * Rsum 2 (fun i => Rsum 2 (fun j => c2 tr tth i * g i j * c2 ur ut j)) + beta * tv * uv)).

(** ** The sparsity pattern *)
(** n_matrix_elements, asm 449-467 *)
Definition n_matrix_elements (p : pfem) : Z :=
  let ns := Z.of_nat (pf_ns p) in
  let d := Z.of_nat (pf_d p) in
  let nt := Z.of_nat (pf_nt p) in
  let n_elements_singular := (ns * ns)%Z in
  let n_elements_overlap := (2 * (ns * d * nt))%Z in
  let n_stencil_theta := (nt * Z.min (1 + 2 * Z.of_nat (pf_dt p)) nt)%Z in
  let n_stencil_r := (Z.of_nat (pf_nr p) * (1 + 2 * d) - (1 + d) * d)%Z in
  (n_elements_singular + n_elements_overlap + n_stencil_r * n_stencil_theta)%Z.

(** A schedule gives the order of the n iterations of the k-th parallel loop *)
Definition schedule := nat -> nat -> list nat.

(** nnz(k) = v, asm 1279-1281: the field nnz is the array shifted by one *)
Definition set_nnz (k v : Z) (nnz : list Z) : res (list Z) := wr nnz (k + 1) v.
(** init_nnz_per_line, asm 1266-1399 *)
(** asm 1297-1302 *)
Definition nnz_singular_rows (p : pfem) : Z := (Z.of_nat (pf_ns p) + Z.of_nat (pf_d p) * Z.of_nat (pf_nt p))%Z.
Definition nnz_singular (p : pfem) (k : nat) (nnz : list Z) : res (list Z) :=
  wr nnz (Z.of_nat k + 1) ((Z.of_nat k + 1) * nnz_singular_rows p)%Z.
(** asm 1314-1339, one radial and one poloidal index; [sum] is nnz_sum *)
Definition overlap_theta (p : pfem) : Z := (2 * Z.of_nat (pf_d p) + 1)%Z.
Definition nnz_inner (p : pfem) (sum : Z) (task : nat) (nnz : list Z) : res (list Z) :=
  let d := Z.of_nat (pf_d p) in
  let nt := Z.of_nat (pf_nt p) in
  let ns := Z.of_nat (pf_ns p) in
  let ir := Z.of_nat (task / pf_nt p) in
  let it := Z.of_nat (task mod pf_nt p) in
  let nr := (d + ir + 1)%Z in
  let sum_to_r := (sum + ns * ir * nt + (nr * (nr - 1) - d * (d + 1)) * nt * overlap_theta p / 2)%Z in
  let* k := to_polar p (Z.of_nat (pf_c1 p) + ir) it in
  set_nnz k (sum_to_r + (it + 1) * (ns + nr * overlap_theta p))%Z nnz.
(** asm 1341-1345 *)
Definition nnz_after_inner (p : pfem) (sum : Z) : Z :=
  let d := Z.of_nat (pf_d p) in
  (sum + (Z.of_nat (pf_ns p) * d + d * (d + 2 * d + 1) * overlap_theta p / 2) * Z.of_nat (pf_nt p))%Z.
(** asm 1347-1349: extents of idxrange_stencil *)
Definition stencil_rows (p : pfem) : Z := (Z.of_nat (pf_nr p) + 1 - Z.of_nat (pf_d p) - (Z.of_nat (pf_d p) + 1))%Z.
(** asm 1347-1359; idx_stencil_front is [front] *)
Definition nnz_stencil (p : pfem) (sum front : Z) (k : nat) (nnz : list Z) : res (list Z) :=
  set_nnz (front + Z.of_nat k) (sum + (Z.of_nat k + 1) * overlap_theta p * overlap_theta p)%Z nnz.
(** asm 1376-1396, one radial and one poloidal index; the index range outer_bsplines is front, ..., back *)
Definition nnz_outer (p : pfem) (sum front back : Z) (task : nat) (nnz : list Z) : res (list Z) :=
  let d := Z.of_nat (pf_d p) in
  let nt := Z.of_nat (pf_nt p) in
  let ir := Z.of_nat (task / pf_nt p) in
  let it := Z.of_nat (task mod pf_nt p) in
  let nr := (2 * d - ir)%Z in
  let sum_to_r := (sum + (d * (2 * d + 1) - nr * (nr + 1) / 2) * overlap_theta p * nt)%Z in
  let* k := to_polar p (Z.of_nat (pf_c1 p) + Z.of_nat (pf_nr p) - d + ir) it in
  if ((front <=? k) && (k <=? back))%Z
  then set_nnz k (sum_to_r + (it + 1) * nr * overlap_theta p)%Z nnz else Ok nnz.
Definition init_nnz (p : pfem) (sched : schedule) : res (list Z) :=
  let d := pf_d p in
  let nt := pf_nt p in
  let nnz := repeat 0%Z (pf_size p + 1) in
  let* nnz := par (sched 0%nat (pf_ns p)) (nnz_singular p) nnz in
  let sum := (nnz_singular_rows p * Z.of_nat (pf_ns p))%Z in
  let* nnz := par (sched 1%nat (d * nt)%nat) (nnz_inner p sum) nnz in
  let sum := nnz_after_inner p sum in
  if (stencil_rows p <? 0)%Z then Ub (* an index range of negative size *) else
  let rows := Z.to_nat (stencil_rows p) in
  let* front := to_polar p (Z.of_nat (pf_c1 p) + Z.of_nat d) 0 in
  let* nnz := par (sched 2%nat (rows * nt)%nat) (nnz_stencil p sum front) nnz in
  let sum := (sum + Z.of_nat (rows * nt) * overlap_theta p * overlap_theta p)%Z in
  let* ofront := to_polar p (Z.of_nat (pf_c1 p) + Z.of_nat (pf_nr p) - Z.of_nat d) 0 in
  let oback := (ofront + Z.of_nat (d * nt) - 1)%Z in
  let* _ := check (oback =? Z.of_nat (pf_size p) - 1)%Z in
  par (sched 3%nat (d * nt)%nat) (nnz_outer p sum ofront oback) nnz.

(** The column indices; [None] is a value which was never written *)
Notation columns := (list (option Z)) (only parsing).
(** compute_singular_singular_col_idx, asm 545-572 *)
Definition col_sing_sing (p : pfem) (nnz : list Z) (task : nat) (c : columns) : res columns :=
  let row := (task / pf_ns p)%nat in
  let col := Z.of_nat (task mod pf_ns p) in
  let* n := rd nnz (Z.of_nat row) in wr c (n + col) (Some col).
(** compute_singular_tensor_col_idx, asm 583-626 *)
Definition col_sing_tensor (p : pfem) (nnz : list Z) (task : nat) (c : columns) : res columns :=
  let n_over := (pf_d p * pf_nt p)%nat in
  let row := Z.of_nat (task / n_over) in
  let col := Z.of_nat (task mod n_over + pf_ns p) in
  let* n := rd nnz row in
  let* c := wr c (n + col) (Some col) in
  let* n := rd nnz col in
  wr c (n + row) (Some row).
(** compute_tensor_tensor_col_idx, asm 637-745: the offsets of one row *)
Definition r_offset_min (p : pfem) (ir : Z) : Z := Z.max (- Z.of_nat (pf_d p)) (Z.of_nat (pf_c1 p) - ir).
Definition r_offset_max (p : pfem) (ir : Z) : Z :=
  Z.min (Z.of_nat (pf_d p) + 1) (Z.of_nat (nbasis_r (pf_r p)) - 1 - ir).
(** n_singular * central_radial_bspline_idx_range.contains(idx_test_r) *)
Definition first_offset (p : pfem) (ir : Z) : Z :=
  if ((Z.of_nat (pf_c1 p) <=? ir) && (ir <? Z.of_nat (pf_c1 p) + Z.of_nat (pf_d p)))%Z then Z.of_nat (pf_ns p) else 0%Z.
(** 719-727 and 730-738: the loop over the poloidal indices from, ..., to - 1 *)
Definition col_theta (p : pfem) (start jr from to : Z) (s : columns * Z) : res (columns * Z) :=
  for_res (Z.to_nat (to - from)) (fun k (s : columns * Z) =>
    let (c, off) := s in
    let* col := to_polar p jr (from + Z.of_nat k) in
    let* c := wr c (start + off) (Some col) in Ok (c, off + 1)%Z) s.
(** 693-739: one radial offset *)
Definition col_radial (p : pfem) (start it jr : Z) (s : columns * Z) : res (columns * Z) :=
  let nt := Z.of_nat (pf_nt p) in
  let first := mod_add nt it (- Z.of_nat (pf_dt p)) in
  let last := mod_add nt it (Z.of_nat (pf_dt p) + 1) in
  let periodic := if (last <? first)%Z then first else nt in
  let first := if (last <? first)%Z then 0%Z else first in
  let* s := col_theta p start jr first last s in
  col_theta p start jr periodic nt s.
Definition col_tensor_tensor (p : pfem) (nnz : list Z) (task : nat) (c : columns) : res columns :=
  let idx := Z.of_nat (pf_ns p + task) in
  let* (ir, it) := to_2d p idx in
  let* start := rd nnz idx in
  let lo := r_offset_min p ir in
  let* s := for_res (Z.to_nat (r_offset_max p ir - lo)) (fun k s =>
    col_radial p start it (ir + (lo + Z.of_nat k)) s) (c, first_offset p ir) in
  Ok (fst s).
(** setup_sparse_matrix, asm 436-484 *)
Definition setup_sparse_matrix (p : pfem) (sched : schedule) : res (list Z * columns) :=
  let c := repeat None (Z.to_nat (n_matrix_elements p)) in
  let* nnz := init_nnz p sched in
  let* c := par (sched 4%nat (pf_ns p * pf_ns p)%nat) (col_sing_sing p nnz) c in
  let* c := par (sched 5%nat (pf_ns p * (pf_d p * pf_nt p))%nat) (col_sing_tensor p nnz) c in
  let* c := par (sched 6%nat (pf_nr p * pf_nt p)%nat) (col_tensor_tensor p nnz) c in
  Ok (nnz, c).

(** ** The values *)
Notation csr_values := (list (option R)) (only parsing).
(** compute_singular_singular_elements, asm 766-826 *)
Definition sing_sing_element (p : pfem) (q : equation) (row col : Z) : res R :=
  sum_points 0 (Z.of_nat (pf_c1 p * (pf_d p + 1))) 0 (Z.of_nat (pf_nqt p)) (weak_integral_element p q row col).
Definition val_sing_sing (p : pfem) (q : equation) (nnz : list Z) (task : nat) (v : csr_values) : res csr_values :=
  let row := Z.of_nat (task / pf_ns p) in
  let col := Z.of_nat (task mod pf_ns p) in
  let* x := sing_sing_element p q row col in
  let* n := rd nnz row in wr v (n + col) (Some x).
(** compute_singular_tensor_elements, asm 846-967; get_first_support_knot(i) is i - degree and
    get_last_support_knot(i) is i + 1 *)
Definition sing_tensor_element (p : pfem) (q : equation) (test trial : Z) : res R :=
  let* (jr, jt) := to_2d p trial in
  let sr := Z.max 0 (jr - Z.of_nat (pf_d p)) in
  let er := Z.min (Z.of_nat (pf_c1 p)) (jr + 1) in
  let* (a0, na, b0, nb) := quadrature_between_knots p sr er (jt - Z.of_nat (pf_dt p)) (jt + 1) in
  let* _ := check (0 <? na * nb)%Z in
  sum_points a0 na b0 nb (fun a b => weak_integral_element p q test trial a (wrap_quad p a b)).
Definition val_sing_tensor (p : pfem) (q : equation) (nnz : list Z) (task : nat) (v : csr_values) : res csr_values :=
  let n_over := (pf_d p * pf_nt p)%nat in
  let row := Z.of_nat (task / n_over) in
  let col := Z.of_nat (task mod n_over + pf_ns p) in
  let* x := sing_tensor_element p q row col in
  let* n := rd nnz row in
  let* v := wr v (n + col) (Some x) in
  let* n := rd nnz col in
  wr v (n + row) (Some x).
(** get_matrix_stencil_element, asm 1158-1249 *)
Definition stencil_element (p : pfem) (q : equation) (test trial : Z * Z) : res R :=
  let nt := Z.of_nat (pf_nt p) in
  let d := Z.of_nat (pf_d p) in
  let dt := Z.of_nat (pf_dt p) in
  let cells := Z.of_nat (b_cells (pf_r p)) in
  let it := theta_mod nt (snd test) in
  let* _ := check ((0 <=? it) && (it <? nt))%Z in
  let jt := theta_mod nt (snd trial) in
  let* _ := check ((0 <=? jt) && (jt <? nt))%Z in
  let sr := Z.max 0 (Z.max (fst test - d) (fst trial - d)) in
  let er := Z.min cells (Z.min (fst test + 1) (fst trial + 1)) in
  let ft := (it - dt)%Z in
  let fu := (jt - dt)%Z in
  let lt := (ft + (dt + 1))%Z in
  let lu := (fu + (dt + 1))%Z in
  let '(ft, lt, fu, lu) :=
    if (lu <? ft)%Z then (ft, lt, fu + nt, lu + nt)%Z
    else if (lt <? fu)%Z then (ft + nt, lt + nt, fu, lu)%Z
    else (ft, lt, fu, lu) in
  let* (a0, na, b0, nb) := quadrature_between_knots p sr er (Z.max ft fu) (Z.min lt lu) in
  let* i := to_polar p (fst test) (snd test) in
  let* j := to_polar p (fst trial) (snd trial) in
  sum_points a0 na b0 nb (fun a b =>
    let b := wrap_quad p a b in
    let* _ := check (quad_contains p a b) in
    weak_integral_element p q i j a b).
(** compute_tensor_tensor_elements, asm 987-1060 *)
Definition val_tensor_tensor (p : pfem) (q : equation) (nnz : list Z) (c : columns) (task : nat) (v : csr_values)
  : res csr_values :=
  let idx := Z.of_nat (pf_ns p + task) in
  let* test := to_2d p idx in
  let* n := rd nnz idx in
  let* n' := rd nnz (idx + 1) in
  let start := (n + first_offset p (fst test))%Z in
  for_res (Z.to_nat (n' - start)) (fun k v =>
    let* col := rd c (start + Z.of_nat k) in
    match col with
    | None => Ub
    | Some col =>
        let* trial := to_2d p col in
        let* x := stencil_element p q test trial in
        wr v (start + Z.of_nat k) (Some x)
    end) v.
(** operator(), asm 502-534, before setup_solver *)
Definition assemble (p : pfem) (q : equation) (sched : schedule) (nnz : list Z) (c : columns) (v : csr_values)
  : res csr_values :=
  let* v := par (sched 7%nat (pf_ns p * pf_ns p)%nat) (val_sing_sing p q nnz) v in
  let* v := par (sched 8%nat (pf_ns p * (pf_d p * pf_nt p))%nat) (val_sing_tensor p q nnz) v in
  par (sched 9%nat (pf_nr p * pf_nt p)%nat) (val_tensor_tensor p q nnz c) v.

(** ** The solver *)
(** m_gko_matrix: the three arrays of the matrix and the solvers pushed by setup_solver; a Ginkgo solver
    refers to the arrays of the matrix and owns a preconditioner computed from the values they have when
    it is created (matrix_batch_csr.hpp 184-219: setup_solver appends to m_solver).  setup_solver also
    sorts the rows which are not sorted by column; they are (C77), so this is not modelled. *)
Record pstate : Type := {
  st_nnz : list Z;
  st_cols : columns;
  st_vals : csr_values;
  st_solvers : list csr_values;
  st_x : list R                 (* m_x_init_alloc *)
}.
(** the constructor, slv 297-364 *)
Definition solver_make (p : pfem) (sched : schedule) : res pstate :=
  let* (nnz, c) := setup_sparse_matrix p sched in
  Ok {| st_nnz := nnz; st_cols := c; st_vals := repeat None (length c); st_solvers := [];
        st_x := repeat 0 (pf_size p) |}.
(** update_coefficients, slv 375-391, once alpha and beta are functions *)
Definition update_coefficients (p : pfem) (q : equation) (sched : schedule) (s : pstate) : res pstate :=
  let* v := assemble p q sched (st_nnz s) (st_cols s) (st_vals s) in
  Ok {| st_nnz := st_nnz s; st_cols := st_cols s; st_vals := v; st_solvers := st_solvers s ++ [v]; st_x := st_x s |}.
(** the right-hand side.  slv 436-461: the functions around the pole *)
Definition rhs_point (p : pfem) (rhs : R -> R -> res R) (idx a b : Z) : res R :=
  let* r := rd (pf_qr p) a in
  let* th := rd (pf_qt p) b in
  let* f := rhs r th in
  let* v := bspline_val p idx r th in
  let* vol := rd2 (pf_vol p) (pf_nqr p) (pf_nqt p) a b in
  Ok (f * v * vol).
Definition rhs_singular (p : pfem) (rhs : R -> R -> res R) (k : nat) (b : list (option R)) : res (list (option R)) :=
  let* x := sum_points 0 (Z.of_nat (pf_c1 p * (pf_d p + 1))) 0 (Z.of_nat (pf_nqt p)) (rhs_point p rhs (Z.of_nat k)) in
  wr b (Z.of_nat k) (Some x).
(** slv 467-516: the other functions *)
Definition rhs_tensor (p : pfem) (rhs : R -> R -> res R) (k : nat) (b : list (option R)) : res (list (option R)) :=
  let idx := Z.of_nat (pf_ns p + k) in
  let* (ir, it) := to_2d p idx in
  let sr := Z.max 0 (ir - Z.of_nat (pf_d p)) in
  let er := Z.min (Z.of_nat (b_cells (pf_r p))) (ir + 1) in
  let* (a0, na, b0, nb) := quadrature_between_knots p sr er (it - Z.of_nat (pf_dt p)) (it + 1) in
  let* x := for_res (Z.to_nat nb) (fun j s =>
    let bq := (b0 + Z.of_nat j)%Z in
    let bq := if ((0 <=? bq) && (bq <? Z.of_nat (pf_nqt p)))%Z then bq else (bq - Z.of_nat (pf_nqt p))%Z in
    for_res (Z.to_nat na) (fun i s =>
      let* x := rhs_point p rhs idx (a0 + Z.of_nat i) bq in Ok (s + x)) s) 0 in
  wr b idx (Some x).
Definition right_hand_side (p : pfem) (rhs : R -> R -> res R) (sched : schedule) : res (list (option R)) :=
  let b := repeat None (pf_size p) in
  let* b := par (sched 10%nat (pf_ns p)) (rhs_singular p rhs) b in
  par (sched 11%nat (pf_nr p * pf_nt p)%nat) (rhs_tensor p rhs) b.
(** Ginkgo's conjugate gradient: preconditioner values, matrix, initial guess and right-hand side.
    It throws when it does not converge (matrix_batch_csr.hpp 272-274). *)
Definition cg_solver := csr_values -> list Z -> columns -> csr_values -> list R -> list (option R) -> res (list R).
(** operator()(spline, rhs), slv 401-545: the new state and the polar spline coefficients of phi.
    m_solver[0] of an empty vector is undefined. *)
Definition solve_spline (p : pfem) (cg : cg_solver) (sched : schedule) (s : pstate) (rhs : R -> R -> res R)
  : res (pstate * list R) :=
  let* b := right_hand_side p rhs sched in
  match st_solvers s with
  | [] => Ub
  | prec :: _ =>
      let* x := cg prec (st_nnz s) (st_cols s) (st_vals s) (st_x s) b in
      let* spline := map_res (fun k => rd x (Z.of_nat k)) (seq 0 (pf_size p)) in
      Ok ({| st_nnz := st_nnz s; st_cols := st_cols s; st_vals := st_vals s; st_solvers := st_solvers s; st_x := x |},
          spline ++ repeat 0 (pf_nt p))
  end.
(** operator()(phi, rhs), slv 562-574: the values at the points of the grid; the outer extrapolation rule
    of the evaluator is NullExtrapolationRule *)
Definition solve_grid (p : pfem) (cg : cg_solver) (sched : schedule) (s : pstate) (rhs : R -> R -> res R)
  (grid : list (R * R)) : res (pstate * list R) :=
  let* (s, spline) := solve_spline p cg sched s rhs in
  let* phi := map_res (fun x => evaluate (pf_c1 p) (pf_r p) (pf_t p) (pf_el p) (fun _ _ _ => Ok 0) spline (fst x) (snd x)) grid in
  Ok (s, phi).
(** operator()(phi, rhs field), slv 585-595 : the right-hand side is the spline interpolant of its
    values on the grid ([build] and [ev] are DDC's builder and evaluator); the same for alpha and beta in
    update_coefficients, slv 378-391 *)
Definition coeff_evaluator (build : list R -> list R) (ev : list R -> R -> R -> res R) (f : list R) : R -> R -> res R :=
  ev (build f).
Definition solve_field (p : pfem) (cg : cg_solver) (sched : schedule) (build : list R -> list R)
  (ev : list R -> R -> R -> res R) (s : pstate) (rho : list R) (grid : list (R * R)) : res (pstate * list R) :=
  solve_grid p cg sched s (coeff_evaluator build ev rho) grid.
Definition update_fields (p : pfem) (sched : schedule) (build : list R -> list R) (ev : list R -> R -> R -> res R)
  (m : mapping) (alpha beta : list R) (s : pstate) : res pstate :=
  update_coefficients p {| eq_alpha := coeff_evaluator build ev alpha; eq_beta := coeff_evaluator build ev beta; eq_map := m |} sched s.
(** calculate_int_volume, slv 598-613: Gauss-Legendre points and weights of degree + 1 points per cell of
    the break points, times |J| *)
Definition int_volume (pos_r w_r breaks_r pos_t w_t breaks_t : list R) (m : mapping) : list R * list R * list R :=
  let qr := gl_sampling pos_r breaks_r in
  let qt := gl_sampling pos_t breaks_t in
  (qr, qt,
   flat_map (fun a => map (fun b =>
     coeffs_on_mapping (fun ab => [nth (Z.to_nat (nth 0 ab 0%Z)) qr 0; nth (Z.to_nat (nth 1 ab 0%Z)) qt 0])
       (fun x => m_jac m (c2 (nth 0 x 0) (nth 1 x 0)))
       (quadrature_coeffs_nd [(fun i => gl_coefficient w_r breaks_r (Z.to_nat i)); (fun j => gl_coefficient w_t breaks_t (Z.to_nat j))])
       [Z.of_nat a; Z.of_nat b]) (seq 0 (length qt))) (seq 0 (length qr))).
