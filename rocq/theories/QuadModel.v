(** Model of src/quadrature: trapezoid, Simpson, mixed Simpson-trapezoid and Gauss-Legendre
    coefficients, tensor products of coefficients, the Quadrature operators (global and batched)
    and the multiplication by the Jacobian of a mapping. *)
From Verif Require Export Lib.
Open Scope R_scope.

(** A Kokkos::parallel_for over [0, n): the iterations of every loop modelled here write
    disjoint cells and read none written by another one, so any schedule gives the sequential
    result; it is modelled by the sequential loop.  Out-of-bounds accesses stop with [Ub]. *)
Fixpoint for_res {S : Type} (n : nat) (body : nat -> S -> res S) (s : S) : res S :=
  match n with
  | O => Ok s
  | S n' => let* s' := for_res n' body s in body n' s'
  end.

(** Kokkos::RangePolicy(0, n) where [n] is an expression of type size_t: a negative value wraps
    around to about 2^64 iterations, which necessarily leave the arrays. *)
Definition range_policy {S : Type} (n : Z) (body : nat -> S -> res S) (s : S) : res S :=
  if (n <? 0)%Z then Ub else for_res (Z.to_nat n) body s.

(** DDC: distance_at_right / distance_at_left of a point of the (non uniform) sampling whose
    points are [pts]; asking beyond the sampling is out of bounds. *)
Definition distance_at_right (pts : list R) (i : Z) : res R :=
  let* x1 := rd pts (i + 1) in let* x0 := rd pts i in Ok (x1 - x0).
Definition distance_at_left (pts : list R) (i : Z) : res R :=
  let* x1 := rd pts i in let* x0 := rd pts (i - 1) in Ok (x1 - x0).

(** trapezoid_quadrature.hpp 23-66: trapezoid_quadrature_coefficients_1d.
    [pts]: coordinates of the whole discrete space, [fr],[n]: front and size of idx_range;
    [c]: the freshly allocated (uninitialised) coefficients, indexed from [fr].
    IdxRange::remove on a range too small to be shrunk is [Ub] (assert in DDC, wrap otherwise). *)
Definition trapezoid_coefficients (per : bool) (pts : list R) (fr : Z) (n : nat) (c : list R)
  : res (list R) :=
  let nz := Z.of_nat n in
  let back := (fr + nz - 1)%Z in
  (* middle_idx_range = idx_range.remove(1, !PERIODIC) *)
  let nmid := (nz - 1 - (if per then 0 else 1))%Z in
  let* c := range_policy nmid (fun k c =>
     let idx := (fr + 1 + Z.of_nat k)%Z in
     let* dl := distance_at_left pts idx in
     let* dr := distance_at_right pts idx in
     wr c (idx - fr) (0.5 * (dl + dr))) c in
  if per then
     let* d1 := distance_at_right pts back in
     let* d2 := distance_at_right pts fr in
     wr c (fr - fr) (0.5 * (d1 + d2))
  else
     let* d1 := distance_at_right pts fr in
     let* c := wr c (fr - fr) (0.5 * d1) in
     let* d2 := distance_at_left pts back in
     wr c (back - fr) (0.5 * d2).

(** simpson_quadrature.hpp 46-50, 61-64 and 85-90: the three weights of a pair of cells
    around the centre [idx_c], from dx_l and dx_r. *)
Definition simpson_left (dl dr : R) : R := (dl + dr) * (2 * dl - dr) / (6 * dl).
Definition simpson_mid (dl dr : R) : R := (dl + dr) * (dl + dr) * (dl + dr) / (6 * dl * dr).
Definition simpson_right (dl dr : R) : R := (dl + dr) * (2 * dr - dl) / (6 * dr).

(** [coefficients(i) += v] on a field whose first index is [b0] *)
Definition add_at (c : list R) (i : Z) (v : R) : res (list R) :=
  let* old := rd c i in wr c i (old + v).

(** simpson_quadrature.hpp 22-93: fill_simpson_quadrature_coefficients_1d on the index range
    (fr, n) of a field whose storage starts at index [b0]. *)
Definition fill_simpson (per : bool) (pts : list R) (b0 fr : Z) (n : nat) (c : list R)
  : res (list R) :=
  let nz := Z.of_nat n in
  let p := (if per then 1 else 0)%Z in
  let back := (fr + nz - 1)%Z in
  (* 26-37 *)
  if (if per then negb (Nat.even n) else Nat.even n) then Throw else
  (* 39-53, "centre_left" *)
  let* c := range_policy (nz / 2 - p) (fun i c =>
     let idx_c := (fr + Z.of_nat i * 2 + 1)%Z in
     let* dl := distance_at_left pts idx_c in
     let* dr := distance_at_right pts idx_c in
     let* c := wr c (idx_c - 1 - b0) (simpson_left dl dr) in
     wr c (idx_c - b0) (simpson_mid dl dr)) c in
  (* 55-67, "overlap_increment" *)
  let* c := range_policy (nz / 2 - p - 1) (fun i c =>
     let idx_c := (fr + Z.of_nat i * 2 + 1)%Z in
     let* dl := distance_at_left pts idx_c in
     let* dr := distance_at_right pts idx_c in
     add_at c (idx_c + 1 - b0) (simpson_right dl dr)) c in
  (* 69-78, "bounds" *)
  let* c :=
     (let idx_c := (back - 1 - p)%Z in
      let* dl := distance_at_left pts idx_c in
      let* dr := distance_at_right pts idx_c in
      wr c (idx_c + 1 - b0) (simpson_right dl dr)) in
  (* 80-92, periodic "bounds" *)
  if per then
     let idx_c := back in
     let* dl := distance_at_left pts idx_c in
     let* dr := distance_at_right pts idx_c in
     let* c := add_at c (idx_c - 1 - b0) (simpson_left dl dr) in
     let* c := wr c (idx_c - b0) (simpson_mid dl dr) in
     add_at c (fr - b0) (simpson_right dl dr)
  else Ok c.

(** simpson_quadrature.hpp 108-117 *)
Definition simpson_coefficients (per : bool) (pts : list R) (fr : Z) (n : nat) (c : list R)
  : res (list R) := fill_simpson per pts fr fr n c.

Inductive extremity := FRONT | BACK.

(** simpson_quadrature.hpp 132-177: simpson_trapezoid_quadrature_coefficients_1d (non periodic).
    [c1] and [c2] are the two allocations (the first is dropped when the parity check throws).
    remove_first / remove_last of an empty range is [Ub]. *)
Definition simpson_trapezoid_coefficients (pts : list R) (fr : Z) (n : nat) (ext : extremity)
           (c1 c2 : list R) : res (list R) :=
  match simpson_coefficients false pts fr n c1 with
  | Throw =>
      if (n =? 0)%nat then Ub else
      match ext with
      | FRONT =>
          let* c := fill_simpson false pts fr (fr + 1) (n - 1) c2 in
          let idx_l := fr in
          let* d := distance_at_right pts idx_l in
          let* c := wr c (idx_l - fr) (0.5 * d) in
          add_at c (idx_l + 1 - fr) (0.5 * d)
      | BACK =>
          let* c := fill_simpson false pts fr fr (n - 1) c2 in
          let idx_r := (fr + Z.of_nat n - 1)%Z in
          let* d := distance_at_left pts idx_r in
          let* c := wr c (idx_r - fr) (0.5 * d) in
          add_at c (idx_r - 1 - fr) (0.5 * d)
      end
  | r => r
  end.

(** ** Multidimensional index ranges: (front, size) for each dimension. *)
Definition nd_range := list (Z * nat).
Definition nd_idx := list Z.

Fixpoint nd_size (g : nd_range) : nat :=
  match g with [] => 1%nat | (_, n) :: g' => (n * nd_size g')%nat end.

(** quadrature.hpp 198-211: to_discrete_element.  With no dimension left the recursion stops;
    division by the size of an empty sub-range cannot be reached for [idx] < size. *)
Fixpoint to_discrete_element (idx : nat) (g : nd_range) : nd_idx :=
  match g with
  | [] => []
  | (fr, _) :: g' =>
      (fr + Z.of_nat (idx / nd_size g'))%Z :: to_discrete_element (idx mod nd_size g') g'
  end.

(** ddc::host_transform_reduce / parallel_transform_reduce with reducer::sum over a range:
    nested loops, first dimension outermost, starting from the neutral element. *)
Fixpoint transform_reduce (g : nd_range) (f : nd_idx -> R) (acc : R) : R :=
  match g with
  | [] => acc + f []
  | (fr, n) :: g' =>
      for_loop n (fun k acc => transform_reduce g' (fun t => f ((fr + Z.of_nat k)%Z :: t)) acc) acc
  end.

(** quadrature.hpp 61-102: Quadrature::operator()(exec_space, integrated_function);
    [coeff] is m_coefficients, defined on [g]. *)
Definition quadrature (g : nd_range) (coeff f : nd_idx -> R) : R :=
  transform_reduce g (fun ix => coeff ix * f ix) 0.

(** quadrature.hpp 119-184: batched operator.  [gb], [gq]: batch and quadrature ranges; the total
    index it(ib, iq) is modelled by the pair of the two indices.  One team per league rank: writes
    result(ib); the teams are modelled in increasing rank. *)
Definition batched_quadrature (gb gq : nd_range) (coeff : nd_idx -> R)
           (f : nd_idx -> nd_idx -> R) (result : nd_idx -> R) : nd_idx -> R :=
  for_loop (nd_size gb) (fun idx result =>
     let ib := to_discrete_element idx gb in
     let teamSum :=
       for_loop (nd_size gq) (fun t sum =>
          let iq := to_discrete_element t gq in sum + coeff iq * f ib iq) 0 in
     fun i => if list_eq_dec Z.eq_dec i ib then teamSum else result i)
   result.

(** quadrature_coeffs_nd.hpp 52-58: (std::get<...>(coeffs)(select<DDims>(idim)) * ... * 1);
    [cs]: the coefficients of each dimension, as functions of the index.  The same fold is used in
    gauss_legendre_integration.hpp 269-276, spline_quadrature.hpp 108-114 and
    neumann_spline_quadrature.hpp 138-144. *)
Fixpoint quadrature_coeffs_nd (cs : list (Z -> R)) (idim : nd_idx) : R :=
  match cs, idim with
  | c :: cs', i :: t => c i * quadrature_coeffs_nd cs' t
  | _, _ => 1
  end.

(** volume_quadrature_nd.hpp 72-78: coefficients(idx) *= fabs(mapping.jacobian(coord)) *)
Definition coeffs_on_mapping (coord : nd_idx -> list R) (jacobian : list R -> R)
           (coeff : nd_idx -> R) : nd_idx -> R :=
  fun idx => coeff idx * Rabs (jacobian (coord idx)).

(** gauss_legendre_integration.hpp 169-182, 184-199, 201-220 and 222-238 (get_sampling_on_cell and
    the three overloads of get_sampling, which only differ in the container of the edges): the
    points are written at the running position k, NPoints per cell, i.e. appended in order.
    [pos]: reference positions; [edges]: mesh edges. *)
Definition gl_cell_half_length (edges : list R) (i : nat) : R :=
  0.5 * (nth (S i) edges 0 - nth i edges 0).
Definition gl_sampling_on_cell (pos : list R) (x0 x1 : R) : list R :=
  let l := 0.5 * (x1 - x0) in
  let c := 0.5 * (x0 + x1) in
  map (fun p => c + l * p) pos.
Fixpoint gl_sampling (pos edges : list R) : list R :=
  match edges with
  | x0 :: ((x1 :: _) as rest) => gl_sampling_on_cell pos x0 x1 ++ gl_sampling pos rest
  | _ => []
  end.
(** gauss_legendre_integration.hpp 151-166: gauss_legendre_coefficients *)
Definition gl_coefficient (weight edges : list R) (k : nat) : R :=
  let np := length weight in
  gl_cell_half_length edges (k / np) * nth (k mod np) weight 0.
(** gauss_legendre_integration.hpp 88-90: size of m_valid_idx_range *)
Definition gl_size (np : nat) (edges : list R) : nat := ((length edges - 1) * np)%nat.
