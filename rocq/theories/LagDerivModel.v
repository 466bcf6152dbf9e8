(** Model of the derivatives of the Lagrange bases and evaluators: eval_basis_and_n_derivs of
    lagrange_basis_uniform.hpp and lagrange_basis_non_uniform.hpp, the deriv functions of
    lagrange_evaluator.hpp, and the tensor product evaluator of nd_lagrange_evaluator.hpp.
    Real arithmetic is exact; factorial(size_t) wraps around at 2^64 (MathModel.factorial).
    The table derivs(j, n) is a function of its two indices: the loops run over its extents, which the
    source asserts. *)
From Verif Require Export LagrangeModel MathModel.
Open Scope R_scope.

Definition set2 (t : nat -> nat -> R) (i j : nat) (x : R) : nat -> nat -> R :=
  fun a b => if ((a =? i) && (b =? j))%nat then x else t a b.
(** for (n = 1; n < m + 1; ++n) *)
Definition for_from1 {S} (m : nat) (body : nat -> S -> S) (s : S) : S := for_loop m (fun k s => body (k + 1)%nat s) s.

(** ** Enumeration of the combinations (uniform 296-325, non-uniform 296-324) *)
(** 302-304, uniform; 302-304, non-uniform: combinations[i] += 1; skip j *)
Definition skip (j c : Z) : Z := (c + (if c =? j then 1 else 0))%Z.
(** combinations[i] and the entries after it; [cs] is the array of n_basis ints *)
Fixpoint comb_tail (j : Z) (m i : nat) (cs : list Z) : res (list Z) :=
  match m with
  | O => Ok cs
  | S m' =>
      let* prev := rd cs (Z.of_nat i - 1) in
      let* cs := wr cs (Z.of_nat i) (skip j (prev + 1)) in
      comb_tail j m' (S i) cs
  end.
Definition comb_next (j : Z) (n i : nat) (cs : list Z) : res (list Z) :=
  let* c := rd cs (Z.of_nat i) in
  let* cs := wr cs (Z.of_nat i) (skip j (c + 1)) in
  comb_tail j (n - (i + 1)) (i + 1) cs.
(** max_val_along_dim *)
Definition comb_max (nb n : nat) (j : Z) (i : nat) : Z :=
  let m := (Z.of_nat i + Z.of_nat nb - Z.of_nat n)%Z in (m - (if m <=? j then 1 else 0))%Z.
(** while (i > -1 and combinations[i] == max_val_along_dim) i--; the argument and the result are i + 1 *)
Fixpoint comb_back (nb n : nat) (j : Z) (p : nat) (cs : list Z) : res nat :=
  match p with
  | O => Ok O
  | S i =>
      let* c := rd cs (Z.of_nat i) in
      if (c =? comb_max nb n j i)%Z then comb_back nb n j i cs else Ok p
  end.
(** divisor: [term c] is dx * (offset - c) (uniform 311) or x - coordinate(poly_start + c) (non-uniform 311) *)
Fixpoint comb_divisor (term : Z -> R) (n : nat) (cs : list Z) : res R :=
  match n with
  | O => Ok 1
  | S n' =>
      let* d := comb_divisor term n' cs in
      let* c := rd cs (Z.of_nat n') in
      Ok (d * term c)
  end.
(** while (i > -1); [p] is i + 1.  [fuel] bounds the number of iterations ([Ub] when it runs out). *)
Fixpoint comb_loop (fuel nb n : nat) (j : Z) (term : Z -> R) (p : nat) (cs : list Z) (factor : R) : res R :=
  match p with
  | O => Ok factor
  | S i =>
      match fuel with
      | O => Ub
      | S fuel' =>
          let* cs := comb_next j n i cs in
          let* divisor := comb_divisor term n cs in
          let* p' := comb_back nb n j n cs in
          comb_loop fuel' nb n j term p' cs (factor + 1 / divisor)
      end
  end.
(** combinations[0] = -1; combinations[i] = 0 for 0 < i < n; [garbage] is the uninitialised array *)
Fixpoint comb_zero (m i : nat) (cs : list Z) : res (list Z) :=
  match m with O => Ok cs | S m' => let* cs := wr cs (Z.of_nat i) 0%Z in comb_zero m' (S i) cs end.
Definition comb_factor (fuel nb n : nat) (j : Z) (term : Z -> R) (garbage : list Z) : res R :=
  let* cs := wr garbage 0 (-1)%Z in
  let* cs := comb_zero (n - 1) 1 cs in
  comb_loop fuel nb n j term 1 cs 0.

(** ** eval_basis_and_n_derivs *)
(** between the nodes: uniform 287-331, non-uniform 286-329; one entry, derivs(j, n) with n > 0 *)
Definition between_entry (fuel D : nat) (term : Z -> R) (garbage : list Z) (values : list R) (j n : nat) : res R :=
  let* v := rd values (Z.of_nat j) in
  let* f := comb_factor fuel (S D) n (Z.of_nat j) term garbage in
  Ok (v * f * IZR (factorial n)).
Definition between_table (fuel D nd : nat) (term : Z -> R) (garbage : list Z) (values : list R)
           (t0 : nat -> nat -> R) : res (nat -> nat -> R) :=
  for_res (S D) (fun j t =>
    let* v := rd values (Z.of_nat j) in
    for_res nd (fun k t => let* e := between_entry fuel D term garbage values j (k + 1) in Ok (set2 t j (k + 1) e))
      (set2 t j 0 v)) t0.
(** at a node: uniform 333-364, non-uniform 331-362; [w] are the weights, [xs] the knots of the stencil.
    Kokkos::pow(., n) and ipow(., n) with an integer exponent are the product. *)
Definition node_entry (D : nat) (w xs : nat -> R) (node j n : nat) (t : nat -> nat -> R) : R :=
  let xi := xs node in
  let d := IZR (neg_1_pow (Z.of_nat (n + 1))) * w j / (xi - xs j) ^ n in
  let d := for_loop (S D) (fun p d =>
      if (p =? node)%nat then d
      else for_from1 (n - 1) (fun k d =>
             d - IZR (neg_1_pow (Z.of_nat (n + 1 - k))) * w p * t j k / IZR (factorial k) / (xi - xs p) ^ (n - k)) d) d in
  d * (IZR (factorial n) / w node).
Definition node_table (D nd : nat) (w xs : nat -> R) (node : nat) (t0 : nat -> nat -> R) : nat -> nat -> R :=
  let t := for_loop (S D) (fun j t =>
      let t := set2 t j 0 (if (j =? node)%nat then 1 else 0) in
      if (j =? node)%nat then t
      else for_from1 nd (fun n t => set2 t j n (node_entry D w xs node j n t)) t) t0 in
  for_from1 nd (fun n t =>
    for_loop (S D) (fun j t => if (j =? node)%nat then t else set2 t node n (t node n - t j n)) (set2 t node n 0)) t.

(** uniform 265-365, non-uniform 267-364.  [garbage] and [t0]: the content of the uninitialised arrays
    combinations and derivs; 2^D iterations are enough for any combination count *)
Definition eval_basis_and_n_derivs (garbage : nat -> Z) (t0 : nat -> nat -> R)
           (b : basis) (x : R) (s : Z) (nd : nat) : res (nat -> nat -> R) :=
  let D := b_degree b in
  let fuel := (2 ^ D)%nat in
  let garbage := map garbage (seq 0 (S D)) in
  let* nodes := stencil_knots b s in
  let xs i := nth i nodes 0 in
  if Rle_dec (xs 0%nat) x then
    if Rle_dec x (xs D) then
      if (nd <=? D)%nat then
        if b_uniform b then
          let* on := uniform_check_node D (b_step b) (xs 0%nat) x in
          let '(offset, node) := on in
          if (node =? -1)%Z then
            between_table fuel D nd (fun c => b_step b * (offset - IZR c)) garbage
              (barycentric_values D (uniform_weight D) INR offset) t0
          else Ok (node_table D nd (uniform_weight D) xs (Z.to_nat node) t0)
        else
          let node := non_uniform_check_node nodes x 0 in
          if (node =? -1)%Z then
            between_table fuel D nd (fun c => x - xs (Z.to_nat c)) garbage
              (barycentric_values D (node_weight D xs) xs x) t0
          else Ok (node_table D nd (node_weight D xs) xs (Z.to_nat node) t0)
      else AssertFail
    else AssertFail
  else AssertFail.

(** ** Evaluators *)
(** the values of the basis used by an evaluator: lagrange_evaluator.hpp 546-571 and nd_lagrange_evaluator.hpp
    395-421; [order = None] when Deriv<Dim> is not among the derivative dimensions.  The ND evaluator asserts a
    positive order for its head dimension (405) and the 1D evaluator only an upper bound (557). *)
Record scratch := { sc_garbage : nat -> Z; sc_table : nat -> nat -> R }.
Definition basis_row (sc : scratch) (head : bool) (b : basis) (order : option nat) (x1 : R) (s : Z) : res (list R) :=
  let D := b_degree b in
  let* vals := eval_basis b x1 s in
  match order with
  | None => eval_basis b x1 s
  | Some n =>
      if ((n <=? D) && (negb head || (0 <? n)))%nat then
        let* t := eval_basis_and_n_derivs (sc_garbage sc) (sc_table sc) b x1 s n in
        Ok (map (fun i => t i n) (seq 0 (S D)))
      else AssertFail
  end.
(** lagrange_evaluator.hpp 525-578: eval_no_bc; [coef] reads a coefficient *)
Fixpoint row_sum (n : nat) (coef : Z -> res R) (vals : list R) (s : Z) : res R :=
  match n with
  | O => Ok 0
  | S n' =>
      let* y := row_sum n' coef vals s in
      let* c := coef (s + Z.of_nat n')%Z in
      let* v := rd vals (Z.of_nat n') in
      Ok (y + c * v)
  end.
Definition eval1 (sc : scratch) (b : basis) (order : option nat) (x : R) (coef : Z -> res R) : res R :=
  let* st := find_stencil b x in
  let '(x1, s) := st in
  let* vals := basis_row sc false b order x1 s in
  row_sum (S (b_degree b)) coef vals s.
(** lagrange_evaluator.hpp 339-346, the member deriv of the 1D evaluator *)
Definition lagrange_deriv (sc : scratch) (b : basis) (order : nat) (coef : list R) (x : R) : res R :=
  eval1 sc b (Some order) x (rd coef).

(** nd_lagrange_evaluator.hpp 428-434: the sum over the head stencil, [tail i] being the tail evaluation on the
    slice of the coefficients *)
Fixpoint head_sum (n : nat) (vals : list R) (tail : nat -> res R) : res R :=
  match n with
  | O => Ok 0
  | S n' =>
      let* r := head_sum n' vals tail in
      let* v := rd vals (Z.of_nat n') in
      let* y := tail n' in
      Ok (r + v * y)
  end.
(** 374-435: eval_no_bc; [dims] lists (basis, derivative order) of the dimensions, the coordinate and the
    multi-indices of the coefficients follow the same order *)
Fixpoint nd_eval (sc : scratch) (dims : list (basis * option nat)) (x : list R) (coef : list Z -> res R) : res R :=
  match dims, x with
  | [(b, o)], [y] => eval1 sc b o y (fun i => coef [i])
  | (b, o) :: rest, y :: ys =>
      let* st := find_stencil b y in
      let '(y1, s) := st in
      let* vals := basis_row sc true b o y1 s in
      head_sum (S (b_degree b)) vals (fun i => nd_eval sc rest ys (fun l => coef ((s + Z.of_nat i)%Z :: l)))
  | _, _ => AssertFail
  end.

(** ** nd_identity_interpolation_builder.hpp *)
(** a dimension of the coefficients: [id_per] periodic basis, [id_bp] the number of break points, [id_full] the
    size of full_domain(); a batch dimension is a non-periodic one whose coefficients are the values.  All the
    domains start at 0. *)
Record id_dim := { id_per : bool; id_bp : nat; id_full : nat }.
Definition id_filled (d : id_dim) : nat := (id_bp d - if id_per d then 1 else 0)%nat.
(** index ranges: (front, size) for every dimension *)
Notation box := (list (nat * nat)) (only parsing).
Definition in_box (r : box) (l : list nat) : bool :=
  (length l =? length r)%nat &&
  forallb (fun j => (fst (nth j r (0, 0)%nat) <=? nth j l 0)%nat &&
                    (nth j l 0 <? fst (nth j r (0, 0)%nat) + snd (nth j r (0, 0)%nat))%nat) (seq 0 (length r)).
(** the index range (multi-index) with another range (index) in the dimension [k] *)
Definition set_dim {A} (d0 : A) (r : list A) (k : nat) (d : A) : list A :=
  map (fun j => if (j =? k)%nat then d else nth j r d0) (seq 0 (length r)).
(** 153-183: copy_periodic_data_on_dim for the dimension [k]; take_first asks for enough points (DDC assertion) *)
Definition id_copy (dims : list id_dim) (k : nat) (st : (list nat -> R) * box) : res ((list nat -> R) * box) :=
  let '(F, filled) := st in
  let d := nth k dims {| id_per := false; id_bp := 0; id_full := 0 |} in
  if id_per d then
    let bp := (id_bp d - 1)%nat in
    let nrepeat := (id_full d - bp)%nat in
    let '(f0, n0) := nth k filled (0, 0)%nat in
    if (nrepeat <=? n0)%nat then
      let to_fill := set_dim (0, 0)%nat filled k (bp, nrepeat) in
      let F' l := if in_box to_fill l then F (set_dim 0%nat l k (f0 + (nth k l 0 - bp)))%nat else F l in
      Ok (F', set_dim (0, 0)%nat filled k (bp, nrepeat))
    else AssertFail
  else Ok (F, filled).
(** 141-151: copy_periodic_data; 101-123: operator() ([vals] over the interpolation grid, [garbage] the
    previous content of coeffs) *)
Definition nd_identity_builder (dims : list id_dim) (vals garbage : list nat -> R) : res (list nat -> R) :=
  let filled := map (fun d => (0, id_filled d)%nat) dims in
  let F l := if in_box filled l then vals l else garbage l in
  let* st := for_res (length dims) (fun k st => id_copy dims k st) (F, filled) in
  Ok (fst st).
