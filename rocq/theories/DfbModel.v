(** Model of src/utils/spline_builder_deriv_field_2d.hpp: the operator which unpacks a DerivField into the
    ten arguments of DDC's SplineBuilder2D.

    Simplifications: the two continuous dimensions are numbered 1 and 2; DDC's SplineBuilder2D (not in
    /repo) is a parameter of the operator; kernels are executed one index after the other (every index
    writes its own cell, so the order does not matter). *)
From Verif Require Export DerivModel.
Open Scope Z_scope.

(** where a kernel runs and where memory lives (Kokkos execution / memory spaces that cannot access each
    other) *)
Inductive space := Host | Device.
Definition space_dec : forall a b : space, {a = b} + {a <> b}.
Proof. decide equality. Defined.

(** DFieldMem<IdxRange<A, B>>: a two-dimensional array over two index ranges; [None]: not initialised *)
Record arr (V : Type) := Arr { a_1 : range; a_2 : range; a_val : Z -> Z -> option V }.
Arguments Arr {V}. Arguments a_1 {V}. Arguments a_2 {V}. Arguments a_val {V}.
Definition alloc {V} (r1 r2 : range) : arr V := Arr r1 r2 (fun _ _ => None).

Definition inside (r : range) (i : Z) : bool := (r_front r <=? i) && (i <? r_front r + Z.of_nat (r_ext r)).
(** operator()(idx) = v on such an array; outside its index ranges the write is undefined *)
Definition put {V} (a : arr V) (i j : Z) (v : V) : res (arr V) :=
  if inside (a_1 a) i && inside (a_2 a) j
  then Ok (Arr (a_1 a) (a_2 a) (fun i' j' => if (i' =? i) && (j' =? j) then Some v else a_val a i' j'))
  else Ub.

(** the indices of a range and of a product of two ranges *)
Definition indices (r : range) : list Z := map (fun k => r_front r + Z.of_nat k) (seq 0 (r_ext r)).
Definition indices_2d (r1 r2 : range) : list (Z * Z) :=
  flat_map (fun i => map (fun j => (i, j)) (indices r2)) (indices r1).

(** ddc::parallel_for_each(space, range, kernel) where the kernel writes [a] with values read from memory
    of [mem]: running in a space which cannot access that memory is undefined *)
Fixpoint run_kernel {V} (at_space mem : space) (l : list (Z * Z)) (body : Z -> Z -> res V) (a : arr V)
  : res (arr V) :=
  match l with
  | [] => Ok a
  | (i, j) :: l' =>
      if space_dec at_space mem
      then let* v := body i j in
           let* a' := put a i j v in
           run_kernel at_space mem l' body a'
      else Ub
  end.

(** spline_builder_deriv_field_2d.hpp 56: IdxRange<Deriv1, Grid1, Deriv2, Grid2> *)
Definition df_dims : list tag := [Der 1; Phys 1; Der 2; Phys 2].

(** function_and_derivs(idx...): the value in the cell that operator() designates *)
Definition value {V} (f : shape) (fields : list view) (m : store V) (elem : tag -> option Z) : res V :=
  let* (b, o) := call f fields elem in Ok (m b o).

Section operator.
  Context {V : Type}.
  Variables (f : shape) (fields : list view) (m : store V).
  (** the execution space of the class and Kokkos::DefaultExecutionSpace *)
  Variables (exec dflt : space).

  (** 211-222: fill_in_function *)
  Definition fill_in_function (a : arr V) : res (arr V) :=
    run_kernel exec exec (indices_2d (phys f 1) (phys f 2))
      (fun i j => value f fields m
         (fun t => match t with Phys 1 => Some i | Phys 2 => Some j | _ => None end)) a.

  (** 231-244: fill_in_deriv1 *)
  Definition fill_in_deriv1 (a : arr V) (idx_slice : Z) : res (arr V) :=
    run_kernel exec exec (indices_2d (a_1 a) (a_2 a))
      (fun d j => value f fields m
         (fun t => match t with Der 1 => Some d | Phys 2 => Some j | Phys 1 => Some idx_slice
                              | _ => None end)) a.

  (** 253-266: fill_in_deriv2 *)
  Definition fill_in_deriv2 (a : arr V) (idx_slice : Z) : res (arr V) :=
    run_kernel exec exec (indices_2d (a_1 a) (a_2 a))
      (fun i d => value f fields m
         (fun t => match t with Phys 1 => Some i | Der 2 => Some d | Phys 2 => Some idx_slice
                              | _ => None end)) a.

  (** 278-292: fill_in_cross_deriv; no execution space is given to parallel_for_each (285-287): the
      kernel runs in the default one *)
  Definition fill_in_cross_deriv (a : arr V) (idx_slice_1 idx_slice_2 : Z) : res (arr V) :=
    run_kernel dflt exec (indices_2d (a_1 a) (a_2 a))
      (fun d1 d2 => value f fields m
         (fun t => match t with Der 1 => Some d1 | Der 2 => Some d2
                              | Phys 1 => Some idx_slice_1 | Phys 2 => Some idx_slice_2
                              | _ => None end)) a.

  (** the arguments of SplineBuilder2D::operator() after the spline, in their order *)
  Record builder_args := Args {
    g_function : arr V;
    g_deriv1_min : arr V; g_deriv1_max : arr V;
    g_deriv2_min : arr V; g_deriv2_max : arr V;
    g_cross_min_min : arr V; g_cross_max_min : arr V;
    g_cross_min_max : arr V; g_cross_max_max : arr V }.

  (** the numbers of derivatives that the two one-dimensional builders need at each end
      (builder_type1::s_nbv_xmin, ...) *)
  Record needs := Needs { nbv1_min : nat; nbv1_max : nat; nbv2_min : nat; nbv2_max : nat }.

  (** 93-189: everything before the call of the builder *)
  Definition unpack (nb : needs) : res builder_args :=
    let idx_range_d1_min := Range 1 (nbv1_min nb) in
    let idx_range_d1_max := Range 1 (nbv1_max nb) in
    let idx_range_d2_min := Range 1 (nbv2_min nb) in
    let idx_range_d2_max := Range 1 (nbv2_max nb) in
    let idx_range_1 := phys f 1 in
    let idx_range_2 := phys f 2 in
    let slice1_min := r_front idx_range_1 in
    let slice1_max := r_back idx_range_1 in
    let slice2_min := r_front idx_range_2 in
    let slice2_max := r_back idx_range_2 in
    let* function := fill_in_function (alloc idx_range_1 idx_range_2) in
    let* deriv1_min := fill_in_deriv1 (alloc idx_range_d1_min idx_range_2) slice1_min in
    let* deriv1_max := fill_in_deriv1 (alloc idx_range_d1_max idx_range_2) slice1_max in
    let* deriv2_min := fill_in_deriv2 (alloc idx_range_1 idx_range_d2_min) slice2_min in
    let* deriv2_max := fill_in_deriv2 (alloc idx_range_1 idx_range_d2_max) slice2_max in
    let* cross_min_min :=
      fill_in_cross_deriv (alloc idx_range_d1_min idx_range_d2_min) slice1_min slice2_min in
    let* cross_max_min :=
      fill_in_cross_deriv (alloc idx_range_d1_max idx_range_d2_min) slice1_max slice2_min in
    let* cross_min_max :=
      fill_in_cross_deriv (alloc idx_range_d1_min idx_range_d2_max) slice1_min slice2_max in
    let* cross_max_max :=
      fill_in_cross_deriv (alloc idx_range_d1_max idx_range_d2_max) slice1_max slice2_max in
    Ok (Args function deriv1_min deriv1_max deriv2_min deriv2_max
             cross_min_min cross_max_min cross_min_max cross_max_max).

  (** 93-203: operator(); [builder] is m_builder (84) *)
  Definition build {S : Type} (builder : builder_args -> res S) (nb : needs) : res S :=
    let* args := unpack nb in builder args.
End operator.
Arguments builder_args : clear implicits.
Arguments Args {V}.
