(** Model of the differential operators of src/math_tools: gradient.hpp, curl.hpp,
    lie_poisson_bracket.hpp, gradient_creator.hpp, constant_partial_derivatives.hpp,
    spline_1d_partial_derivative.hpp, spline_2d_partial_derivative.hpp, and of norm (math_tools.hpp).
    The tensor expressions go through the model of index<...> and tensor_mul (TensorModel); DTensors are
    their lists of elements; metric tensors and Jacobians are those of MappingModel.
    Real arithmetic is exact. *)
From Verif Require Export TensorModel MappingModel.
Open Scope R_scope.

(** the dimensions of the argument of a mapping: VectorIndexSet<Dims...>; [cart]: Cartesian dimensions,
    which are their own duals *)
Definition basis (cart : bool) (n : nat) : index_set := map (if cart then Cart else Contra) (seq 0 n).
(** get_covariant_dims_t, vector_index_set_dual_t *)
Definition cov_basis (cart : bool) (n : nat) : index_set := map dual (basis cart n).
(** elements of the tensors computed by MappingModel *)
Definition vec_data (n : nat) (v : nat -> R) : list R := map v (seq 0 n).
Definition mat_data (n : nat) (M : nat -> nat -> R) : list R :=
  flat_map (fun i => map (M i) (seq 0 n)) (seq 0 n).

(** index<ids...>(t) of a stored tensor; a tensor expression and its conversion to the type returned by
    the function *)
Definition indexed (ids : list nat) (sets : list index_set) (data : list R) : res indexed_tensor :=
  index_tensor ids sets (tensor_get sets data).
Definition scalar_result (r : res (R + list R)) : res R :=
  let* x := r in match x with inl v => Ok v | inr _ => AssertFail end.
Definition tensor_result (r : res (R + list R)) : res (list R) :=
  let* x := r in match x with inl _ => AssertFail | inr d => Ok d end.
(** letters *)
Definition cI : nat := 0. Definition cJ : nat := 1. Definition cK : nat := 2. Definition cL : nat := 3.
Definition cM : nat := 4.

(** math_tools.hpp 58-64: norm(metric, vec); [s]: the index set of the vector, its dual those of the metric *)
Definition norm_vec (s : index_set) (metric vec : list R) : res R :=
  let ds := map dual s in
  let* v1 := indexed [cI] [s] vec in
  let* g := indexed [cI; cJ] [ds; ds] metric in
  let* v2 := indexed [cJ] [s] vec in
  let* x := scalar_result (tensor_mul [v1; g; v2]) in
  Ok (sqrt x).
(** math_tools.hpp 66-99: norm on a field; [contra]: the vectors are contravariant (the metric is used),
    otherwise covariant (its inverse is); one element of the loop *)
Definition norm_element (cart contra : bool) (n : nat) (m : mapping) (p : crd) (vec : list R) : res R :=
  if (contra || cart)%bool then norm_vec (basis cart n) (mat_data n (metric n m p)) vec
  else let* gi := metric_inverse n m p in norm_vec (cov_basis cart n) (mat_data n gi) vec.

(** tensor_common.hpp 184-190 and 501-506: tensor / value *)
Definition tensor_div (data : list R) (x : R) : list R := map (fun e => e / x) data.

(** ** Gradient *)
(** gradient.hpp 61-64 *)
Definition gradient_cov (d : list R) : list R := d.
(** gradient.hpp 99-105 *)
Definition gradient_contra (cart : bool) (n : nat) (m : mapping) (p : crd) (d : list R) : res (list R) :=
  let s := basis cart n in let cs := cov_basis cart n in
  let* gi := metric_inverse n m p in
  let* t1 := indexed [cI; cJ] [s; s] (mat_data n gi) in
  let* t2 := indexed [cJ] [cs] d in
  tensor_result (tensor_mul [t1; t2]).

(** ** Curl (curl.hpp 52-65): [df] holds d_l F_m with the index of F first *)
Definition curl (cart : bool) (m : mapping) (p : crd) (df : list R) : res (list R) :=
  let s := basis cart 3 in let cs := cov_basis cart 3 in
  let J := m_jac m p in
  let* coeff := levi_civita_coeff s J in
  let* eps := index_tensor [cK; cL; cM] [s; s; s] (levi_civita_get s coeff) in
  let* t := indexed [cM; cL] [cs; cs] df in
  tensor_result (tensor_mul [eps; t]).

(** ** Lie-Poisson bracket *)
(** lie_poisson_bracket.hpp 101-117 *)
Definition bracket (cart : bool) (m : mapping) (p : crd) (df dg B : list R) : res R :=
  let s := basis cart 3 in let cs := cov_basis cart 3 in
  let J := m_jac m p in
  let* coeff := levi_civita_coeff s J in
  let metric_tensor := mat_data 3 (metric 3 m p) in
  let* B_norm := norm_vec s metric_tensor B in
  let* eps := index_tensor [cI; cJ; cK] [s; s; s] (levi_civita_get s coeff) in
  let* tg := indexed [cI; cL] [cs; cs] metric_tensor in
  let* tb := indexed [cL] [s] (tensor_div B B_norm) in
  let* tdf := indexed [cJ] [cs] df in
  let* tdg := indexed [cK] [cs] dg in
  scalar_result (tensor_mul [eps; tg; tb; tdf; tdg]).
(** lie_poisson_bracket.hpp 66-86: [dg] is a tensor of rank 2, [sg] the index set of its first index *)
Definition bracket_vec (cart : bool) (m : mapping) (p : crd) (sg : index_set) (df dg B : list R) : res (list R) :=
  let s := basis cart 3 in let cs := cov_basis cart 3 in
  let J := m_jac m p in
  let* coeff := levi_civita_coeff s J in
  let metric_tensor := mat_data 3 (metric 3 m p) in
  let* B_norm := norm_vec s metric_tensor B in
  let* eps := index_tensor [cI; cJ; cK] [s; s; s] (levi_civita_get s coeff) in
  let* tg := indexed [cI; cL] [cs; cs] metric_tensor in
  let* tb := indexed [cL] [s] (tensor_div B B_norm) in
  let* tdf := indexed [cJ] [cs] df in
  let* tdg := indexed [cM; cK] [sg; cs] dg in
  tensor_result (tensor_mul [eps; tg; tb; tdf; tdg]).

(** ** Loops over a field.  A field over indices [X]; parallel_for_each runs the body once for each
    index of the range, in some order ([range]: the indices in the order of the run). *)
Section Fields.
  Context {X V : Type} (dec : forall x y : X, {x = y} + {x <> y}).
  Definition set_at (out : X -> V) (i : X) (v : V) : X -> V := fun k => if dec k i then v else out k.
  Fixpoint for_each (range : list X) (body : X -> res V) (out : X -> V) : res (X -> V) :=
    match range with
    | [] => Ok out
    | i :: t => let* v := body i in for_each t body (set_at out i v)
    end.
End Fields.
(** lie_poisson_bracket.hpp 132-155; [coord]: ddc::coordinate *)
Definition bracket_field {X} (dec : forall x y : X, {x = y} + {x <> y}) (cart : bool) (m : mapping) (coord : X -> crd)
    (df dg B : X -> list R) (range : list X) (out : X -> R) : res (X -> R) :=
  for_each dec range (fun i => bracket cart m (coord i) (df i) (dg i) (B i)) out.
(** gradient.hpp 117-134 *)
Definition gradient_field {X} (dec : forall x y : X, {x = y} + {x <> y}) (cart : bool) (n : nat) (m : mapping)
    (coord : X -> crd) (d : X -> list R) (range : list X) (out : X -> list R) : res (X -> list R) :=
  for_each dec range (fun i => gradient_contra cart n m (coord i) (d i)) out.
(** math_tools.hpp 66-99 *)
Definition norm_field {X} (dec : forall x y : X, {x = y} + {x <> y}) (cart contra : bool) (n : nat) (m : mapping)
    (coord : X -> crd) (v : X -> list R) (range : list X) (out : X -> R) : res (X -> R) :=
  for_each dec range (fun i => norm_element cart contra n m (coord i) (v i)) out.

(** ** Identity coordinate change (identity_coordinate_change.hpp 40-163).  The positions of the tags in
    the two bases are those of the components.  inv_jacobian_matrix and inv_jacobian_component
    (116-144) are indexed by the result basis first and the dual of the argument basis second, like
    jacobian_matrix; [same]: the two bases are the same types, otherwise the queries with a tag of the
    argument basis first, made by InverseJacobianMatrix, do not compile. *)
Definition identity_matrix : nat -> nat -> R := fun i j => if (i =? j)%nat then 1 else 0.
Definition identity_map (n : nat) (same : bool) : mapping :=
  {| m_apply := fun p => p; m_jac := fun _ => 1; m_J := fun _ => identity_matrix;
     m_Jc := fun i j _ => if ((i <? n) && (j <? n))%nat then Ok (identity_matrix i j) else AssertFail;
     m_has_inv := true;
     m_invJ := fun _ => if same then Ok identity_matrix else AssertFail;
     m_invJc := fun i j _ =>
       if (same && (i <? n) && (j <? n))%nat%bool then Ok (identity_matrix i j) else AssertFail |}.

(** ** Partial derivatives and GradientCreator.  A field is a function of its index; the state [S] is
    that of the objects shared by the operators (a spline cache, or nothing). *)
Section Creators.
  Context {X C S : Type} (dec : forall x y : X, {x = y} + {x <> y}).
  (** IPartialDerivativeCreator::create_instance(field) followed by the call of the created operator on
      the output (ipartial_derivative.hpp 45 and 66-67); the range of the field is passed *)
  Definition creator := list X -> (X -> R) -> (X -> R) -> S -> res ((X -> R) * S).
  (** constant_partial_derivatives.hpp 42-45 and 79-84 *)
  Definition constant_creator (value : R) : creator := fun range field out s =>
    let* o := for_each dec range (fun _ => Ok value) out in Ok (o, s).
  (** spline_1d_partial_derivative.hpp 54-63 (the builder is called by the constructor), 71-77;
      [build]: the spline builder, [deriv1]: the first derivative of the spline at a point of the field *)
  Definition spline1_creator (build : (X -> R) -> C) (deriv1 : C -> X -> R) : creator := fun range field out s =>
    let coefs := build field in
    let* o := for_each dec range (fun i => Ok (deriv1 coefs i)) out in Ok (o, s).
  (** gradient_creator.hpp 45-55: the operators in the order of the pack; [out k]: the covariant
      component of the k-th dimension *)
  Fixpoint gradient_creator (k : nat) (creators : list creator) (range : list X) (func : X -> R)
      (out : nat -> X -> R) (s : S) : res ((nat -> X -> R) * S) :=
    match creators with
    | [] => Ok (out, s)
    | c :: t =>
        let* os := c range func (out k) s in
        gradient_creator (Datatypes.S k) t range func (upd out k (fst os)) (snd os)
    end.
End Creators.
(** spline_2d_partial_derivative.hpp 55-63, 71-77 with the shared cache (spline_builder_2d_cache.hpp) *)
Definition spline2_creator {X C} (dec : forall x y : X, {x = y} + {x <> y})
    (build : (X -> R) -> C) (deriv1 : dim2 -> C -> X -> R) (d : dim2) : @creator X (spline_cache C) :=
  fun range field out s =>
    let s' := compute_coeffs build d field s in
    match sc_coeffs s' with
    | Some c => let* o := for_each dec range (fun i => Ok (deriv1 d c i)) out in Ok (o, s')
    | None => Ub
    end.
