(** Norms: C120 (largest absolute value), C121 (by quadrature). *)
From Verif Require Import NrmSpec NrmProofs NrmQuad NrmExamples.
Open Scope R_scope.

(** * C120 *)
Theorem C120_norm_components : forall xs, (forall x, In x xs -> number x) -> largest_abs xs (norm_inf_components xs).
Proof. exact norm_components_ok. Qed.
Print Assumptions C120_norm_components.

(** for every order of the reduction *)
Theorem C120_norm_inf : forall n t e, order_of n t ->
  (forall i x, (i < n)%nat -> In x (components (e i)) -> number x) ->
  largest_abs (all_components n e) (norm_inf t e).
Proof. exact norm_inf_ok. Qed.
Example C120_norm_inf_ex : order_of 3 (Node (Leaf 2) (Node Neutral (Node (Leaf 0) (Leaf 1)))) /\
  (forall i x, (i < 3)%nat -> In x (components (xf i)) -> number x) /\
  norm_inf (Node (Leaf 2) (Node Neutral (Node (Leaf 0) (Leaf 1)))) xf = Fin 4.
Proof. exact ex_norm. Qed.
Print Assumptions C120_norm_inf.

Theorem C120_norm_schedule : forall n t t' e, order_of n t -> order_of n t' ->
  (forall i x, (i < n)%nat -> In x (components (e i)) -> number x) -> norm_inf t e = norm_inf t' e.
Proof. exact norm_inf_schedule. Qed.
Print Assumptions C120_norm_schedule.

Theorem C120_multipatch_norm : forall (l : list (nat * tree * (nat -> elem))),
  (forall n t e, In (n, t, e) l -> order_of n t /\ forall i x, (i < n)%nat -> In x (components (e i)) -> number x) ->
  largest_abs (flat_map (fun p => all_components (fst (fst p)) (snd p)) l)
    (multipatch_norm_inf (map (fun p => (snd (fst p), snd p)) l)).
Proof. exact multipatch_norm_ok. Qed.
Print Assumptions C120_multipatch_norm.

Theorem C120_error_zero : forall n t f g, order_of n t ->
  (forall i, (i < n)%nat -> finite (f i) /\ finite (g i) /\ same_shape (f i) (g i)) ->
  (error_norm_inf t f g = Fin 0 <-> forall i, (i < n)%nat -> f i = g i).
Proof. exact error_norm_zero. Qed.
Print Assumptions C120_error_zero.

Theorem C120_error_triangle : forall n t1 t2 t3 f g h, order_of n t1 -> order_of n t2 -> order_of n t3 ->
  (forall i, (i < n)%nat -> finite (f i) /\ finite (g i) /\ finite (h i) /\ same_shape (f i) (g i) /\ same_shape (g i) (h i)) ->
  exists a b c, error_norm_inf t1 f h = Fin a /\ error_norm_inf t2 f g = Fin b /\ error_norm_inf t3 g h = Fin c /\ a <= b + c.
Proof. exact error_norm_triangle. Qed.
Print Assumptions C120_error_triangle.

Theorem C120_multipatch_error : forall l, multipatch_error_norm_inf l =
  multipatch_norm_inf (map (fun p => (fst (fst p), fun i => elem_sub (snd (fst p) i) (snd p i))) l).
Proof. exact multipatch_error_is_norm. Qed.
Print Assumptions C120_multipatch_error.

(** Finding: the infinity norms ignore NaN: the norm (and the error) of a vector field made of NaN is 0, and on
    several patches a patch of NaN is ignored by std::max even when its own norm is NaN
    (l_norm_tools.hpp 30 and 53, multipatch_math_tools.hpp 23 and 51). A solution which has become NaN is then
    reported as exact. *)
Theorem C120_nan_refuted :
  (forall n t, order_of n t -> norm_inf t (fun _ => Vector [NaN; NaN]) = Fin 0) /\
  (forall exact, norm_inf (Leaf 0) (fun _ => Scalar NaN) = NaN /\
     multipatch_error_norm_inf [(Leaf 0, fun _ => Scalar NaN, fun _ => Scalar (Fin exact))] = Fin 0).
Proof. exact nan_ignored. Qed.
Print Assumptions C120_nan_refuted.

(** Finding: with one NaN among the values the norm depends on the order in which the reduction combines the
    points (with a reducer which is a comparison). *)
Theorem C120_nan_schedule_refuted : exists n t t' e, order_of n t /\ order_of n t' /\ norm_inf t e = Fin 1 /\ norm_inf t' e = NaN.
Proof. exact nan_order. Qed.
Print Assumptions C120_nan_schedule_refuted.

(** * C121 *)
Theorem C121_norm_L1_value : forall g c f,
  (covers g f -> norm_L1 g c f = Ok (Fin (nd_sum g (fun i => c i * Rabs (val f i))))) /\
  (~ covers g f -> norm_L1 g c f = Ub).
Proof. exact norm_L1_value. Qed.
Example C121_norm_L1_value_ex :
  norm_L1 [(0%Z, 2%nat)] (fun i => match i with [0%Z] => 1 | _ => 2 end) (Field [((-1)%Z, 5%nat)] (fun _ => -3)) = Ok (Fin 9).
Proof. exact ex_L1. Qed.
Print Assumptions C121_norm_L1_value.

Theorem C121_norm_L2_value : forall g c f, (forall i, in_nd g i -> 0 <= c i) ->
  (covers g f -> norm_L2 g c f = Ok (Fin (sqrt (nd_sum g (fun i => c i * (val f i * val f i)))))) /\
  (~ covers g f -> norm_L2 g c f = Ub).
Proof. exact norm_L2_value. Qed.
Print Assumptions C121_norm_L2_value.

Theorem C121_L1_norm : forall g c, (forall i, in_nd g i -> 0 < c i) -> exists N, is_norm g N /\
  (forall f, covers g f -> norm_L1 g c f = Ok (Fin (N (val f)))) /\
  (forall f h, covers g f -> covers g h -> error_norm_L1 g c f h = Ok (Fin (N (fun i => val f i - val h i)))) /\
  (forall f M, (forall i, in_nd g i -> Rabs (f i) <= M) -> N f <= nd_sum g c * M).
Proof. exact L1_norm. Qed.
Example C121_L1_norm_ex : (forall i, in_nd [(0%Z, 2%nat)] i -> 0 < (fun i : nd_idx => match i with [0%Z] => 1 | _ => 2 end) i) /\
  covers [(0%Z, 2%nat)] (Field [((-1)%Z, 5%nat)] (fun _ => -3)).
Proof. exact ex_quad. Qed.
Print Assumptions C121_L1_norm.

Theorem C121_L2_norm : forall g c, (forall i, in_nd g i -> 0 < c i) -> exists N, is_norm g N /\
  (forall f, covers g f -> norm_L2 g c f = Ok (Fin (N (val f)))) /\
  (forall f h, covers g f -> covers g h -> error_norm_L2 g c f h = Ok (Fin (N (fun i => val f i - val h i)))) /\
  (forall f r, covers g f -> norm_L1 g c f = Ok (Fin r) -> r <= sqrt (nd_sum g c) * N (val f)).
Proof. exact L2_norm. Qed.
Print Assumptions C121_L2_norm.

(** Finding: the norms by quadrature pass a lambda function to the quadrature, so that its check that the index
    range of the field contains that of the coefficients is not compiled: a smaller field is read out of bounds,
    even in debug mode (l_norm_tools.hpp 245-247, 266-270, 295-297, 316-321; quadrature.hpp 72-77). *)
Theorem C121_unchecked_range_refuted : exists g c f, (forall i, in_nd g i -> 0 < c i) /\
  norm_L1 g c f = Ub /\ norm_L2 g c f = Ub /\ error_norm_L2 g c f f = Ub.
Proof. exact uncovered. Qed.
Print Assumptions C121_unchecked_range_refuted.

(** Finding: with a negative quadrature coefficient the norm L2 may be NaN. *)
Theorem C121_negative_coefficient_refuted : exists g c f, covers g f /\ norm_L2 g c f = Ok NaN.
Proof. exact negative_coefficient. Qed.
Print Assumptions C121_negative_coefficient_refuted.
