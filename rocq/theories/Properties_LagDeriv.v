(** C66, C67: derivatives of Lagrange interpolation and tensor products. *)
From Verif Require Import LagDerivSpec LagrangeEvalProofs LagDerivProofs LagDerivMain LagDerivBuild LagDerivExamples.
Open Scope R_scope.

(** C66.  Every entry of the table filled by eval_basis_and_n_derivs is the derivative of that order of the
    Lagrange polynomial of that knot, at the coordinate, or at the knot it is identified with; whatever was in the
    work arrays before. *)
Theorem C66_basis : forall b garbage t0 s x nd, initialised b ->
  (s + b_degree b < length (b_knots b))%nat -> kn b s <= x <= kn b (s + b_degree b) ->
  (nd <= b_degree b)%nat -> (nd <= 20)%nat ->
  exists x2 t, evaluated_at b s x x2 /\
    ((forall i, (i <= b_degree b)%nat -> tolerance b < Rabs (x - kn b (s + i))) -> x2 = x) /\
    eval_basis_and_n_derivs garbage t0 b x (Z.of_nat s) nd = Ok t /\
    forall j n, (j <= b_degree b)%nat -> (n <= nd)%nat -> forall g,
      nth_derivative n (lagrange_poly (b_degree b) (fun i => kn b (s + i)) j) g -> t j n = g x2.
Proof. exact basis_derivatives. Qed.
Print Assumptions C66_basis.
(** these derivatives exist *)
Theorem C66_derivable : forall b s j n, initialised b -> (s + b_degree b < length (b_knots b))%nat -> (j <= b_degree b)%nat ->
  exists g, nth_derivative n (lagrange_poly (b_degree b) (fun i => kn b (s + i)) j) g.
Proof. exact lag_derivable. Qed.
Print Assumptions C66_derivable.
(** the hypotheses: degree 2 on the points 0, 1, 3, 4, 9, stencil 1, 3, 4, coordinate 2, two derivatives *)
Example C66_basis_example : exists b, initialised b /\ b_degree b = 2%nat /\ (1 + b_degree b < length (b_knots b))%nat /\
  kn b 1 <= 2 <= kn b (1 + b_degree b) /\ (2 <= b_degree b)%nat /\ (2 <= 20)%nat.
Proof. exact ex_basis. Qed.

(** The evaluator returns the derivative of the polynomial through the coefficients of one stencil. *)
Theorem C66_deriv : forall sc b n coef x, initialised b -> length coef = length (b_knots b) -> in_domain b x ->
  (n <= b_degree b)%nat -> (n <= 20)%nat ->
  exists s x1 x2, (s + b_degree b < length (b_knots b))%nat /\ kn b s <= x1 <= kn b (s + b_degree b) /\
    (x1 = x \/ (b_periodic b = true /\ x1 = x + period b)) /\ evaluated_at b s x1 x2 /\
    ((forall i, (i <= b_degree b)%nat -> tolerance b < Rabs (x1 - kn b (s + i))) -> x2 = x1) /\
    exists g, nth_derivative n (interpolant b s (fun i => nth i coef 0)) g /\ lagrange_deriv sc b n coef x = Ok (g x2).
Proof. exact deriv_spec. Qed.
Print Assumptions C66_deriv.

(** Derivatives of polynomials up to the degree of the basis are reproduced. *)
Theorem C66_exact : forall sc b n coef p x g, initialised b -> b_periodic b = false -> length coef = length (b_knots b) -> in_domain b x ->
  (n <= b_degree b)%nat -> (n <= 20)%nat -> (length p <= S (b_degree b))%nat ->
  (forall i, (i < length (b_knots b))%nat -> nth i coef 0 = peval p (kn b i)) -> nth_derivative n (peval p) g ->
  exists x2, lagrange_deriv sc b n coef x = Ok (g x2) /\
    (x2 = x \/ exists i, (i < length (b_knots b))%nat /\ x2 = kn b i /\ Rabs (x - x2) <= tolerance b) /\
    ((forall i, (i < length (b_knots b))%nat -> tolerance b < Rabs (x - kn b i)) -> x2 = x).
Proof. exact deriv_poly. Qed.
Print Assumptions C66_exact.
(** x^2 on the points 0, 1, 3, 4, 9: the first derivative at 2 is 4 *)
Example C66_exact_example : forall sc, exists b, initialised b /\
  lagrange_deriv sc b 1 (map (fun y => y * y) (b_knots b)) 2 = Ok 4.
Proof. exact ex_square. Qed.

(** An order above the degree is refused. *)
Theorem C66_order : forall sc b n coef x, initialised b -> in_domain b x -> (b_degree b < n)%nat ->
  lagrange_deriv sc b n coef x = AssertFail.
Proof. exact deriv_order. Qed.
Print Assumptions C66_order.
Example C66_order_example : exists b, initialised b /\ in_domain b 2 /\ (b_degree b < 3)%nat.
Proof. exact ex_order. Qed.

(** C67.  The ND evaluator: a sum over the product of one stencil per dimension of the coefficients times the
    derivatives of the one-dimensional Lagrange polynomials (orders 0 where no derivative is asked for). *)
Theorem C67_tensor : forall sc dims x, admissible dims x ->
  exists vs x2, are_dim_values dims x vs x2 /\
    forall cf c, (forall l, coef_index dims l -> cf (map Z.of_nat l) = Ok (c l)) ->
      nd_eval sc dims x cf = Ok (tensor_sum dims vs c).
Proof. exact nd_spec. Qed.
Print Assumptions C67_tensor.

(** Sums of products of polynomials of one variable of degree at most that of the basis, and their partial
    derivatives, are reproduced. *)
Theorem C67_exact : forall sc dims x m (a : nat -> R) (p : nat -> nat -> list R) (g : nat -> nat -> R -> R) cf, admissible dims x ->
  (forall bo, In bo dims -> b_periodic (fst bo) = false) ->
  (forall q d bo, (q < m)%nat -> nth_error dims d = Some bo ->
     (length (p q d) <= S (b_degree (fst bo)))%nat /\ nth_derivative (order_of (snd bo)) (peval (p q d)) (g q d)) ->
  (forall l, coef_index dims l -> cf (map Z.of_nat l) = Ok (Rsum m (fun q => a q * product_at dims (fun d => peval (p q d)) l))) ->
  exists x2, evaluated_near dims x x2 /\
    nd_eval sc dims x cf = Ok (Rsum m (fun q => a q * prod_upto (length dims) (fun d => g q d (nth d x2 0)))).
Proof. exact nd_poly. Qed.
Print Assumptions C67_exact.
(** x^2 y on the grid 0, 1, 3, 4, 9 in both directions: d/dx at (2, 6) is 24 *)
Example C67_exact_example : forall sc, exists b, initialised b /\ admissible [(b, Some 1%nat); (b, None)] [2; 6] /\
  nd_eval sc [(b, Some 1%nat); (b, None)] [2; 6]
    (fun l => match l with [i; j] => Ok (kn b (Z.to_nat i) * kn b (Z.to_nat i) * kn b (Z.to_nat j)) | _ => Ub end) = Ok 24.
Proof. exact ex_product. Qed.

(** At the points of the grid the coefficient is returned. *)
Theorem C67_knots : forall sc dims ms cf c,
  (forall bo, In bo dims -> initialised (fst bo) /\ separated (fst bo) /\ b_periodic (fst bo) = false /\ snd bo = None) ->
  dims <> [] -> coef_index dims ms -> (forall l, coef_index dims l -> cf (map Z.of_nat l) = Ok (c l)) ->
  nd_eval sc dims (map (fun bi => kn (fst (fst bi)) (snd bi)) (combine dims ms)) cf = Ok (c ms).
Proof. exact nd_knots. Qed.
Print Assumptions C67_knots.
Example C67_knots_example : exists b, let dims := [(b, None); (b, @None nat)] in
  (forall bo, In bo dims -> initialised (fst bo) /\ separated (fst bo) /\ b_periodic (fst bo) = false /\ snd bo = None) /\
  dims <> [] /\ coef_index dims [3; 1]%nat.
Proof. exact ex_knots. Qed.

(** FINDING: nd_lagrange_evaluator.hpp says (29-31, 426-427) that the last one-dimensional evaluator applies its
    configured extrapolation rules, but calls eval_no_bc: a coordinate outside the domain of any dimension (also of
    a periodic one, which is not folded back) fails an assertion, in the head as well as in the last dimension. *)
Theorem C67_extrapolation_refuted :
  (forall sc b o d dims y x cf, initialised b -> b_uniform b = false -> ~ in_domain b y ->
     nd_eval sc ((b, o) :: d :: dims) (y :: x) cf = AssertFail) /\
  (forall sc b o b2 o2 y y2 cf, initialised b -> in_domain b y -> (order_of o <= b_degree b)%nat -> (order_of o <= 20)%nat ->
     o <> Some 0%nat -> initialised b2 -> b_uniform b2 = false -> ~ in_domain b2 y2 ->
     nd_eval sc [(b, o); (b2, o2)] [y; y2] cf = AssertFail).
Proof. exact (conj head_outside tail_outside). Qed.
Print Assumptions C67_extrapolation_refuted.
(** while the one-dimensional evaluator with constant extrapolation answers *)
Example C67_extrapolation_example : exists b, initialised b /\ b_uniform b = false /\ ~ in_domain b 10 /\ in_domain b 2 /\
  lagrange_eval b Constant Constant (map (fun y => y * y) (b_knots b)) 10 = Ok 81.
Proof. exact ex_outside. Qed.

(** The ND builder, with at most one periodic dimension: the coefficient of every index is the value at the
    interpolation point it stands for. *)
Theorem C67_builder : forall dims k vals garbage, (forall d, In d dims -> id_sizes d) ->
  (forall j, (j < length dims)%nat -> j <> k -> id_per (nth j dims id_none) = false) ->
  exists F, nd_identity_builder dims vals garbage = Ok F /\ forall l, id_index dims l -> F l = vals (id_point dims l).
Proof. exact builder_one. Qed.
Print Assumptions C67_builder.
Example C67_builder_example : let dims := [{| id_per := false; id_bp := 3; id_full := 3 |}; {| id_per := true; id_bp := 6; id_full := 9 |}] in
  (forall d, In d dims -> id_sizes d) /\ (forall j, (j < length dims)%nat -> j <> 1%nat -> id_per (nth j dims id_none) = false) /\
  id_index dims [2; 7]%nat /\ id_point dims [2; 7]%nat = [2; 2]%nat.
Proof. exact ex_builder. Qed.

(** With two periodic dimensions (not supported according to the note of the header, 92-96, but accepted and partly
    processed) the coefficients of the indices that lie in the repeated part of one dimension only are left as they
    were: the second copy starts from the repeated part of the first dimension instead of the whole of it. *)
Theorem C67_two_periodic_refuted : forall dims k1 k2 vals garbage F l, (k1 < length dims)%nat -> (k2 < length dims)%nat -> k1 <> k2 ->
  id_per (nth k1 dims id_none) = true -> id_per (nth k2 dims id_none) = true ->
  (forall j, (j < k1)%nat -> id_per (nth j dims id_none) = false) ->
  nd_identity_builder dims vals garbage = Ok F ->
  (nth k1 l 0 < id_bp (nth k1 dims id_none) - 1)%nat -> (id_bp (nth k2 dims id_none) - 1 <= nth k2 l 0)%nat ->
  F l = garbage l.
Proof. exact builder_two. Qed.
Print Assumptions C67_two_periodic_refuted.
Example C67_two_periodic_example : let d := {| id_per := true; id_bp := 6; id_full := 9 |} in
  exists F, nd_identity_builder [d; d] (fun _ => 1) (fun _ => 0) = Ok F /\ id_index [d; d] [0; 5]%nat /\ F [0; 5]%nat = 0 /\ F [5; 5]%nat = 1.
Proof. exact ex_two. Qed.
