(** C17, C18, C39, C40, C44: finite differences, periodic coordinates, small tensors, integer
    helpers and the spline cache. *)
From Verif Require Import MathModel MathSpec QuadProofs MathProofs RestrictProofs.
From Coq Require Import Lra Lia.
Open Scope R_scope.

(** C17: exact on every quadratic at every node, boundaries included, whatever the (uninitialised)
    contents of the output. *)
Theorem C17_exact_on_quadratics : forall pts f fr n d0 a b c,
  increasing pts -> (0 <= fr)%Z -> (3 <= n)%nat -> (Z.to_nat fr + n <= length pts)%nat ->
  length f = n -> length d0 = n ->
  (forall i, (i < n)%nat -> value f i = quad a b c (point pts fr i)) ->
  exists d, central_fdm false pts f fr n d0 = Ok d /\ length d = n /\
    forall i, (i < n)%nat -> value d i = quad' b c (point pts fr i).
Proof. exact central_fdm_exact. Qed.
Print Assumptions C17_exact_on_quadratics.

(** C17, periodic: at each node, if the periodic extension of the field is a quadratic on the node
    and its two neighbours (possibly across the boundary), the result is its derivative. *)
Theorem C17_exact_periodic : forall pts f fr n d0,
  increasing pts -> (0 <= fr)%Z -> (2 <= n)%nat -> (Z.to_nat fr + n < length pts)%nat ->
  length f = n -> length d0 = n ->
  exists d, central_fdm true pts f fr n d0 = Ok d /\ length d = n /\
    forall i a b c, (i < n)%nat ->
      (forall k, (Z.of_nat i - 1 <= k <= Z.of_nat i + 1)%Z ->
         periodic_value f n k
         = quad a b c (periodic_point pts fr n (point pts fr n - point pts fr 0) k)) ->
      value d i = quad' b c (point pts fr i).
Proof. exact central_fdm_periodic. Qed.
Print Assumptions C17_exact_periodic.

(** C17, operator with boundary values: exact inside; at the ends, the average of the exact
    derivative and of the one seen from a constant exterior. *)
Theorem C17_boundary_values : forall pts f fr n d0 bl br a b c,
  increasing pts -> (0 <= fr)%Z -> (3 <= n)%nat -> (Z.to_nat fr + n <= length pts)%nat ->
  length f = n -> length d0 = n ->
  (forall i, (i < n)%nat -> value f i = quad a b c (point pts fr i)) ->
  exists d, central_fdm_bvalue pts f fr n bl br d0 = Ok d /\ length d = n /\
    (forall i, (0 < i < n - 1)%nat -> value d i = quad' b c (point pts fr i)) /\
    value d 0 = (quad' b c (point pts fr 0)
       + (value f 0 - bl) * (1 / (point pts fr 1 - point pts fr 0) + 1 / (point pts fr 2 - point pts fr 0))) / 2 /\
    value d (n - 1) = (quad' b c (point pts fr (n - 1))
       - (value f (n - 1) - br)
         * (1 / (point pts fr (n - 1) - point pts fr (n - 2)) + 1 / (point pts fr (n - 1) - point pts fr (n - 3)))) / 2.
Proof. exact central_fdm_bvalue_spec. Qed.
Print Assumptions C17_boundary_values.

Lemma fdm_mesh : increasing [0; 1; 3; 4; 6].
Proof.
  intros i j H. simpl in H.
  destruct i as [|[|[|[|[|i]]]]]; destruct j as [|[|[|[|[|j]]]]]; simpl; try lia; lra.
Qed.
(** x^2 on the four points 1,3,4,6 of a non uniform mesh *)
Example C17_nonvacuous : exists d,
  central_fdm false [0; 1; 3; 4; 6] [1; 9; 16; 36] 1 4 [5; 5; 5; 5] = Ok d /\
  value d 0 = 2 /\ value d 3 = 12.
Proof.
  destruct (C17_exact_on_quadratics [0; 1; 3; 4; 6] [1; 9; 16; 36] 1 4 [5; 5; 5; 5] 0 0 1)
    as [d [E [_ H]]]; try (simpl; lia); try reflexivity; [apply fdm_mesh| |].
  - intros i Hi. unfold value, quad, point.
    destruct i as [|[|[|[|i]]]]; simpl; try lia; lra.
  - exists d. split; [exact E|]. rewrite !H by lia. unfold quad', point. simpl. lra.
Qed.
(** 3 nodes 0,1,3 of period 4; the stencil of the last one wraps to the first *)
Example C17_periodic_nonvacuous : exists d,
  central_fdm true [0; 1; 3; 4; 6] [16; 25; 9] 0 3 [5; 5; 5] = Ok d /\ value d 2 = 2.
Proof.
  destruct (C17_exact_periodic [0; 1; 3; 4; 6] [16; 25; 9] 0 3 [5; 5; 5])
    as [d [E [_ H]]]; try (simpl; lia); try reflexivity; [apply fdm_mesh|].
  exists d. split; [exact E|]. rewrite (H 2%nat 48 (-28) 5); [| lia |].
  - unfold quad', point. simpl. lra.
  - intros k Hk. assert (k = 1 \/ k = 2 \/ k = 3)%Z as [->|[->| ->]] by lia;
      unfold periodic_value, periodic_point, value, quad, point;
      [change (1 / Z.of_nat 3)%Z with 0%Z|change (2 / Z.of_nat 3)%Z with 0%Z|change (3 / Z.of_nat 3)%Z with 1%Z];
      simpl; lra.
Qed.

(** C18: whatever the coordinate, each of the two loops does at most 10 iterations and the result is
    the equivalent coordinate of [x_min, x_max); coordinates already inside are unchanged and
    equivalent coordinates have the same image (so the function is idempotent). *)
Theorem C18_lands_in_domain : forall fuel x_min length x, 0 < length -> (10 <= fuel)%nat ->
  exists y, restrict_to_idx_range fuel x_min length x = Some y /\
    x_min <= y < x_min + length /\ congruent length y x.
Proof. exact restrict_spec. Qed.
Print Assumptions C18_lands_in_domain.
Theorem C18_identity_inside : forall fuel x_min length x, 0 < length -> x_min <= x < x_min + length ->
  restrict_to_idx_range fuel x_min length x = Some x.
Proof. exact restrict_id. Qed.
Print Assumptions C18_identity_inside.
Theorem C18_equivalent_coordinates : forall fuel x_min length x x', 0 < length -> (10 <= fuel)%nat ->
  congruent length x x' ->
  restrict_to_idx_range fuel x_min length x = restrict_to_idx_range fuel x_min length x'.
Proof. exact restrict_congruent_args. Qed.
Print Assumptions C18_equivalent_coordinates.
(** C18, the variant for B-splines lands in the closed domain *)
Theorem C18_bspline_domain : forall rmin length x, 0 < length ->
  rmin <= restrict_to_bspline_domain rmin length x <= rmin + length /\
  congruent length (restrict_to_bspline_domain rmin length x) x /\
  (rmin <= x <= rmin + length -> restrict_to_bspline_domain rmin length x = x).
Proof. exact bspline_restrict_spec. Qed.
Print Assumptions C18_bspline_domain.
(** a coordinate far away, on the negative side, where the trigonometric branch is taken *)
Example C18_nonvacuous : restrict_to_idx_range 10 1 2 (-100.5) = Some 1.5.
Proof.
  rewrite (C18_equivalent_coordinates 10 1 2 (-100.5) 1.5); [apply C18_identity_inside; lra|lra|lia|].
  exists (-51)%Z. lra.
Qed.

(** C39 *)
Theorem C39_inverse_2x2 : forall M, determinant2 M <> 0 ->
  is_identity 2 (mmul 2 M (inverse2 M)) /\ is_identity 2 (mmul 2 (inverse2 M) M).
Proof. intros M H. exact (conj (inverse2_right M H) (inverse2_left M H)). Qed.
Print Assumptions C39_inverse_2x2.
Theorem C39_inverse_3x3 : forall M, determinant3 M <> 0 ->
  is_identity 3 (mmul 3 M (inverse3 M)) /\ is_identity 3 (mmul 3 (inverse3 M) M).
Proof. intros M H. exact (conj (inverse3_right M H) (inverse3_left M H)). Qed.
Print Assumptions C39_inverse_3x3.
Theorem C39_determinant_multiplicative : forall A B,
  determinant2 (mmul 2 A B) = determinant2 A * determinant2 B /\
  determinant3 (mmul 3 A B) = determinant3 A * determinant3 B.
Proof. intros A B. exact (conj (det2_mul A B) (det3_mul A B)). Qed.
Print Assumptions C39_determinant_multiplicative.
Example C39_nonvacuous :
  let M := fun i j => nth j (nth i [[2; 0; 1]; [0; 3; 0]; [1; 0; 1]] []) 0 in
  determinant3 M = 3 /\ mmul 3 M (inverse3 M) 0%nat 2%nat = 0.
Proof.
  intros M. assert (E : determinant3 M = 3) by (unfold determinant3, M; simpl; lra).
  split; [exact E|]. destruct (C39_inverse_3x3 M) as [H _]; [lra|]. apply (H 0%nat 2%nat); lia.
Qed.

(** C40 *)
Theorem C40_ipow : forall a,
  (forall n, ipow_u a n = a ^ n) /\
  (forall i, (int_min < i <= int_max)%Z -> ipow_i a i = Ok (powerRZ a i)).
Proof. intros a. exact (conj (ipow_u_spec a) (ipow_i_spec a)). Qed.
Print Assumptions C40_ipow.
(** ipow(a, INT_MIN): the negation of the exponent overflows *)
Theorem C40_ipow_int_min_refuted : forall a, ipow_i a int_min = Ub.
Proof. intros a. exact eq_refl. Qed.
Print Assumptions C40_ipow_int_min_refuted.
Theorem C40_factorial : forall n,
  factorial n = (Z.of_nat (fact n) mod 2 ^ 64)%Z /\
  ((n <= 20)%nat -> factorial n = Z.of_nat (fact n)).
Proof. intros n. exact (conj (factorial_spec n) (factorial_exact n)). Qed.
Print Assumptions C40_factorial.
(** the result is silently wrong from 21 on *)
Theorem C40_factorial_21_refuted : factorial 21 <> Z.of_nat (fact 21).
Proof. exact factorial_21. Qed.
Print Assumptions C40_factorial_21_refuted.
Theorem C40_neg_1_pow : 
  (forall n, (0 <= n)%Z -> IZR (neg_1_pow n) = (-1) ^ (Z.to_nat n)) /\
  (forall n, Z.Even n -> neg_1_pow n = 1%Z).
Proof. exact (conj neg_1_pow_nonneg neg_1_pow_even). Qed.
Print Assumptions C40_neg_1_pow.
(** for every negative odd argument the result is 3, not -1 *)
Theorem C40_neg_1_pow_negative_refuted : forall n, (n < 0)%Z -> Z.Odd n -> neg_1_pow n = 3%Z.
Proof. exact neg_1_pow_neg_odd. Qed.
Print Assumptions C40_neg_1_pow_negative_refuted.
Theorem C40_modulo :
  (forall x y, (y <> 0)%Z -> modulo x y = (x mod y)%Z) /\
  (forall x y, 0 < y -> 0 <= modulo_r x y < y /\ congruent y (modulo_r x y) x).
Proof. exact (conj modulo_spec modulo_r_spec). Qed.
Print Assumptions C40_modulo.
Example C40_nonvacuous : ipow_i 2 (-3) = Ok (/ 8) /\ modulo (-7) 5 = 3%Z /\ factorial 5 = 120%Z.
Proof.
  split; [|split].
  - rewrite (proj2 (C40_ipow 2)) by (unfold int_min, int_max; lia). f_equal. simpl. f_equal. lra.
  - rewrite (proj1 C40_modulo) by lia. reflexivity.
  - reflexivity.
Qed.

(** C44: after any history of calls, the coefficients are those of the field of the last call made
    with the dimension of the very first call, whatever was passed for the other dimension. *)
Theorem C44_cache_history : forall (F C : Type) (build : F -> C) d f calls,
  sc_coeffs (cache_run build ((d, f) :: calls)) = option_map build (last_with d calls (Some f)).
Proof. exact (fun F C => @cache_run_spec F C). Qed.
Print Assumptions C44_cache_history.
(** C44: with the documented usage every call gives the coefficients of the field passed to it *)
Theorem C44_documented_usage : forall (F C : Type) (build : F -> C) d fields f,
  sc_coeffs (cache_run build (iterations d fields ++ [(d, f)])) = Some (build f) /\
  sc_coeffs (cache_run build (iterations d (fields ++ [f]))) = Some (build f).
Proof. exact (fun F C => @documented_usage F C). Qed.
Print Assumptions C44_documented_usage.
(** without it (only the other dimension is asked for with a new field, or the order changes) a call
    returns the coefficients of another field *)
Theorem C44_stale_coefficients_refuted : forall (F C : Type) (build : F -> C) d f g,
  sc_coeffs (cache_run build [(d, f); (other_dim d, g)]) = Some (build f).
Proof. intros F C build d f g. destruct d; exact eq_refl. Qed.
Print Assumptions C44_stale_coefficients_refuted.
Example C44_nonvacuous :
  sc_coeffs (cache_run S [(Dim2, 1); (Dim1, 1); (Dim2, 5); (Dim1, 7)]%nat) = Some 6%nat.
Proof. reflexivity. Qed.
