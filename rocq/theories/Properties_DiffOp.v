(** Properties C62-C64: norms, gradients, curls, the Lie-Poisson bracket and gradient creators. *)
From Coquelicot Require Import Coquelicot.
From Coq Require Import Lra Lia.
From Verif Require Import TensorSpec DiffOpModel DiffOpSpec DiffOpProofs DiffOpCurl DiffOpMain DiffOpChain MappingVec MappingCyl QuadProofs.
Open Scope R_scope.
(** [represents n J s v u]: the list of components v in the space s stands for the Cartesian vector u *)
Notation stands_for n m p s v u := (MappingSpec.represents n (m_J m p) s (comp v) u) (only parsing).

(** ** C62: norms, gradients and curls do not depend on the coordinates *)
(** The norm of a vector given by its contravariant components is the Euclidean norm of the vector. *)
Theorem C62_norm_contravariant : forall cart n m p v u, length v = n -> stands_for n m p ArgContra v u ->
  norm_element cart true n m p v = Ok (sqrt (dot n u u)).
Proof. exact norm_contra. Qed.
Print Assumptions C62_norm_contravariant.
(** The same for covariant components, through the inverse metric. *)
Theorem C62_norm_covariant : forall n m p v u, length v = n -> invertible_at n m p -> stands_for n m p ArgCov v u ->
  norm_element false false n m p v = Ok (sqrt (dot n u u)).
Proof. exact norm_cov. Qed.
Print Assumptions C62_norm_covariant.
(** The contravariant gradient is the vector whose covariant components are the partial derivatives. *)
Theorem C62_gradient : forall cart n m p d u, (0 < n)%nat -> length d = n -> invertible_at n m p ->
  stands_for n m p ArgCov d u ->
  exists v, gradient_contra cart n m p d = Ok v /\ length v = n /\ stands_for n m p ArgContra v u.
Proof. exact gradient_physical. Qed.
Print Assumptions C62_gradient.
(** The partial derivatives with respect to the logical coordinates of a differentiable function F of
    the physical position are the covariant components of the Cartesian gradient D of F; with
    C62_gradient: the gradient operator gives the Cartesian gradient. *)
Theorem C62_partial_derivatives : forall n m p F D d, well_typed n m ->
  (forall i j, (i < n)%nat -> (j < n)%nat -> derivable_pt_lim (fun t => m_apply m (upd p j t) i) (p j) (m_J m p i j)) ->
  depends_on n F -> differentiable_at n F (m_apply m p) D ->
  partials_of n (fun q => F (m_apply m q)) p d ->
  MappingSpec.represents n (m_J m p) ArgCov d D.
Proof. exact pullback_gradient. Qed.
Print Assumptions C62_partial_derivatives.
(** The curl of a differentiable physical field U, computed from the partial derivatives of its
    covariant components, is the Cartesian curl of U. *)
Theorem C62_curl : forall cart m p U D H df, usable cart m p -> well_typed 3 m ->
  (forall i j, (i < 3)%nat -> (j < 3)%nat -> derivable_pt_lim (fun t => m_apply m (upd p j t) i) (p j) (m_J m p i j)) ->
  (forall i j l, (i < 3)%nat -> (j < 3)%nat -> (l < 3)%nat -> m_J m (upd p l (p l)) i j = m_J m p i j) ->
  second_derivatives 3 m p H ->
  (forall i, (i < 3)%nat -> depends_on 3 (fun x => U x i)) ->
  (forall i, (i < 3)%nat -> differentiable_at 3 (fun x => U x i) (m_apply m p) (D i)) ->
  length df = 9%nat ->
  (forall k l, (k < 3)%nat -> (l < 3)%nat ->
     derivable_pt_lim (fun t => cov_field 3 m U k (upd p l t)) (p l) (comp2 3 df k l)) ->
  exists v, curl cart m p df = Ok v /\ length v = 3%nat /\ stands_for 3 m p ArgContra v (cartesian_curl D).
Proof. exact curl_physical. Qed.
Print Assumptions C62_curl.
(** The curl of a gradient (symmetric second derivatives) is zero. *)
Theorem C62_curl_of_gradient : forall cart m p df, 1 / 10 ^ 19 <= Rabs (m_jac m p) -> (cart = true -> m_jac m p = 1) ->
  length df = 9%nat -> (forall i j, (i < 3)%nat -> (j < 3)%nat -> comp2 3 df i j = comp2 3 df j i) ->
  curl cart m p df = Ok [0; 0; 0].
Proof. exact curl_symmetric. Qed.
Print Assumptions C62_curl_of_gradient.
(** On a field every point of the range gets the value of the operator at that point, the others are
    left alone, in whatever order the points are visited. *)
Theorem C62_gradient_field : forall X (dec : forall x y : X, {x = y} + {x <> y}) cart n m coord (d : X -> list R) range out,
  NoDup range -> (forall i, In i range -> exists v, gradient_contra cart n m (coord i) (d i) = Ok v) ->
  exists o, gradient_field dec cart n m coord d range out = Ok o /\
    (forall i, In i range -> gradient_contra cart n m (coord i) (d i) = Ok (o i)) /\ (forall i, ~ In i range -> o i = out i).
Proof. exact (fun X dec cart n m coord d range out => for_each_spec dec _ range out). Qed.
Print Assumptions C62_gradient_field.
Theorem C62_norm_field : forall X (dec : forall x y : X, {x = y} + {x <> y}) cart contra n m coord (v : X -> list R) range out,
  NoDup range -> (forall i, In i range -> exists r, norm_element cart contra n m (coord i) (v i) = Ok r) ->
  exists o, norm_field dec cart contra n m coord v range out = Ok o /\
    (forall i, In i range -> norm_element cart contra n m (coord i) (v i) = Ok (o i)) /\ (forall i, ~ In i range -> o i = out i).
Proof. exact (fun X dec cart contra n m coord v range out => for_each_spec dec _ range out). Qed.
Print Assumptions C62_norm_field.

(** Cylindrical coordinates (R, Z, Zeta) at R = 2, zeta = 0 (X along R, Y along zeta): the function
    F = x + 3 y + 5 z has partial derivatives (1, 5, 6) and contravariant gradient (1, 5, 3/2). *)
Definition ex_p : nat -> R := c3 2 7 0.
Lemma ex_tiny : tiny <= ex_p 0%nat.
Proof.
  unfold tiny. change (ex_p 0%nat) with 2. assert (/ 10 ^ 15 <= / 1); [|lra].
  apply Rinv_le_contravar; [lra|]. apply pow_R1_Rle. lra.
Qed.
Lemma ex_invertible : invertible_at 3 cylindrical ex_p.
Proof.
  destruct (cyl_inverse ex_p) as [K [E [HK _]]]; [|exists K; split; auto].
  rewrite Rabs_right; [apply ex_tiny|]. change (ex_p 0%nat) with 2. lra.
Qed.
Lemma ex_cov : stands_for 3 cylindrical ex_p ArgCov [1; 5; 6] (c3 1 3 5).
Proof.
  intros i Hi. assert (i = 0 \/ i = 1 \/ i = 2)%nat as [->| [->| ->]] by lia; cbn; rewrite ?cos_0, ?sin_0; ring.
Qed.
Example C62_gradient_nonvacuous :
  (forall q, 1 * m_apply cylindrical q 0%nat + 3 * m_apply cylindrical q 1%nat + 5 * m_apply cylindrical q 2%nat =
             q 0%nat * cos (q 2%nat) + 3 * (q 0%nat * sin (q 2%nat)) + 5 * q 1%nat) /\
  partials_of 3 (fun q => 1 * m_apply cylindrical q 0%nat + 3 * m_apply cylindrical q 1%nat + 5 * m_apply cylindrical q 2%nat)
    ex_p (comp [1; 5; 6]) /\
  gradient_contra false 3 cylindrical ex_p [1; 5; 6] = Ok [1; 5; 3 / 2].
Proof.
  split; [|split].
  - intros q. cbn. ring.
  - intros l Hl. apply derivable_pt_lim_ext' with
      (f := fun t => upd ex_p l t 0%nat * cos (upd ex_p l t 2%nat) + 3 * (upd ex_p l t 0%nat * sin (upd ex_p l t 2%nat)) + 5 * upd ex_p l t 1%nat).
    { intros t. cbn. ring. }
    assert (l = 0 \/ l = 1 \/ l = 2)%nat as [->| [->| ->]] by lia; unfold upd; cbn; apply is_derive_Reals;
    auto_derive; auto; rewrite ?cos_0, ?sin_0; ring.
  - rewrite (gradient_value false 3 cylindrical ex_p [1; 5; 6] (fun i k => Rsum 3 (fun j => 
      m3 (cos 0) (sin 0) 0 0 0 1 (-1 / 2 * sin 0) (1 / 2 * cos 0) 0 i j * m3 (cos 0) (sin 0) 0 0 0 1 (-1 / 2 * sin 0) (1 / 2 * cos 0) 0 k j))); auto.
    + f_equal. cbn. rewrite cos_0, sin_0. f_equal; [lra|]. f_equal; [lra|]. f_equal. lra.
    + unfold metric_inverse, inverse_jacobian_matrix. cbn [cylindrical m_has_inv m_invJ]. unfold cyl_invJ.
      destruct (Rle_dec tiny (Rabs (ex_p 0%nat))) as [_|N]; [reflexivity|].
      exfalso. apply N. rewrite Rabs_right; [apply ex_tiny|]. change (ex_p 0%nat) with 2. lra.
Qed.
(** the rotation U = (-y, x, 0) has covariant components (0, 0, R^2); its curl is (0, 0, 2) *)
Definition ex_U (x : nat -> R) : nat -> R := c3 (- x 1%nat) (x 0%nat) 0.
Example C62_curl_nonvacuous :
  exists v, curl false cylindrical ex_p [0; 0; 0; 0; 0; 0; 4; 0; 0] = Ok v /\
    stands_for 3 cylindrical ex_p ArgContra v (c3 0 0 2).
Proof.
  destruct (cyl_second ex_p) as [H HH].
  destruct (C62_curl false cylindrical ex_p ex_U (m3 0 (-1) 0 1 0 0 0 0 0) H [0; 0; 0; 0; 0; 0; 4; 0; 0]) as [v [E [_ HV]]]; auto.
  - apply cyl_usable, ex_tiny.
  - apply cyl_typed.
  - apply (proj1 (cyl_jacobian ex_p)).
  - intros. apply cyl_self; auto.
  - intros i Hi y y' Hy. assert (i = 0 \/ i = 1 \/ i = 2)%nat as [->| [->| ->]] by lia; cbn; rewrite ?Hy by lia; reflexivity.
  - intros i Hi. apply linear_differentiable. intros y.
    assert (i = 0 \/ i = 1 \/ i = 2)%nat as [->| [->| ->]] by lia; cbn; ring.
  - intros k l Hk Hl.
    apply derivable_pt_lim_ext' with (f := fun t => (if (k =? 2)%nat then upd ex_p l t 0%nat * upd ex_p l t 0%nat else 0)).
    { intros t. assert (P : forall z, sin z * sin z + cos z * cos z = 1) by (intros z; pose proof (sin2_cos2 z); unfold Rsqr in *; lra).
      assert (k = 0 \/ k = 1 \/ k = 2)%nat as [->| [->| ->]] by lia; unfold cov_field, ex_U; cbn; try ring.
      rewrite <- (Rmult_1_r (upd ex_p l t 0%nat * upd ex_p l t 0%nat)). rewrite <- (P (upd ex_p l t 2%nat)). ring. }
    assert (k = 0 \/ k = 1 \/ k = 2)%nat as [->| [->| ->]] by lia; assert (l = 0 \/ l = 1 \/ l = 2)%nat as [->| [->| ->]] by lia;
    unfold upd; cbn; apply is_derive_Reals; auto_derive; auto; ring.
  - exists v. split; [exact E|]. intros i Hi. rewrite <- (HV i Hi).
    assert (i = 0 \/ i = 1 \/ i = 2)%nat as [->| [->| ->]] by lia; cbn; ring.
Qed.

(** ** C63: the Lie-Poisson bracket *)
(** The bracket is b . (grad F x grad G) with b the unit vector along B: independent of coordinates,
    including left-handed ones. *)
Theorem C63_value : forall cart m p df dg B gF gG uB, usable cart m p -> 0 < dot 3 uB uB ->
  length df = 3%nat -> length dg = 3%nat -> length B = 3%nat ->
  stands_for 3 m p ArgCov df gF -> stands_for 3 m p ArgCov dg gG -> stands_for 3 m p ArgContra B uB ->
  bracket cart m p df dg B = Ok (dot 3 uB (cross gF gG) / sqrt (dot 3 uB uB)).
Proof. exact (fun cart m p df dg B gF gG uB HU _ => bracket_physical cart m p df dg B gF gG uB HU). Qed.
Print Assumptions C63_value.
(** With a rank 2 second argument: the vector of the brackets of its rows. *)
Theorem C63_vector_value : forall cart m p sg df dg B gF (gG : nat -> nat -> R) uB, usable cart m p -> 0 < dot 3 uB uB ->
  proper_set sg -> sg <> [] -> length df = 3%nat -> length dg = (length sg * 3)%nat -> length B = 3%nat ->
  stands_for 3 m p ArgCov df gF ->
  (forall k, (k < length sg)%nat -> MappingSpec.represents 3 (m_J m p) ArgCov (comp2 3 dg k) (gG k)) ->
  stands_for 3 m p ArgContra B uB ->
  exists v, bracket_vec cart m p sg df dg B = Ok v /\ length v = length sg /\
    forall k, (k < length sg)%nat -> comp v k = dot 3 uB (cross gF (gG k)) / sqrt (dot 3 uB uB).
Proof. exact (fun cart m p sg df dg B gF gG uB HU _ => bracket_vec_physical cart m p sg df dg B gF gG uB HU). Qed.
Print Assumptions C63_vector_value.
Theorem C63_antisymmetric : forall cart m p df dg B, usable cart m p ->
  length df = 3%nat -> length dg = 3%nat -> length B = 3%nat ->
  exists v, bracket cart m p df dg B = Ok v /\ bracket cart m p dg df B = Ok (- v).
Proof. exact bracket_antisym. Qed.
Print Assumptions C63_antisymmetric.
(** Bilinear; with x, y the values of two functions this is the Leibniz rule {f, g h} = h {f, g} + g {f, h}. *)
Theorem C63_bilinear : forall cart m p df x y dg1 dg2 dg B, usable cart m p ->
  length df = 3%nat -> length dg1 = 3%nat -> length dg2 = 3%nat -> length dg = 3%nat -> length B = 3%nat ->
  (forall k, (k < 3)%nat -> comp dg k = x * comp dg1 k + y * comp dg2 k) ->
  exists v1 v2, bracket cart m p df dg1 B = Ok v1 /\ bracket cart m p df dg2 B = Ok v2 /\
    bracket cart m p df dg B = Ok (x * v1 + y * v2).
Proof. exact bracket_bilinear. Qed.
Print Assumptions C63_bilinear.
(** A function whose gradient is along B commutes with every function. *)
Theorem C63_casimir : forall cart m p df dg B x, usable cart m p ->
  length df = 3%nat -> length dg = 3%nat -> length B = 3%nat ->
  0 < Rsum 3 (fun i => Rsum 3 (fun j => comp B i * comp2 3 (mat_data 3 (metric 3 m p)) i j * comp B j)) ->
  (forall j, (j < 3)%nat -> comp df j = x * Rsum 3 (fun l => metric 3 m p j l * comp B l)) ->
  bracket cart m p df dg B = Ok 0.
Proof. exact bracket_parallel. Qed.
Print Assumptions C63_casimir.
Theorem C63_field : forall X (dec : forall x y : X, {x = y} + {x <> y}) cart m coord (df dg B : X -> list R) range out,
  NoDup range -> (forall i, In i range -> exists v, bracket cart m (coord i) (df i) (dg i) (B i) = Ok v) ->
  exists o, bracket_field dec cart m coord df dg B range out = Ok o /\
    (forall i, In i range -> bracket cart m (coord i) (df i) (dg i) (B i) = Ok (o i)) /\ (forall i, ~ In i range -> o i = out i).
Proof. exact (fun X dec cart m coord df dg B range out => for_each_spec dec _ range out). Qed.
Print Assumptions C63_field.
(** At R = 2, zeta = 0: grad F = (1, 3, 5) and grad G = (0, 1, 0) (dG = (0, 0, 2)), B = (0, 0, 4) along z:
    the Cartesian value is 1; cylindrical (R, Z, Zeta) is left-handed. *)
Example C63_nonvacuous : bracket false cylindrical ex_p [1; 5; 6] [0; 0; 2] [0; 4; 0] = Ok 1 /\
  bracket true (identity_map 3 true) ex_p [1; 3; 5] [0; 1; 0] [0; 0; 4] = Ok 1.
Proof.
  split.
  - rewrite (C63_value false cylindrical ex_p [1; 5; 6] [0; 0; 2] [0; 4; 0] (c3 1 3 5) (c3 0 1 0) (c3 0 0 4)); auto.
    + f_equal. cbn. replace (0 + 0 * 0 + 0 * 0 + 4 * 4) with (4 * 4) by ring. rewrite sqrt_square by lra. field.
    + apply cyl_usable, ex_tiny.
    + cbn. lra.
    + apply ex_cov.
    + intros i Hi. assert (i = 0 \/ i = 1 \/ i = 2)%nat as [->| [->| ->]] by lia; cbn; rewrite ?cos_0, ?sin_0; ring.
    + intros i Hi. assert (i = 0 \/ i = 1 \/ i = 2)%nat as [->| [->| ->]] by lia; cbn; rewrite ?cos_0, ?sin_0; ring.
  - rewrite (C63_value true (identity_map 3 true) ex_p [1; 3; 5] [0; 1; 0] [0; 0; 4] (c3 1 3 5) (c3 0 1 0) (c3 0 0 4)); auto.
    + f_equal. cbn. replace (0 + 0 * 0 + 0 * 0 + 4 * 4) with (4 * 4) by ring. rewrite sqrt_square by lra. field.
    + apply identity_usable.
    + cbn. lra.
    + intros i Hi. assert (i = 0 \/ i = 1 \/ i = 2)%nat as [->| [->| ->]] by lia; cbn; unfold identity_matrix; cbn; ring.
    + intros i Hi. assert (i = 0 \/ i = 1 \/ i = 2)%nat as [->| [->| ->]] by lia; cbn; unfold identity_matrix; cbn; ring.
    + intros i Hi. assert (i = 0 \/ i = 1 \/ i = 2)%nat as [->| [->| ->]] by lia; cbn; unfold identity_matrix; cbn; ring.
Qed.

(** ** C64: gradients from partial derivative operators *)
(** GradientCreator writes in the k-th covariant component what its k-th operator computes from the
    function, and nothing else. *)
Theorem C64_gradient_creator : forall X (creators : list (@creator X unit)) ops k range func out s, NoDup range ->
  Forall2 computes creators ops ->
  exists o, gradient_creator k creators range func out s = Ok (o, s) /\
    (forall j op, nth_error ops j = Some op -> writes range (out (k + j)%nat) (o (k + j)%nat) (op func)) /\
    (forall q, (q < k \/ k + length ops <= q)%nat -> o q = out q).
Proof. exact @gradient_creator_spec. Qed.
Print Assumptions C64_gradient_creator.
Theorem C64_constant : forall X (dec : forall x y : X, {x = y} + {x <> y}) v, computes (constant_creator dec v) (fun _ _ => v).
Proof. exact @constant_computes. Qed.
Print Assumptions C64_constant.
(** The derivative written is that of the spline built from the field given to create_instance. *)
Theorem C64_spline : forall X C (dec : forall x y : X, {x = y} + {x <> y}) (build : (X -> R) -> C) deriv1,
  computes (spline1_creator dec build deriv1) (fun f => deriv1 (build f)).
Proof. exact @spline1_computes. Qed.
Print Assumptions C64_spline.
(** A gradient creator made of the two operators of a spline surface that share a cache gives, at every
    call of any sequence of calls, the derivatives of the spline of the function of that call. *)
Theorem C64_shared_cache : forall X C (dec : forall x y : X, {x = y} + {x <> y})
    (build : (X -> R) -> C) deriv1 d fields func range out, NoDup range ->
  exists o s', gradient_creator 0 [spline2_creator dec build deriv1 d; spline2_creator dec build deriv1 (other_dim d)] range func out
      (cache_run build (iterations d fields)) = Ok (o, s') /\ s' = cache_run build (iterations d (fields ++ [func])) /\
    writes range (out 0%nat) (o 0%nat) (deriv1 d (build func)) /\
    writes range (out 1%nat) (o 1%nat) (deriv1 (other_dim d) (build func)) /\
    forall q, (2 <= q)%nat -> o q = out q.
Proof. exact @cache_gradient. Qed.
Print Assumptions C64_shared_cache.
(** Two gradient creators that share a cache but list the dimensions in different orders: after the
    first was used on f, the second gives for g the derivative of f in its first dimension. *)
Theorem C64_two_orders_refuted : forall X C (dec : forall x y : X, {x = y} + {x <> y})
    (build : (X -> R) -> C) deriv1 f g range out, NoDup range ->
  exists o s', gradient_creator 0 [spline2_creator dec build deriv1 Dim2; spline2_creator dec build deriv1 Dim1] range g out
      (cache_run build (iterations Dim1 [f])) = Ok (o, s') /\
    writes range (out 0%nat) (o 0%nat) (deriv1 Dim2 (build f)).
Proof. exact @two_orders. Qed.
Print Assumptions C64_two_orders_refuted.
Example C64_nonvacuous : exists o, gradient_creator 0
    [constant_creator Nat.eq_dec 2; spline1_creator Nat.eq_dec (fun f => f) (fun c i => c (S i) - c i)]
    [0; 1; 2]%nat (fun i => INR (i * i)) (fun _ _ => 9) tt = Ok (o, tt) /\
  o 0%nat 1%nat = 2 /\ o 1%nat 1%nat = 3 /\ o 1%nat 2%nat = 5 /\ o 1%nat 3%nat = 9 /\ o 2%nat 0%nat = 9.
Proof.
  destruct (C64_gradient_creator nat
    [constant_creator Nat.eq_dec 2; spline1_creator Nat.eq_dec (fun f => f) (fun c i => c (S i) - c i)]
    [fun _ _ => 2; fun f i => f (S i) - f i] 0 [0; 1; 2]%nat (fun i => INR (i * i)) (fun _ _ => 9) tt) as [o [E [A B]]].
  - repeat constructor; cbn; intuition discriminate.
  - constructor; [apply C64_constant|]. constructor; [|constructor].
    apply (C64_spline nat (nat -> R) Nat.eq_dec (fun f => f) (fun c i => c (S i) - c i)).
  - exists o. split; [exact E|].
    destruct (A 0%nat _ eq_refl) as [A0 _]. destruct (A 1%nat _ eq_refl) as [A1 N1]. cbn [Nat.add] in *.
    split; [apply A0; cbn; auto|]. split; [rewrite A1 by (cbn; auto); cbn; lra|].
    split; [rewrite A1 by (cbn; auto); cbn; lra|]. split; [apply N1; cbn; lia|].
    rewrite B by (cbn; lia). reflexivity.
Qed.

(** ** C48: the identity coordinate change *)
Theorem C48_identity : forall n same p, n = 2%nat \/ n = 3%nat -> jacobian_ok n (identity_map n same) p /\
  inv_jacobian_ok n (identity_map n true) p /\ (forall q, m_apply (identity_map n same) q = q).
Proof. exact (fun n same p H => conj (identity_jacobian n same p H) (conj (identity_inverse n p H) (fun q => eq_refl))). Qed.
Print Assumptions C48_identity.
(** Between two different bases the inverse Jacobian matrix of the identity is declared with the index
    sets of the Jacobian matrix itself (result, dual of the argument): it cannot be used as an inverse
    Jacobian (identity_coordinate_change.hpp 116-144). *)
Theorem C48_identity_inverse_refuted : forall n p, inverse_jacobian_matrix n (identity_map n false) p = AssertFail.
Proof. exact (fun n p => eq_refl). Qed.
Print Assumptions C48_identity_inverse_refuted.
