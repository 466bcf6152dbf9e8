(** Proofs about the coordinate transformations (C24-C28, C47). *)
From Coquelicot Require Import Coquelicot.
From Coq Require Import ZifyBool Lra Lia.
From Verif Require Import MappingSpec MathProofs RestrictProofs.
Open Scope R_scope.

Ltac idx2 i := destruct i as [|[|i]]; [| |exfalso; lia].
Ltac idx3 i := destruct i as [|[|[|i]]]; [| | |exfalso; lia].
Lemma tiny_pos : 0 < tiny.
Proof. unfold tiny. apply Rinv_0_lt_compat, pow_lt. lra. Qed.
Lemma cs1 t : cos t * cos t = 1 - sin t * sin t.
Proof. pose proof (sin2_cos2 t). unfold Rsqr in *. lra. Qed.

(** ** Circular mapping *)
Lemma circ_jacobian ox oy p : jacobian_ok 2 (circular ox oy) p.
Proof.
  split; [|split].
  - intros i j Hi Hj. idx2 i; idx2 j; apply is_derive_Reals; unfold circular; simpl; unfold circ_apply, upd; simpl;
      auto_derive; auto; ring.
  - unfold circular, circ_jac, circ_J; simpl. unfold determinant2; simpl.
    replace (cos (p 1%nat) * (p 0%nat * cos (p 1%nat)) - sin (p 1%nat) * (- p 0%nat * sin (p 1%nat)))
      with (p 0%nat * (cos (p 1%nat) * cos (p 1%nat) + sin (p 1%nat) * sin (p 1%nat))) by ring.
    rewrite cs1. ring.
  - intros i j Hi Hj. idx2 i; idx2 j; reflexivity.
Qed.
Lemma circ_inverse ox oy p : tiny <= Rabs (p 0%nat) -> inv_jacobian_ok 2 (circular ox oy) p.
Proof.
  intros H. pose proof tiny_pos. assert (R0 : p 0%nat <> 0) by (intros C; rewrite C, Rabs_R0 in H; lra).
  unfold inv_jacobian_ok, circular; simpl. unfold circ_invJ, circ_invJc.
  destruct (Rle_dec tiny (Rabs (p 0%nat))) as [_|]; [|lra]. eexists. split; [reflexivity|]. split.
  - pose proof (cs1 (p 1%nat)) as CS. split; intros i j Hi Hj; idx2 i; idx2 j; unfold mmul, circ_J; simpl;
      field_simplify_eq; auto; simpl; try (ring [CS]); ring_simplify; replace (cos (p 1%nat) ^ 2) with (cos (p 1%nat) * cos (p 1%nat)) by ring; rewrite CS; ring.
  - intros i j Hi Hj. idx2 i; idx2 j; reflexivity.
Qed.

(** ** atan2 *)
Lemma sqrt_scale x y : x <> 0 -> sqrt (x * x + y * y) = Rabs x * sqrt (1 + Rsqr (y / x)).
Proof.
  intros Hx. replace (x * x + y * y) with (Rsqr x * (1 + Rsqr (y / x))) by (unfold Rsqr; field; auto).
  rewrite sqrt_mult; [rewrite sqrt_Rsqr_abs; reflexivity|apply Rle_0_sqr|pose proof (Rle_0_sqr (y / x)); lra].
Qed.
Lemma atan2_polar x y :
  sqrt (x * x + y * y) * cos (atan2 y x) = x /\ sqrt (x * x + y * y) * sin (atan2 y x) = y.
Proof.
  unfold atan2. destruct (Rlt_dec 0 x) as [H|H].
  - rewrite cos_atan, sin_atan, sqrt_scale by lra. rewrite Rabs_right by lra.
    assert (0 < sqrt (1 + Rsqr (y / x))) by (apply sqrt_lt_R0; pose proof (Rle_0_sqr (y / x)); lra).
    split; field; lra.
  - destruct (Rlt_dec x 0) as [H2|H2].
    + assert (S : 0 < sqrt (1 + Rsqr (y / x))) by (apply sqrt_lt_R0; pose proof (Rle_0_sqr (y / x)); lra).
      destruct (Rle_dec 0 y).
      * rewrite neg_cos, neg_sin, cos_atan, sin_atan, sqrt_scale by lra. rewrite Rabs_left by lra.
        split; field; lra.
      * replace (atan (y / x) - PI) with (- (PI - atan (y / x))) by ring. rewrite cos_neg, sin_neg, sin_PI_x.
        replace (PI - atan (y / x)) with (- atan (y / x) + PI) by ring. rewrite neg_cos, cos_neg, cos_atan, sin_atan.
        rewrite sqrt_scale by lra. rewrite Rabs_left by lra. split; field; lra.
    + assert (x = 0) by lra. subst x. replace (0 * 0 + y * y) with (Rsqr y) by (unfold Rsqr; ring).
      rewrite sqrt_Rsqr_abs. destruct (Rlt_dec 0 y); [|destruct (Rlt_dec y 0)].
      * rewrite cos_PI2, sin_PI2, Rabs_right by lra. lra.
      * rewrite cos_neg, sin_neg, cos_PI2, sin_PI2, Rabs_left by lra. lra.
      * assert (y = 0) by lra. subst y. rewrite Rabs_R0. lra.
Qed.
Lemma atan_div_sign y x : x < 0 -> (0 <= y -> atan (y / x) <= 0) /\ (y < 0 -> 0 < atan (y / x)).
Proof.
  intros Hx. assert (I : / x < 0) by (apply Rinv_lt_0_compat; auto). split; intros Hy.
  - destruct (Req_dec y 0) as [->|]; [unfold Rdiv; rewrite Rmult_0_l, atan_0; lra|]. left.
    assert (A : atan (y / x) < atan 0).
    { apply atan_increasing. unfold Rdiv. assert (0 < y * - / x) by (apply Rmult_lt_0_compat; lra). lra. }
    rewrite atan_0 in A. auto.
  - assert (A : atan 0 < atan (y / x)).
    { apply atan_increasing. unfold Rdiv. assert (0 < - y * - / x) by (apply Rmult_lt_0_compat; lra). lra. }
    rewrite atan_0 in A. auto.
Qed.
Lemma atan2_range x y : - PI < atan2 y x <= PI.
Proof.
  pose proof PI_RGT_0. pose proof (atan_bound (y / x)). unfold atan2.
  destruct (Rlt_dec 0 x); [lra|]. destruct (Rlt_dec x 0) as [Hx|].
  - destruct (atan_div_sign y x Hx) as [A B]. destruct (Rle_dec 0 y) as [Hy|Hy].
    + specialize (A Hy). lra.
    + specialize (B ltac:(lra)). lra.
  - destruct (Rlt_dec 0 y); [lra|]. destruct (Rlt_dec y 0); lra.
Qed.
(** the angle brought to [0, 2 pi) *)
Definition ang (y x : R) : R :=
  let t := atan2 y x in t * (if Rle_dec 0 t then 1 else 0) + (t + 2 * PI) * (if Rlt_dec t 0 then 1 else 0).
Lemma ang_alt y x : ang y x = if Rlt_dec (atan2 y x) 0 then 2 * PI + atan2 y x else atan2 y x.
Proof. unfold ang. cbn zeta. destruct (Rle_dec 0 (atan2 y x)), (Rlt_dec (atan2 y x) 0); try lra. Qed.
Lemma ang_alt2 y x : ang y x = atan2 y x + 2 * PI * (if Rlt_dec (atan2 y x) 0 then 1 else 0).
Proof. unfold ang. cbn zeta. destruct (Rle_dec 0 (atan2 y x)), (Rlt_dec (atan2 y x) 0); try lra. Qed.
Lemma ang_range x y : 0 <= ang y x < 2 * PI.
Proof. pose proof PI_RGT_0. pose proof (atan2_range x y). rewrite ang_alt. destruct (Rlt_dec (atan2 y x) 0); lra. Qed.
Lemma ang_polar x y : sqrt (x * x + y * y) * cos (ang y x) = x /\ sqrt (x * x + y * y) * sin (ang y x) = y.
Proof.
  pose proof (atan2_polar x y). rewrite ang_alt. destruct (Rlt_dec (atan2 y x) 0); auto.
  replace (2 * PI + atan2 y x) with (atan2 y x + 2 * IZR 1 * PI) by (simpl; ring).
  rewrite cos_shift_Z, sin_shift_Z. auto.
Qed.
(** an angle in [0, 2 pi) is determined by its cosine and sine *)
Lemma angle_unique a b : 0 <= a < 2 * PI -> 0 <= b < 2 * PI -> cos a = cos b -> sin a = sin b -> a = b.
Proof.
  intros Ha Hb C S. assert (E : cos (a - b) = 1).
  { rewrite cos_minus, C, S, <- Rplus_0_l. rewrite cs1. ring. }
  pose proof PI_RGT_0. 
  assert (H2 : sin ((a - b) / 2) = 0).
  { replace (a - b) with (2 * ((a - b) / 2)) in E by field. rewrite cos_2a_sin in E.
    assert (sin ((a - b) / 2) * sin ((a - b) / 2) = 0) by lra. apply Rmult_integral in H0. tauto. }
  apply sin_eq_0_0 in H2. destruct H2 as [k Hk].
  assert (K : (k = 0)%Z).
  { assert (-1 < IZR k < 1).
    { split; apply Rmult_lt_reg_r with PI; auto; lra. }
    destruct H0 as [A B]. apply lt_IZR in A, B. lia. }
  subst k. simpl in Hk. lra.
Qed.
Lemma ang_cos_sin k t : 0 < k -> 0 <= t < 2 * PI -> ang (k * sin t) (k * cos t) = t.
Proof.
  intros Hk Ht. destruct (ang_polar (k * cos t) (k * sin t)) as [A B].
  assert (S : sqrt (k * cos t * (k * cos t) + k * sin t * (k * sin t)) = k).
  { replace (k * cos t * (k * cos t) + k * sin t * (k * sin t)) with (k * k * (cos t * cos t + sin t * sin t)) by ring.
    rewrite cs1. replace (k * k * (1 - sin t * sin t + sin t * sin t)) with (k * k) by ring. apply sqrt_square. lra. }
  rewrite S in A, B. apply angle_unique; auto; [apply ang_range| |]; apply Rmult_eq_reg_l with k; lra.
Qed.

Lemma cart_circ_ang ox oy p :
  cart_circ_apply ox oy p = c2 (sqrt ((p 0%nat - ox) * (p 0%nat - ox) + (p 1%nat - oy) * (p 1%nat - oy)))
                               (ang (p 1%nat - oy) (p 0%nat - ox)).
Proof. reflexivity. Qed.
Lemma circ_right_inverse ox oy p :
  same_coord 2 (m_apply (circular ox oy) (m_apply (cart_circ ox oy) p)) p.
Proof.
  intros i Hi. simpl. rewrite cart_circ_ang. destruct (ang_polar (p 0%nat - ox) (p 1%nat - oy)) as [A B].
  idx2 i; unfold circ_apply; simpl; [rewrite A|rewrite B]; ring.
Qed.
Lemma circ_left_inverse ox oy p : 0 < p 0%nat -> 0 <= p 1%nat < 2 * PI ->
  same_coord 2 (m_apply (cart_circ ox oy) (m_apply (circular ox oy) p)) p.
Proof.
  intros Hr Ht i Hi. simpl. rewrite cart_circ_ang. unfold circ_apply; simpl.
  replace (p 0%nat * cos (p 1%nat) + ox - ox) with (p 0%nat * cos (p 1%nat)) by ring.
  replace (p 0%nat * sin (p 1%nat) + oy - oy) with (p 0%nat * sin (p 1%nat)) by ring.
  idx2 i; simpl; [|apply ang_cos_sin; auto].
  replace (p 0%nat * cos (p 1%nat) * (p 0%nat * cos (p 1%nat)) + p 0%nat * sin (p 1%nat) * (p 0%nat * sin (p 1%nat)))
    with (p 0%nat * p 0%nat * (cos (p 1%nat) * cos (p 1%nat) + sin (p 1%nat) * sin (p 1%nat))) by ring.
  rewrite cs1. replace (p 0%nat * p 0%nat * (1 - sin (p 1%nat) * sin (p 1%nat) + sin (p 1%nat) * sin (p 1%nat))) with (p 0%nat * p 0%nat) by ring.
  apply sqrt_square. lra.
Qed.

(** the angle in three half planes *)
Lemma ang_upper x y : 0 < y -> ang y x = PI / 2 - atan (x / y).
Proof.
  intros Hy. pose proof PI_RGT_0. pose proof (atan_bound (x / y)).
  assert (S : 0 < sqrt (1 + Rsqr (x / y))) by (apply sqrt_lt_R0; pose proof (Rle_0_sqr (x / y)); lra).
  assert (N : sqrt (x * x + y * y) = y * sqrt (1 + Rsqr (x / y))).
  { rewrite Rplus_comm, sqrt_scale, Rabs_right by lra. reflexivity. }
  destruct (ang_polar x y) as [A B]. rewrite N in A, B.
  apply angle_unique; [apply ang_range|lra| |].
  - rewrite cos_shift, sin_atan. apply Rmult_eq_reg_l with (y * sqrt (1 + Rsqr (x / y))); [rewrite A; field; lra|].
    apply Rgt_not_eq, Rmult_lt_0_compat; auto.
  - rewrite sin_shift, cos_atan. apply Rmult_eq_reg_l with (y * sqrt (1 + Rsqr (x / y))); [rewrite B; field; lra|].
    apply Rgt_not_eq, Rmult_lt_0_compat; auto.
Qed.
Lemma ang_lower x y : y < 0 -> ang y x = 3 * (PI / 2) - atan (x / y).
Proof.
  intros Hy. pose proof PI_RGT_0. pose proof (atan_bound (x / y)).
  assert (S : 0 < sqrt (1 + Rsqr (x / y))) by (apply sqrt_lt_R0; pose proof (Rle_0_sqr (x / y)); lra).
  assert (N : sqrt (x * x + y * y) = - y * sqrt (1 + Rsqr (x / y))).
  { rewrite Rplus_comm, sqrt_scale, Rabs_left by lra. reflexivity. }
  destruct (ang_polar x y) as [A B]. rewrite N in A, B.
  assert (P0 : - y * sqrt (1 + Rsqr (x / y)) <> 0) by (apply Rgt_not_eq, Rmult_lt_0_compat; lra).
  replace (3 * (PI / 2) - atan (x / y)) with (PI / 2 - atan (x / y) + PI) by field.
  apply angle_unique; [apply ang_range|lra| |].
  - rewrite neg_cos, cos_shift, sin_atan. apply Rmult_eq_reg_l with (- y * sqrt (1 + Rsqr (x / y))); [rewrite A; field; lra|auto].
  - rewrite neg_sin, sin_shift, cos_atan. apply Rmult_eq_reg_l with (- y * sqrt (1 + Rsqr (x / y))); [rewrite B; field; lra|auto].
Qed.
Lemma ang_left x y : x < 0 -> ang y x = PI + atan (y / x).
Proof.
  intros Hx. pose proof PI_RGT_0. pose proof (atan_bound (y / x)).
  assert (S : 0 < sqrt (1 + Rsqr (y / x))) by (apply sqrt_lt_R0; pose proof (Rle_0_sqr (y / x)); lra).
  assert (N : sqrt (x * x + y * y) = - x * sqrt (1 + Rsqr (y / x))).
  { rewrite sqrt_scale, Rabs_left by lra. reflexivity. }
  destruct (ang_polar x y) as [A B]. rewrite N in A, B.
  assert (P0 : - x * sqrt (1 + Rsqr (y / x)) <> 0) by (apply Rgt_not_eq, Rmult_lt_0_compat; lra).
  replace (PI + atan (y / x)) with (atan (y / x) + PI) by ring.
  apply angle_unique; [apply ang_range|lra| |].
  - rewrite neg_cos, cos_atan. apply Rmult_eq_reg_l with (- x * sqrt (1 + Rsqr (y / x))); [rewrite A; field; lra|auto].
  - rewrite neg_sin, sin_atan. apply Rmult_eq_reg_l with (- x * sqrt (1 + Rsqr (y / x))); [rewrite B; field; lra|auto].
Qed.
(** derivatives of the angle off the half axis y = 0, x >= 0 *)
Lemma locally_lt (f : R -> R) a : continuous f a -> 0 < f a -> locally a (fun t => 0 < f t).
Proof. intros C H. apply C. apply (open_gt 0). exact H. Qed.
Lemma ang_dx x y : (y <> 0 \/ x < 0) -> is_derive (fun t => ang y t) x (- y / (x * x + y * y)).
Proof.
  intros H. assert (D : x * x + y * y <> 0).
  { assert (0 <= x * x) by (apply Rle_0_sqr). assert (0 <= y * y) by (apply Rle_0_sqr).
    destruct H as [H|H]; [assert (0 < y * y) by (apply Rsqr_pos_lt; auto)|assert (0 < x * x) by (apply Rsqr_pos_lt; lra)]; lra. }
  destruct (Rlt_dec 0 y) as [Hy|Hy]; [|destruct (Rlt_dec y 0) as [Hy2|Hy2]].
  - apply is_derive_ext with (fun t => PI / 2 - atan (t / y)); [intros; symmetry; apply ang_upper; auto|].
    auto_derive; auto. unfold Rsqr. field. lra.
  - apply is_derive_ext with (fun t => 3 * (PI / 2) - atan (t / y)); [intros; symmetry; apply ang_lower; auto|].
    auto_derive; auto. unfold Rsqr. field. lra.
  - assert (y = 0) by lra. subst y. assert (x < 0) by (destruct H; lra).
    apply is_derive_ext_loc with (fun t => PI + atan (0 / t)).
    + apply filter_imp with (fun t => 0 < - t); [intros t Ht; symmetry; apply ang_left; lra|].
      apply (locally_lt (fun t => - t)); [|lra]. apply (continuous_opp (fun t : R => t)), continuous_id.
    + auto_derive; [lra|]. unfold Rsqr. field. lra.
Qed.
Lemma ang_dy x y : (y <> 0 \/ x < 0) -> is_derive (fun t => ang t x) y (x / (x * x + y * y)).
Proof.
  intros H. assert (D : x * x + y * y <> 0).
  { assert (0 <= x * x) by (apply Rle_0_sqr). assert (0 <= y * y) by (apply Rle_0_sqr).
    destruct H as [H|H]; [assert (0 < y * y) by (apply Rsqr_pos_lt; auto)|assert (0 < x * x) by (apply Rsqr_pos_lt; lra)]; lra. }
  destruct (Rlt_dec x 0) as [Hx|Hx].
  - apply is_derive_ext with (fun t => PI + atan (t / x)); [intros; symmetry; apply ang_left; auto|].
    auto_derive; auto. unfold Rsqr. field. lra.
  - assert (Hy : y <> 0) by (destruct H; auto; lra). destruct (Rlt_dec 0 y) as [Hy1|Hy1].
    + apply is_derive_ext_loc with (fun t => PI / 2 - atan (x / t)).
      * apply filter_imp with (fun t => 0 < t); [intros t Ht; symmetry; apply ang_upper; lra|].
        apply (locally_lt (fun t => t)); [|lra]. apply continuous_id.
      * auto_derive; auto. unfold Rsqr. field. lra.
    + apply is_derive_ext_loc with (fun t => 3 * (PI / 2) - atan (x / t)).
      * apply filter_imp with (fun t => 0 < - t); [intros t Ht; symmetry; apply ang_lower; lra|].
        apply (locally_lt (fun t => - t)); [|lra]. apply (continuous_opp (fun t : R => t)), continuous_id.
      * auto_derive; auto. unfold Rsqr. field. lra.
Qed.
Lemma norm_pos x y : (y <> 0 \/ x < 0) -> 0 < x * x + y * y.
Proof.
  intros H. assert (0 <= x * x) by (apply Rle_0_sqr). assert (0 <= y * y) by (apply Rle_0_sqr).
  destruct H as [H|H]; [assert (0 < y * y) by (apply Rsqr_pos_lt; auto)|assert (0 < x * x) by (apply Rsqr_pos_lt; lra)]; lra.
Qed.
Lemma is_derive_shift (f : R -> R) a o l : is_derive f (a - o) l -> is_derive (fun t => f (t - o)) a l.
Proof.
  intros H. replace l with (scal 1 l) by (unfold scal; simpl; unfold mult; simpl; ring).
  apply (is_derive_comp f (fun t => t - o)); auto. auto_derive; auto; ring.
Qed.
Lemma cart_circ_jacobian ox oy p : (p 1%nat <> oy \/ p 0%nat < ox) -> jacobian_ok 2 (cart_circ ox oy) p.
Proof.
  intros H. set (x := p 0%nat - ox). set (y := p 1%nat - oy).
  assert (Hxy : y <> 0 \/ x < 0) by (unfold x, y; destruct H; [left; lra|right; lra]).
  pose proof (norm_pos x y Hxy) as NP. assert (S : 0 < sqrt (x * x + y * y)) by (apply sqrt_lt_R0; auto).
  assert (SS : sqrt (x * x + y * y) * sqrt (x * x + y * y) = x * x + y * y) by (apply sqrt_sqrt; lra).
  split; [|split].
  - intros i j Hi Hj. apply is_derive_Reals. unfold cart_circ. simpl m_apply. unfold m_J. unfold cart_circ_J. cbn zeta. fold x y.
    idx2 i; idx2 j; cbn [m2 c2].
    + apply is_derive_ext with (fun t => sqrt ((t - ox) * (t - ox) + y * y)); [intros; reflexivity|].
      auto_derive; [exact NP|]. change (p 0%nat + - ox) with x. match goal with |- context [sqrt ?a] => replace (sqrt a) with (sqrt (x * x + y * y)) by (f_equal; unfold x, y; ring) end. field. lra.
    + apply is_derive_ext with (fun t => sqrt (x * x + (t - oy) * (t - oy))); [intros; reflexivity|].
      auto_derive; [exact NP|]. change (p 1%nat + - oy) with y. match goal with |- context [sqrt ?a] => replace (sqrt a) with (sqrt (x * x + y * y)) by (f_equal; unfold x, y; ring) end. field. lra.
    + apply is_derive_ext with (fun t => ang y (t - ox)); [intros; reflexivity|].
      apply (is_derive_shift (fun t => ang y t)). apply ang_dx. auto.
    + apply is_derive_ext with (fun t => ang (t - oy) x); [intros; reflexivity|].
      apply (is_derive_shift (fun t => ang t x)). apply ang_dy. auto.
  - simpl. unfold cart_circ_jac, cart_circ_J, determinant2; simpl. fold x y. set (s := sqrt (x * x + y * y)) in *. clearbody s. field_simplify_eq; [|split; [nra|lra]].
    replace (x ^ 2 + y ^ 2) with (x * x + y * y) by ring. rewrite <- SS. ring.
  - intros i j Hi Hj. simpl. unfold cart_circ_Jc, cart_circ_J. fold x y. cbn zeta.
    replace (1 / 2) with (/ 2) by field. rewrite Rpower_sqrt by auto. idx2 i; idx2 j; reflexivity.
Qed.
