(** Proofs about the cylindrical, toroidal and barycentric mappings (C26, C27). *)
From Coquelicot Require Import Coquelicot.
From Coq Require Import ZifyBool Lra Lia.
From Verif Require Import MappingSpec MathProofs RestrictProofs MappingProofs.
Open Scope R_scope.

Lemma cyl_jacobian p : jacobian_ok 3 cylindrical p.
Proof.
  split; [|split].
  - intros i j Hi Hj. idx3 i; idx3 j; apply is_derive_Reals; unfold cylindrical; simpl; unfold cyl_apply, upd; simpl;
      auto_derive; auto; ring.
  - unfold cylindrical, cyl_jac, cyl_J; simpl. unfold determinant3; simpl.
    transitivity (- p 0%nat * (cos (p 2%nat) * cos (p 2%nat) + sin (p 2%nat) * sin (p 2%nat))); [rewrite cs1; ring|ring].
  - intros i j Hi Hj. idx3 i; idx3 j; reflexivity.
Qed.
Lemma cyl_inverse p : tiny <= Rabs (p 0%nat) -> inv_jacobian_ok 3 cylindrical p.
Proof.
  intros H. pose proof tiny_pos. assert (R0 : p 0%nat <> 0) by (intros C; rewrite C, Rabs_R0 in H; lra).
  unfold inv_jacobian_ok, cylindrical; simpl. unfold cyl_invJ, cyl_invJc.
  destruct (Rle_dec tiny (Rabs (p 0%nat))) as [_|]; [|lra]. eexists. split; [reflexivity|]. split.
  - pose proof (cs1 (p 2%nat)) as CS. split; intros i j Hi Hj; idx3 i; idx3 j; unfold mmul, cyl_J; simpl;
      field_simplify_eq; auto; simpl; try (ring [CS]); ring_simplify; replace (cos (p 2%nat) ^ 2) with (cos (p 2%nat) * cos (p 2%nat)) by ring; rewrite CS; ring.
  - intros i j Hi Hj. idx3 i; idx3 j; reflexivity.
Qed.
Definition cart_cyl_ok (p : nat -> R) : Prop := p 1%nat <> 0 \/ p 0%nat < 0.
Lemma cart_cyl_ang p :
  cart_cyl_apply p = c3 (sqrt (p 0%nat * p 0%nat + p 1%nat * p 1%nat)) (p 2%nat) (ang (p 1%nat) (p 0%nat)).
Proof. rewrite ang_alt2. reflexivity. Qed.
Lemma cyl_right_inverse p : same_coord 3 (m_apply cylindrical (cart_cyl_apply p)) p.
Proof.
  intros i Hi. rewrite cart_cyl_ang. destruct (ang_polar (p 0%nat) (p 1%nat)) as [A B].
  idx3 i; simpl; unfold cyl_apply; simpl; auto.
Qed.
Lemma cyl_left_inverse p : 0 < p 0%nat -> 0 <= p 2%nat < 2 * PI ->
  same_coord 3 (cart_cyl_apply (m_apply cylindrical p)) p.
Proof.
  intros Hr Ht i Hi. rewrite cart_cyl_ang. simpl. unfold cyl_apply; simpl.
  idx3 i; simpl; [|reflexivity|apply ang_cos_sin; auto].
  replace (p 0%nat * cos (p 2%nat) * (p 0%nat * cos (p 2%nat)) + p 0%nat * sin (p 2%nat) * (p 0%nat * sin (p 2%nat)))
    with (p 0%nat * p 0%nat * (cos (p 2%nat) * cos (p 2%nat) + sin (p 2%nat) * sin (p 2%nat))) by ring.
  rewrite cs1. replace (p 0%nat * p 0%nat * (1 - sin (p 2%nat) * sin (p 2%nat) + sin (p 2%nat) * sin (p 2%nat))) with (p 0%nat * p 0%nat) by ring.
  apply sqrt_square. lra.
Qed.
Lemma cart_cyl_jacobian p : (p 1%nat <> 0 \/ p 0%nat < 0) ->
  (forall i j, (i < 3)%nat -> (j < 3)%nat ->
     derivable_pt_lim (fun t => cart_cyl_apply (upd p j t) i) (p j) (cart_cyl_J p i j)) /\
  cart_cyl_jac p = det_n 3 (cart_cyl_J p).
Proof.
  intros H. pose proof (cart_circ_jacobian 0 0 p) as C.
  assert (H' : p 1%nat <> 0 \/ p 0%nat < 0) by auto. specialize (C H'). destruct C as (D & _ & _).
  pose proof (norm_pos _ _ H) as NP. assert (S : 0 < sqrt (p 0%nat * p 0%nat + p 1%nat * p 1%nat)) by (apply sqrt_lt_R0; auto).
  assert (SS : sqrt (p 0%nat * p 0%nat + p 1%nat * p 1%nat) * sqrt (p 0%nat * p 0%nat + p 1%nat * p 1%nat) = p 0%nat * p 0%nat + p 1%nat * p 1%nat) by (apply sqrt_sqrt; lra).
  split.
  - assert (Z : forall i j, (i < 2)%nat -> (j < 2)%nat ->
       is_derive (fun t => cart_circ_apply 0 0 (upd p j t) i) (p j) (cart_circ_J 0 0 p i j)).
    { intros i j Hi Hj. apply is_derive_Reals. apply D; auto. }
    intros i j Hi Hj. apply is_derive_Reals.
    assert (E : forall q, cart_cyl_apply q = c3 (cart_circ_apply 0 0 q 0%nat) (q 2%nat) (cart_circ_apply 0 0 q 1%nat)).
    { intros q. rewrite cart_cyl_ang, cart_circ_ang. cbn [c2]. rewrite !Rminus_0_r. reflexivity. }
    apply is_derive_ext with (fun t => c3 (cart_circ_apply 0 0 (upd p j t) 0%nat) (upd p j t 2%nat) (cart_circ_apply 0 0 (upd p j t) 1%nat) i).
    { intros t. rewrite E. reflexivity. }
    assert (F : forall k l, (k < 2)%nat -> (l < 2)%nat -> cart_cyl_J p (2 * k)%nat l = cart_circ_J 0 0 p k l).
    { intros k l Hk Hl. unfold cart_circ_J, cart_cyl_J; cbn zeta. rewrite !Rminus_0_r. idx2 k; idx2 l; reflexivity. }
    idx3 i; cbn [c3].
    + idx3 j; [replace (cart_cyl_J p 0%nat 0%nat) with (cart_circ_J 0 0 p 0%nat 0%nat) by (symmetry; apply (F 0%nat 0%nat); lia); apply Z; lia|replace (cart_cyl_J p 0%nat 1%nat) with (cart_circ_J 0 0 p 0%nat 1%nat) by (symmetry; apply (F 0%nat 1%nat); lia); apply Z; lia|].
      apply (is_derive_const (cart_circ_apply 0 0 p 0%nat) (p 2%nat)).
    + idx3 j; [apply (is_derive_const (p 2%nat) _)|apply (is_derive_const (p 2%nat) _)|].
      apply (is_derive_id (p 2%nat)).
    + idx3 j; [replace (cart_cyl_J p 2%nat 0%nat) with (cart_circ_J 0 0 p 1%nat 0%nat) by (symmetry; apply (F 1%nat 0%nat); lia); apply Z; lia|replace (cart_cyl_J p 2%nat 1%nat) with (cart_circ_J 0 0 p 1%nat 1%nat) by (symmetry; apply (F 1%nat 1%nat); lia); apply Z; lia|].
      apply (is_derive_const (cart_circ_apply 0 0 p 1%nat) (p 2%nat)).
  - cbn [det_n]. unfold cart_cyl_jac, cart_cyl_J, determinant3; cbn zeta; cbn [m3 c3].
    set (s := sqrt _) in *. clearbody s.
    transitivity (- (p 0%nat * p 0%nat + p 1%nat * p 1%nat) / (s * (p 0%nat * p 0%nat + p 1%nat * p 1%nat))).
    + rewrite <- SS. field. lra.
    + field. split; [nra|lra].
Qed.

(** ** Toroidal mapping *)
Lemma tor_jacobian m p :
  jacobian_ok 2 m (c2 (p 0%nat) (p 1%nat)) ->
  well_typed 2 m -> jacobian_ok 3 (toroidal m) p.
Proof.
  intros (D & J & C) X. split; [|split].
  - assert (Z : forall i j, (i < 2)%nat -> (j < 2)%nat ->
      is_derive (fun t => m_apply m (c2 (upd p j t 0%nat) (upd p j t 1%nat)) i) (p j) (m_J m (c2 (p 0%nat) (p 1%nat)) i j)).
    { intros i j Hi Hj. specialize (D i j Hi Hj). apply is_derive_Reals in D.
      assert (E : c2 (p 0%nat) (p 1%nat) j = p j) by (idx2 j; reflexivity). rewrite E in D.
      eapply is_derive_ext; [|exact D]. intros t. apply X; auto. intros k Hk. unfold upd. idx2 j; idx2 k; reflexivity. }
    intros i j Hi Hj. apply is_derive_Reals. unfold toroidal; cbn [m_apply m_J]. unfold tor_J; cbn zeta.
    apply is_derive_ext with (fun t => c3 (m_apply m (c2 (upd p j t 0%nat) (upd p j t 1%nat)) 0%nat)
      (m_apply m (c2 (upd p j t 0%nat) (upd p j t 1%nat)) 1%nat) (- upd p j t 2%nat) i); [intros; reflexivity|].
    idx3 i; idx3 j; cbn [c3 m3]; try (apply Z; lia).
    + apply (is_derive_const (m_apply m (c2 (p 0%nat) (p 1%nat)) 0%nat) (p 2%nat)).
    + apply (is_derive_const (m_apply m (c2 (p 0%nat) (p 1%nat)) 1%nat) (p 2%nat)).
    + apply (is_derive_const (- p 2%nat) (p 0%nat)).
    + apply (is_derive_const (- p 2%nat) (p 1%nat)).
    + apply is_derive_ext with (fun t => - t); [intros; reflexivity|]. auto_derive; auto; ring.
  - unfold toroidal; cbn [m_jac m_J det_n]. unfold tor_jac. rewrite J. unfold tor_J, determinant3; cbn zeta; cbn [m3 c3 det_n].
    unfold determinant2. ring.
  - intros i j Hi Hj. unfold toroidal; cbn [m_Jc m_J]. unfold tor_Jc, tor_J; cbn zeta.
    idx3 i; idx3 j; cbn [Nat.eqb Nat.ltb Nat.leb andb orb m3 c3]; try reflexivity; apply C; lia.
Qed.
(** the helper inverts the Jacobian matrix *)
Lemma helper_user n m p : m_has_inv m = true -> inv_jacobian_ok n m p ->
  exists K, inverse_jacobian_matrix n m p = Ok K /\ inverse_of n K (m_J m p) /\
    forall i j, (i < n)%nat -> (j < n)%nat -> inverse_jacobian_component n m i j p = Ok (K i j).
Proof.
  intros H (K & A & B & C). exists K. unfold inverse_jacobian_matrix, inverse_jacobian_component. rewrite H.
  repeat split; auto; try apply B. intros i j Hi Hj. rewrite !(proj2 (Nat.ltb_lt _ _)) by auto. cbn [andb]. apply C; auto.
Qed.
Lemma helper_generic n m p : m_has_inv m = false -> n = 2%nat \/ n = 3%nat -> tiny < Rabs (det_n n (m_J m p)) ->
  exists K, inverse_jacobian_matrix n m p = Ok K /\ inverse_of n K (m_J m p).
Proof.
  intros H Hn Hd. pose proof tiny_pos. unfold inverse_jacobian_matrix. rewrite H. cbn zeta.
  destruct (Rlt_dec tiny (Rabs (det_n n (m_J m p)))) as [_|]; [|lra]. eexists. split; [reflexivity|].
  assert (N : det_n n (m_J m p) <> 0) by (intros C; rewrite C, Rabs_R0 in Hd; lra).
  destruct Hn; subst n; cbn [det_n inverse_n] in *; split;
    [apply inverse2_left|apply inverse2_right|apply inverse3_left|apply inverse3_right]; auto.
Qed.
(** without an inverse of the mapping's own, the components agree with the matrix in two dimensions *)
Lemma helper_component m p : m_has_inv m = false -> jacobian_ok 2 m p -> tiny < Rabs (det_n 2 (m_J m p)) ->
  forall i j, (i < 2)%nat -> (j < 2)%nat ->
  inverse_jacobian_component 2 m i j p = Ok (inverse2 (m_J m p) i j).
Proof.
  intros H (_ & J & C) Hd i j Hi Hj. unfold inverse_jacobian_component. rewrite H, J. cbn [det_n] in *.
  rewrite !(proj2 (Nat.ltb_lt _ _)) by auto. cbn [andb Nat.eqb]. cbn zeta.
  destruct (Rlt_dec tiny (Rabs (determinant2 (m_J m p)))) as [_|]; [|lra].
  idx2 i; idx2 j; cbn [Nat.eqb andb]; rewrite C by lia; cbn [bind]; unfold inverse2, m2; cbn; f_equal; try (field; fail); unfold Rdiv; try ring.
Qed.
Lemma tor_inverse m p :
  (exists K, inverse_jacobian_matrix 2 m (c2 (p 0%nat) (p 1%nat)) = Ok K /\ inverse_of 2 K (m_J m (c2 (p 0%nat) (p 1%nat)))) ->
  exists K, m_invJ (toroidal m) p = Ok K /\ inverse_of 3 K (m_J (toroidal m) p).
Proof.
  intros (K & E & (L & R)). unfold toroidal; cbn [m_invJ m_J]. unfold tor_invJ. rewrite E. cbn [bind].
  eexists. split; [reflexivity|]. unfold tor_J; cbn zeta.
  unfold is_identity, mmul in L, R. cbn [Rsum] in L, R.
  pose proof (L 0 0 ltac:(lia) ltac:(lia))%nat as L00. pose proof (L 0 1 ltac:(lia) ltac:(lia))%nat as L01.
  pose proof (L 1 0 ltac:(lia) ltac:(lia))%nat as L10. pose proof (L 1 1 ltac:(lia) ltac:(lia))%nat as L11.
  pose proof (R 0 0 ltac:(lia) ltac:(lia))%nat as R00. pose proof (R 0 1 ltac:(lia) ltac:(lia))%nat as R01.
  pose proof (R 1 0 ltac:(lia) ltac:(lia))%nat as R10. pose proof (R 1 1 ltac:(lia) ltac:(lia))%nat as R11.
  cbn [Nat.eqb] in *. split; intros i j Hi Hj; unfold mmul; cbn [Rsum]; idx3 i; idx3 j; cbn [m3 c3 Nat.eqb]; lra.
Qed.
Lemma tor_inverse_user m p : m_has_inv m = true -> inv_jacobian_ok 2 m (c2 (p 0%nat) (p 1%nat)) -> inv_jacobian_ok 3 (toroidal m) p.
Proof.
  intros H I. pose proof I as (K0 & A & B & C).
  destruct (tor_inverse m p) as (K & E & F).
  { exists K0. unfold inverse_jacobian_matrix. rewrite H. auto. }
  exists K. split; [auto|]. split; [auto|]. intros i j Hi Hj.
  unfold toroidal in E; cbn [m_invJ] in E. unfold tor_invJ, inverse_jacobian_matrix in E. rewrite H, A in E. cbn [bind] in E.
  injection E as <-. unfold toroidal; cbn [m_invJc]. unfold tor_invJc. rewrite H.
  idx3 i; idx3 j; cbn [Nat.eqb Nat.ltb Nat.leb andb orb m3 c3]; try reflexivity; apply C; lia.
Qed.
(** no tag is accepted by the component accessor of the Cartesian to cylindrical mapping *)
Lemma cart_cyl_component_unusable t : cart_cyl_Jc_tag1_accepted t = false.
Proof. destruct t; reflexivity. Qed.

(** ** Barycentric coordinates *)
Definition tri_area2 (t : bary_triangle) : R :=
  (by2 t - by3 t) * (bx1 t - bx3 t) + (bx3 t - bx2 t) * (by1 t - by3 t).
Lemma bary_sum t p : cart_to_bary t p 0%nat + cart_to_bary t p 1%nat + cart_to_bary t p 2%nat = 1.
Proof. unfold cart_to_bary; cbn zeta; cbn [c3]. ring. Qed.
Lemma bary_right t p : tri_area2 t <> 0 -> same_coord 2 (bary_to_cart t (cart_to_bary t p)) p.
Proof.
  intros H i Hi. unfold tri_area2 in H. idx2 i; unfold bary_to_cart, cart_to_bary; cbn zeta; cbn [c2 c3]; field; auto.
Qed.
Lemma bary_left t p : tri_area2 t <> 0 -> p 0%nat + p 1%nat + p 2%nat = 1 ->
  same_coord 3 (cart_to_bary t (bary_to_cart t p)) p.
Proof.
  intros H S i Hi. assert (E : p 2%nat = 1 - p 0%nat - p 1%nat) by lra. unfold tri_area2 in H.
  idx3 i; unfold bary_to_cart, cart_to_bary; cbn zeta; cbn [c2 c3]; rewrite E; field; auto.
Qed.
Lemma bary_corner t : tri_area2 t <> 0 ->
  same_coord 3 (cart_to_bary t (c2 (bx1 t) (by1 t))) (c3 1 0 0) /\
  same_coord 3 (cart_to_bary t (c2 (bx2 t) (by2 t))) (c3 0 1 0) /\
  same_coord 3 (cart_to_bary t (c2 (bx3 t) (by3 t))) (c3 0 0 1).
Proof.
  intros H. unfold tri_area2 in H. repeat split; intros i Hi; idx3 i; unfold cart_to_bary; cbn zeta; cbn [c2 c3]; field; auto.
Qed.
Lemma area2_eq t : tri_area2 t = area2 t.
Proof. unfold tri_area2, area2. ring. Qed.
