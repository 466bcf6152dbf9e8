(** Proofs about combined mappings (C47) and one dimensional transformations (C48). *)
From Coquelicot Require Import Coquelicot.
From Coq Require Import ZifyBool Lra Lia.
From Verif Require Import MappingSpec MathProofs RestrictProofs MappingProofs MappingCzarny MappingCyl MappingVec.
Open Scope R_scope.

Lemma comb_inverse n m1 inv2 c : invertible_at n m1 c -> invertible_at n inv2 c ->
  exists K J, comb_nonsing n m1 inv2 c = Ok K /\ comb_J n m1 inv2 c = Ok J /\ inverse_of n K J.
Proof.
  intros (K1 & E1 & L1 & R1) (K2 & E2 & L2 & R2). unfold comb_nonsing, comb_J. rewrite E1, E2. cbn [bind].
  do 2 eexists. repeat split.
  - apply (id_product n (m_J inv2 c) K1 (m_J m1 c) K2); auto.
  - apply (id_product n (m_J m1 c) K2 (m_J inv2 c) K1); auto.
Qed.
Lemma comb_inverse_arg n m1 m2 p : invertible_at n m2 p -> invertible_at n m1 (m_apply m2 p) ->
  exists K, comb_invJ_arg n m1 m2 p = Ok K /\ inverse_of n K (comb_J_arg n m1 m2 p).
Proof.
  intros (K2 & E2 & L2 & R2) (K1 & E1 & L1 & R1). unfold comb_invJ_arg, comb_J_arg. rewrite E1, E2. cbn [bind].
  eexists. repeat split.
  - apply (id_product n K2 K1 (m_J m1 (m_apply m2 p)) (m_J m2 p)); auto.
  - apply (id_product n (m_J m1 (m_apply m2 p)) (m_J m2 p) K2 K1); auto.
Qed.
Lemma det2_mul A B : determinant2 (mmul 2 A B) = determinant2 A * determinant2 B.
Proof. unfold determinant2, mmul; cbn [Rsum]. ring. Qed.
Lemma det2_id I : is_identity 2 I -> determinant2 I = 1.
Proof. intros H. unfold determinant2. rewrite !H by lia. cbn. ring. Qed.
Lemma det3_mul A B : determinant3 (mmul 3 A B) = determinant3 A * determinant3 B.
Proof. unfold determinant3, mmul; cbn [Rsum]. ring. Qed.
Lemma det3_id I : is_identity 3 I -> determinant3 I = 1.
Proof. intros H. unfold determinant3. rewrite !H by lia. cbn. ring. Qed.
Lemma comb_jac_quotient n m1 inv2 c : n = 2%nat \/ n = 3%nat -> invertible_at n inv2 c ->
  exists d, comb_jac n m1 inv2 c = Ok d /\ det_n n (m_J inv2 c) <> 0 /\ d = det_n n (m_J m1 c) / det_n n (m_J inv2 c).
Proof.
  intros Hn (K & E & L & R). unfold comb_jac, comb_J. rewrite E. cbn [bind]. eexists. split; [reflexivity|].
  change (mat_mul n (m_J m1 c) K) with (mmul n (m_J m1 c) K).
  destruct Hn; subst n; cbn [det_n].
  - rewrite det2_mul. apply det2_id in L. rewrite det2_mul in L.
    assert (N : determinant2 (m_J inv2 c) <> 0) by (intros C; rewrite C, Rmult_0_r in L; lra).
    split; auto. apply Rmult_eq_reg_r with (determinant2 (m_J inv2 c)); auto. rewrite Rmult_assoc, L. field. auto.
  - rewrite det3_mul. apply det3_id in L. rewrite det3_mul in L.
    assert (N : determinant3 (m_J inv2 c) <> 0) by (intros C; rewrite C, Rmult_0_r in L; lra).
    split; auto. apply Rmult_eq_reg_r with (determinant3 (m_J inv2 c)); auto. rewrite Rmult_assoc, L. field. auto.
Qed.

(** ** The pseudo-Cartesian domain of a circular mapping *)
Lemma circ_invertible ox oy p : tiny <= Rabs (p 0%nat) -> invertible_at 2 (circular ox oy) p.
Proof. intros H. destruct (helper_user 2 (circular ox oy) p eq_refl (circ_inverse ox oy p H)) as (K & A & B & _). exists K. auto. Qed.
Lemma cz_invertible c p : cz_admissible c p -> tiny <= p 0%nat -> invertible_at 2 (czarny c) p.
Proof. intros H H2. destruct (helper_user 2 (czarny c) p eq_refl (cz_inverse c p H H2)) as (K & A & B & _). exists K. auto. Qed.

Lemma comb_circ_identity ox oy ox' oy' c : tiny <= Rabs (c 0%nat) ->
  exists K, comb_nonsing 2 (circular ox oy) (circular ox' oy') c = Ok K /\ is_identity 2 K.
Proof.
  intros H. destruct (circ_invertible ox oy c H) as (K & E & L & R). unfold comb_nonsing. rewrite E. cbn [bind].
  eexists. split; [reflexivity|]. exact R.
Qed.
Lemma comb_circ_invJ ox oy ox' oy' eps c : tiny <= eps -> (eps <= c 0%nat \/ 0 <= c 0%nat) ->
  exists K, comb_invJ 2 eps o_point_circ (circular ox oy) (circular ox' oy') c = Ok K /\ is_identity 2 K.
Proof.
  intros He Hc. pose proof tiny_pos. unfold comb_invJ. cbn zeta. destruct (Rlt_dec (c 0%nat) eps) as [Hr|Hr].
  - destruct (comb_circ_identity ox oy ox' oy' (c2 eps (c 1%nat))) as (K & E & I); [cbn [c2]; rewrite Rabs_right; lra|].
    rewrite E. cbn [bind]. eexists. split; [reflexivity|]. intros i j Hi Hj. rewrite I by auto.
    idx2 i; idx2 j; cbn; field; lra.
  - apply comb_circ_identity. rewrite Rabs_right; lra.
Qed.

(** ** The pseudo-Cartesian domain of a Czarny mapping *)
(** the composed map written without polar coordinates *)
Definition pc_cz (c : czarny_par) (X Y : R) : nat -> R :=
  let s := sqrt (cz_eps c * (cz_eps c + 2 * X) + 1) in
  c2 ((1 - s) / cz_eps c + cz_ox c) (cz_e c * Y / (sqrt (1 - 1 / 4 * cz_eps c * cz_eps c) * (2 - s)) + cz_oy c).
Lemma comb_cz_closed c q : comb_apply (czarny c) (cart_circ 0 0) q = pc_cz c (q 0%nat) (q 1%nat).
Proof.
  unfold comb_apply, czarny, cart_circ; cbn [m_apply]. rewrite cart_circ_ang. rewrite !Rminus_0_r.
  destruct (ang_polar (q 0%nat) (q 1%nat)) as [A B]. unfold cz_apply, pc_cz; cbn zeta; cbn [c2].
  rewrite (Rmult_assoc 2), A, (Rmult_assoc (cz_e c)), B. reflexivity.
Qed.
(** its partial derivatives *)
Definition pc_cz_D (c : czarny_par) (X Y : R) : nat -> nat -> R :=
  let s := sqrt (cz_eps c * (cz_eps c + 2 * X) + 1) in let q := sqrt (1 - 1 / 4 * cz_eps c * cz_eps c) in
  m2 (- / s) 0 (cz_e c * cz_eps c * Y / (q * s * (2 - s) * (2 - s))) (cz_e c / (q * (2 - s))).
Definition pc_ok (c : czarny_par) (X : R) : Prop :=
  0 < cz_eps c /\ cz_eps c * cz_eps c < 4 /\ 0 < cz_e c /\ 0 < cz_eps c * (cz_eps c + 2 * X) + 1 < 4.
Lemma pc_s c X : pc_ok c X -> 0 < sqrt (cz_eps c * (cz_eps c + 2 * X) + 1) < 2.
Proof.
  intros (_ & _ & _ & A & B). split; [apply sqrt_lt_R0; lra|].
  replace 2 with (sqrt 4) at 2. apply sqrt_lt_1; lra. replace 4 with (2 * 2) by ring. apply sqrt_square. lra.
Qed.
Lemma pc_cz_partials c q : pc_ok c (q 0%nat) ->
  partials 2 (comb_apply (czarny c) (cart_circ 0 0)) q (pc_cz_D c (q 0%nat) (q 1%nat)).
Proof.
  intros A. pose proof (pc_s c _ A) as S. destruct A as (E0 & E4 & Ee & AB). pose proof (cz_q _ E4) as Q.
  intros i j Hi Hj. apply is_derive_Reals.
  apply is_derive_ext with (fun t => pc_cz c (upd q j t 0%nat) (upd q j t 1%nat) i); [intros; rewrite comb_cz_closed; reflexivity|].
  unfold pc_cz, pc_cz_D; cbn zeta.
  set (qq := sqrt (1 - 1 / 4 * cz_eps c * cz_eps c)) in *.
  set (s := sqrt (cz_eps c * (cz_eps c + 2 * q 0%nat) + 1)) in *.
  idx2 i; idx2 j; cbn [m2 c2]; unfold upd; simpl Nat.eqb; cbn iota;
      (auto_derive; [repeat split; auto; try (unfold s in *; lra); try (apply Rmult_integral_contrapositive_currified; unfold s in *; lra)|]);
      fold s; field; lra.
Qed.
Lemma pc_cz_D_unique c q D : pc_ok c (q 0%nat) -> partials 2 (comb_apply (czarny c) (cart_circ 0 0)) q D ->
  forall i j, (i < 2)%nat -> (j < 2)%nat -> D i j = pc_cz_D c (q 0%nat) (q 1%nat) i j.
Proof.
  intros A B i j Hi Hj. eapply uniqueness_limite; [apply B; auto|]. apply pc_cz_partials; auto.
Qed.
(** off the axis the Jacobian matrix is the matrix of partial derivatives at the pseudo-Cartesian point *)
Lemma comb_cz_J c p : cz_admissible c p -> tiny <= p 0%nat ->
  exists J, comb_J 2 (czarny c) (circular 0 0) p = Ok J /\
    partials 2 (comb_apply (czarny c) (cart_circ 0 0)) (m_apply (circular 0 0) p) J.
Proof.
  intros A Hr. pose proof tiny_pos. assert (Ha : tiny <= Rabs (p 0%nat)) by (rewrite Rabs_right; lra).
  unfold comb_J, inverse_jacobian_matrix. cbn [m_has_inv circular m_invJ]. unfold circ_invJ.
  destruct (Rle_dec tiny (Rabs (p 0%nat))) as [_|]; [|lra]. cbn [bind].
  eexists. split; [reflexivity|].
  set (q := m_apply (circular 0 0) p).
  assert (Q0 : q 0%nat = p 0%nat * cos (p 1%nat)) by (unfold q, circular, circ_apply; cbn; ring).
  assert (Q1 : q 1%nat = p 0%nat * sin (p 1%nat)) by (unfold q, circular, circ_apply; cbn; ring).
  assert (PO : pc_ok c (q 0%nat)).
  { destruct A as (? & ? & ? & ?). repeat split; auto; rewrite Q0; lra. }
  pose proof (pc_s c _ PO) as S. pose proof (cz_xi (cz_eps c)) as X. destruct PO as (E0 & E4 & Ee & AB).
  specialize (X E4). pose proof (cz_q _ E4) as Qp.
  intros i j Hi Hj. replace (mat_mul 2 _ _ i j) with (pc_cz_D c (q 0%nat) (q 1%nat) i j); [apply pc_cz_partials; repeat split; auto; lra|].
  unfold mat_mul, czarny, cz_J, pc_cz_D; cbn [m_J Rsum]. cbn zeta. rewrite X.
  replace (cz_eps c * (cz_eps c + 2 * p 0%nat * cos (p 1%nat)) + 1) with (cz_eps c * (cz_eps c + 2 * q 0%nat) + 1) by (rewrite Q0; ring).
  set (s := sqrt (cz_eps c * (cz_eps c + 2 * q 0%nat) + 1)) in *.
  set (qq := sqrt (1 - 1 / 4 * cz_eps c * cz_eps c)) in *. rewrite Q1. clearbody s qq.
  pose proof (cs1 (p 1%nat)) as CS.
  idx2 i; idx2 j; cbn [m2 c2]; (field_simplify_eq; [|lra]);
    try (replace (cos (p 1%nat) ^ 2) with (cos (p 1%nat) * cos (p 1%nat)) by ring; rewrite CS); ring.
Qed.
(** at the O-point the constant matrix is the exact inverse of the partial derivatives at the origin *)
Lemma opoint_cz_inverse c : 0 < cz_eps c -> cz_eps c * cz_eps c < 3 -> 0 < cz_e c ->
  exists D, partials 2 (comb_apply (czarny c) (cart_circ 0 0)) (c2 0 0) D /\ inverse_of 2 (o_point_cz c) D.
Proof.
  intros E0 E3 Ee. assert (PO : pc_ok c 0) by (unfold pc_ok; repeat split; auto; nra).
  pose proof (pc_s c _ PO) as S. pose proof (pc_cz_partials c (c2 0 0) PO) as D.
  exists (pc_cz_D c 0 0). split; [exact D|].
  assert (E4 : cz_eps c * cz_eps c < 4) by lra. pose proof (cz_q _ E4) as Q. pose proof (cz_xi _ E4) as X.
  unfold o_point_cz, pc_cz_D; cbn zeta. rewrite X.
  replace (1 + cz_eps c * cz_eps c) with (cz_eps c * (cz_eps c + 2 * 0) + 1) by ring.
  set (s := sqrt (cz_eps c * (cz_eps c + 2 * 0) + 1)) in *. set (qq := sqrt (1 - 1 / 4 * cz_eps c * cz_eps c)) in *. clearbody s qq.
  split; intros i j Hi Hj; unfold mmul; cbn [Rsum]; idx2 i; idx2 j; cbn [m2 c2 Nat.eqb]; field; lra.
Qed.
Lemma comb_cz_invJ c eps p : tiny <= eps -> cz_admissible c (c2 eps (p 1%nat)) -> 
  (* at the axis, and from eps on *)
  (p 0%nat = 0 -> exists K, comb_invJ 2 eps (o_point_cz c) (czarny c) (circular 0 0) p = Ok K /\ forall i j, K i j = o_point_cz c i j) /\
  (eps <= p 0%nat -> cz_admissible c p ->
     exists K J, comb_invJ 2 eps (o_point_cz c) (czarny c) (circular 0 0) p = Ok K /\
       partials 2 (comb_apply (czarny c) (cart_circ 0 0)) (m_apply (circular 0 0) p) J /\ inverse_of 2 K J) /\
  (0 <= p 0%nat < eps ->
     exists K Ke, comb_invJ 2 eps (o_point_cz c) (czarny c) (circular 0 0) p = Ok K /\
       comb_invJ 2 eps (o_point_cz c) (czarny c) (circular 0 0) (c2 eps (p 1%nat)) = Ok Ke /\
       forall i j, K i j = (1 - p 0%nat / eps) * o_point_cz c i j + p 0%nat / eps * Ke i j).
Proof.
  intros He Ae. pose proof tiny_pos.
  assert (I1 : invertible_at 2 (czarny c) (c2 eps (p 1%nat))) by (apply cz_invertible; auto).
  assert (I2 : invertible_at 2 (circular 0 0) (c2 eps (p 1%nat))) by (apply circ_invertible; cbn [c2]; rewrite Rabs_right; lra).
  destruct (comb_inverse 2 _ _ _ I1 I2) as (Ke & Je & EK & EJ & _). unfold comb_invJ; cbn zeta.
  split; [|split].
  - intros Z. rewrite Z. destruct (Rlt_dec 0 eps) as [_|]; [|lra]. rewrite EK. cbn [bind]. eexists. split; [reflexivity|].
    intros i j. unfold Rdiv. rewrite Rmult_0_l. ring.
  - intros Hr Ap. destruct (Rlt_dec (p 0%nat) eps) as [|_]; [lra|].
    assert (Hp : tiny <= p 0%nat) by lra.
    assert (I1' : invertible_at 2 (czarny c) p) by (apply cz_invertible; auto).
    assert (I2' : invertible_at 2 (circular 0 0) p) by (apply circ_invertible; rewrite Rabs_right; lra).
    destruct (comb_inverse 2 _ _ _ I1' I2') as (K & J & E1 & E2 & I). exists K, J.
    destruct (comb_cz_J c p Ap Hp) as (J' & E2' & P). rewrite E2 in E2'. injection E2' as <-. auto.
  - intros Hr. cbn [c2]. destruct (Rlt_dec (p 0%nat) eps) as [_|]; [|lra]. destruct (Rlt_dec eps eps) as [|_]; [lra|].
    rewrite EK. cbn [bind]. do 2 eexists. repeat split.
Qed.
(** chain rule for a combination evaluated at the argument *)
Lemma comb_chain m1 m2 p :
  well_typed 2 m1 -> well_typed 2 m2 ->
  (forall i, (i < 2)%nat -> differentiable_pt_lim (fun x y => m_apply m1 (c2 x y) i) (m_apply m2 p 0%nat) (m_apply m2 p 1%nat)
       (m_J m1 (m_apply m2 p) i 0%nat) (m_J m1 (m_apply m2 p) i 1%nat)) ->
  partials 2 (m_apply m2) p (m_J m2 p) ->
  partials 2 (comb_apply m1 m2) p (comb_J_arg 2 m1 m2 p).
Proof.
  intros X X2 D1 D2 i j Hi Hj. specialize (D1 i Hi).
  apply derivable_pt_lim_ext with (fun t => m_apply m1 (c2 (m_apply m2 (upd p j t) 0%nat) (m_apply m2 (upd p j t) 1%nat)) i).
  { intros t. unfold comb_apply. apply X; auto. intros k Hk. idx2 k; reflexivity. }
  unfold comb_J_arg, mat_mul; cbn [Rsum].
  replace (0 + m_J m1 (m_apply m2 p) i 0%nat * m_J m2 p 0%nat j + m_J m1 (m_apply m2 p) i 1%nat * m_J m2 p 1%nat j)
    with (m_J m1 (m_apply m2 p) i 0%nat * m_J m2 p 0%nat j + m_J m1 (m_apply m2 p) i 1%nat * m_J m2 p 1%nat j) by ring.
  assert (P : same_coord 2 (m_apply m2 (upd p j (p j))) (m_apply m2 p)).
  { apply X2. intros k Hk. unfold upd. destruct (Nat.eqb_spec k j); subst; auto. }
  apply (derivable_pt_lim_comp_2d (fun x y => m_apply m1 (c2 x y) i) (fun t => m_apply m2 (upd p j t) 0%nat) (fun t => m_apply m2 (upd p j t) 1%nat)).
  - rewrite (P 0%nat), (P 1%nat) by lia. exact D1.
  - apply D2; lia.
  - apply D2; lia.
Qed.

(** ** Well typed mappings *)
Lemma circ_typed ox oy : well_typed 2 (circular ox oy).
Proof. intros q r H i Hi. unfold circular, circ_apply; cbn [m_apply]. rewrite (H 0%nat), (H 1%nat) by lia. reflexivity. Qed.
Lemma cz_typed c : well_typed 2 (czarny c).
Proof. intros q r H i Hi. unfold czarny, cz_apply; cbn [m_apply]; cbn zeta. rewrite (H 0%nat), (H 1%nat) by lia. reflexivity. Qed.
Lemma cart_circ_typed ox oy : well_typed 2 (cart_circ ox oy).
Proof. intros q r H i Hi. unfold cart_circ, cart_circ_apply; cbn [m_apply]; cbn zeta. rewrite (H 0%nat), (H 1%nat) by lia. reflexivity. Qed.

(** ** Linear transformation *)
Lemma linear_derivative l x : derivable_pt_lim (linear_apply l) x (linear_jac l).
Proof. apply is_derive_Reals. unfold linear_apply, linear_jac. auto_derive; auto; ring. Qed.
Lemma linear_inverse_ok l x : lt_scale l <> 0 ->
  linear_apply (linear_inverse l) (linear_apply l x) = x /\ linear_apply l (linear_apply (linear_inverse l) x) = x /\
  linear_jac (linear_inverse l) * linear_jac l = 1.
Proof. intros H. unfold linear_apply, linear_inverse, linear_jac; cbn. repeat split; field; auto. Qed.
Lemma linear_reference l : linear_apply l (lt_in l) = lt_out l.
Proof. unfold linear_apply. ring. Qed.

(** ** Products of two linear transformations *)
Lemma orthogonal_partials o p : partials 2 (ot_apply o) p (ot_J o p).
Proof.
  intros i j Hi Hj. apply is_derive_Reals. unfold ot_apply, ot_J, linear_apply, linear_jac, upd; cbn zeta.
  destruct o as [a b rs as_]; destruct rs, as_; idx2 i; idx2 j; cbn; auto_derive; auto; ring.
Qed.
Lemma orthogonal_det o p : ot_jac o p = det_n 2 (ot_J o p) * (if ot_as o then -1 else 1).
Proof.
  unfold ot_jac, ot_J, linear_jac; destruct o as [a b rs as_]; destruct rs, as_; cbn; unfold determinant2; cbn; ring.
Qed.
Lemma orthogonal_jacobian o p : ot_as o = false -> jacobian_ok 2 (orthogonal_map o) p.
Proof.
  intros H. split; [apply orthogonal_partials|]. split; [cbn [orthogonal_map m_jac m_J]; rewrite orthogonal_det, H; ring|].
  intros i j Hi Hj. unfold orthogonal_map; cbn [m_Jc m_J]; unfold ot_Jc, ot_J. rewrite !(proj2 (Nat.ltb_lt _ _)) by auto. cbn [andb]; cbn zeta.
  destruct (Nat.eqb_spec (ot_pos (ot_rs o) i) (ot_pos (ot_as o) j)) as [->|]; reflexivity.
Qed.
Lemma orthogonal_inverse o p : lt_scale (ot_0 o) <> 0 -> lt_scale (ot_1 o) <> 0 ->
  same_coord 2 (ot_apply (ot_inverse o) (ot_apply o p)) p /\ same_coord 2 (ot_apply o (ot_apply (ot_inverse o) p)) p.
Proof.
  intros A B. destruct o as [a b rs as_]; cbn in A, B. split; intros i Hi; destruct rs, as_; idx2 i; unfold ot_apply, linear_apply, ot_inverse; cbn; field; auto.
Qed.
Lemma orthogonal_swapped : exists o p, m_jac (orthogonal_map o) p <> det_n 2 (m_J (orthogonal_map o) p).
Proof.
  exists {| ot_0 := {| lt_in := 0; lt_out := 0; lt_scale := 2 |}; ot_1 := {| lt_in := 0; lt_out := 0; lt_scale := 3 |}; ot_rs := false; ot_as := true |}, (c2 0 0).
  cbn. unfold determinant2, ot_jac, ot_J, linear_jac; cbn. lra.
Qed.

(** ** Additional statements used by the properties *)
Lemma cart_circ_range ox oy p :
  0 <= m_apply (cart_circ ox oy) p 0%nat /\ 0 <= m_apply (cart_circ ox oy) p 1%nat < 2 * PI.
Proof. cbn [cart_circ m_apply]. rewrite cart_circ_ang. cbn [c2]. split; [apply sqrt_pos|apply ang_range]. Qed.
Lemma tiny_lt x : 1 / 2 <= x -> tiny <= x.
Proof. intros H. unfold tiny. apply Rle_trans with (/ 2); [|lra]. apply Rinv_le_contravar; [lra|]. simpl. lra. Qed.
Lemma circ_example : tiny <= Rabs (c2 2 0 0%nat) /\ 0 < c2 2 0 0%nat /\ 0 <= c2 2 0 1%nat < 2 * PI /\
  same_coord 2 (m_apply (circular 1 5) (c2 2 0)) (c2 3 5) /\ same_coord 2 (m_apply (cart_circ 1 5) (c2 3 5)) (c2 2 0).
Proof.
  pose proof PI_RGT_0. assert (A : same_coord 2 (m_apply (circular 1 5) (c2 2 0)) (c2 3 5)).
  { intros i Hi. idx2 i; cbn; unfold circ_apply; cbn; rewrite ?cos_0, ?sin_0; ring. }
  repeat split; cbn [c2]; try lra; [rewrite Rabs_right by lra; apply tiny_lt; lra|auto|].
  intros i Hi. rewrite <- (cart_circ_typed 1 5 _ _ A i Hi). apply circ_left_inverse; auto; cbn [c2]; lra.
Qed.
Lemma cz_example : cz_admissible {| cz_eps := 3 / 10; cz_e := 14 / 10; cz_ox := 0; cz_oy := 0 |} (c2 (1 / 2) 1) /\
  tiny <= c2 (1 / 2) 1 0%nat.
Proof. split; [apply cz_admissible_disc; cbn; lra|]. cbn. apply tiny_lt. lra. Qed.
Lemma tor_example : forall phi, jacobian_ok 3 (toroidal (circular 3 0)) (c3 1 2 phi) /\
  inv_jacobian_ok 3 (toroidal (circular 3 0)) (c3 1 2 phi).
Proof.
  intros phi. split; [apply tor_jacobian; [apply circ_jacobian|apply circ_typed]|].
  apply tor_inverse_user; auto. apply circ_inverse. cbn. rewrite Rabs_right by lra. apply tiny_lt; lra.
Qed.
Lemma helper_component_matrix m p : m_has_inv m = false -> jacobian_ok 2 m p ->
  tiny < Rabs (det_n 2 (m_J m p)) ->
  exists K, inverse_jacobian_matrix 2 m p = Ok K /\ inverse_of 2 K (m_J m p) /\
    forall i j, (i < 2)%nat -> (j < 2)%nat -> inverse_jacobian_component 2 m i j p = Ok (K i j).
Proof.
  intros H J D. destruct (helper_generic 2 m p H (or_introl eq_refl) D) as (K & E & I). exists K. repeat split; auto; try apply I.
  intros i j Hi Hj. rewrite (helper_component m p) by auto. unfold inverse_jacobian_matrix in E. rewrite H in E. cbn zeta in E.
  destruct (Rlt_dec tiny (Rabs (det_n 2 (m_J m p)))); [|lra]. injection E as <-. reflexivity.
Qed.
Lemma metric_spec n m p i k :
  metric n m p i k = dot n (fun j => m_J m p j i) (fun j => m_J m p j k) /\ metric n m p i k = metric n m p k i.
Proof. split; [reflexivity|apply metric_sym]. Qed.
Lemma represents_bijection n m p s v : invertible_at n m p ->
  (exists u, represents n (m_J m p) s v u) /\
  (forall w u, represents n (m_J m p) s v u -> represents n (m_J m p) s w u -> same_coord n v w).
Proof. intros I. split; [apply represents_some; auto|]. intros w u. apply represents_unique; auto. Qed.
Lemma curvilinear n m p v : invertible_at n m p ->
  (exists w z, to_vector_space false n m p ArgContra ResContra v = Ok w /\ represents n (m_J m p) ArgContra v w /\
     to_vector_space false n m p ResContra ArgContra w = Ok z /\ same_coord n z v) /\
  (exists w z, to_vector_space false n m p ArgCov ResCov v = Ok w /\ represents n (m_J m p) ArgCov v w /\
     to_vector_space false n m p ResCov ArgCov w = Ok z /\ same_coord n z v).
Proof.
  intros (K & E & L & R). unfold to_vector_space, to_other_basis; cbn. rewrite E. cbn [bind]. split.
  - do 2 eexists. split; [reflexivity|]. split; [intros i Hi; reflexivity|]. split; [reflexivity|]. intros i Hi. unfold mat_vec. apply cancel; auto.
  - do 2 eexists. split; [reflexivity|]. split.
    + intros i Hi. cbn. symmetry. apply (cancel n (tr (m_J m p)) (tr K)); auto. apply id_tr; auto.
    + split; [reflexivity|]. intros i Hi. apply (cancel n (tr (m_J m p)) (tr K)); auto. apply id_tr; auto.
Qed.
Lemma invertible_examples : invertible_at 2 (circular 0 0) (c2 2 1) /\ invertible_at 2 (cart_circ 0 0) (c2 (-2) 1) /\
  invertible_at 3 cylindrical (c3 2 1 1).
Proof.
  split; [|split].
  - apply circ_invertible. cbn. rewrite Rabs_right by lra. apply tiny_lt; lra.
  - apply helper_generic; auto. destruct (cart_circ_jacobian 0 0 (c2 (-2) 1)) as (_ & D & _); [cbn; lra|]. rewrite <- D. cbn.
    unfold cart_circ_jac; cbn. rewrite Rabs_right.
    + unfold tiny. unfold Rdiv. rewrite Rmult_1_l. apply Rinv_lt_contravar.
      * apply Rmult_lt_0_compat; [apply sqrt_lt_R0; lra|apply pow_lt; lra].
      * apply Rle_lt_trans with (sqrt 9); [apply sqrt_le_1; lra|]. replace 9 with (3 * 3) by ring. rewrite sqrt_square by lra. simpl. lra.
    + apply Rle_ge. unfold Rdiv. rewrite Rmult_1_l. left. apply Rinv_0_lt_compat. apply sqrt_lt_R0. lra.
  - destruct (helper_user 3 cylindrical (c3 2 1 1) eq_refl) as (K & A & B & _); [apply cyl_inverse; cbn; rewrite Rabs_right by lra; apply tiny_lt; lra|].
    exists K. auto.
Qed.
Lemma comb_example : invertible_at 2 (czarny {| cz_eps := 3 / 10; cz_e := 14 / 10; cz_ox := 0; cz_oy := 0 |}) (c2 (1 / 2) 1) /\
  invertible_at 2 (circular 0 0) (c2 (1 / 2) 1).
Proof.
  split; [apply cz_invertible; apply cz_example|]. apply circ_invertible. cbn. rewrite Rabs_right by lra. apply tiny_lt; lra.
Qed.
