(** Proofs about the Czarny mapping (C25). *)
From Coquelicot Require Import Coquelicot.
From Coq Require Import ZifyBool Lra Lia.
From Verif Require Import MappingSpec MathProofs RestrictProofs MappingProofs.
Open Scope R_scope.

Lemma cz_q eps : eps * eps < 4 -> 0 < sqrt (1 - 1 / 4 * eps * eps).
Proof. intros. apply sqrt_lt_R0. lra. Qed.
Lemma cz_xi eps : eps * eps < 4 -> sqrt (1 / (1 - eps * eps * (1 / 4))) = / sqrt (1 - 1 / 4 * eps * eps).
Proof.
  intros. assert (0 < 1 - 1 / 4 * eps * eps) by lra.
  replace (1 / (1 - eps * eps * (1 / 4))) with (/ (1 - 1 / 4 * eps * eps)) by (field; lra).
  symmetry. apply inv_sqrt. auto.
Qed.
Lemma cz_s c p : cz_admissible c p ->
  0 < sqrt (cz_eps c * (cz_eps c + 2 * p 0%nat * cos (p 1%nat)) + 1) < 2.
Proof.
  intros (_ & _ & _ & A & B). split; [apply sqrt_lt_R0; lra|].
  replace 2 with (sqrt 4) at 2. apply sqrt_lt_1; lra. replace 4 with (2 * 2) by ring. apply sqrt_square. lra.
Qed.
Lemma sqrt_comm c r t : sqrt (1 + cz_eps c * (cz_eps c + 2 * r * cos t)) = sqrt (cz_eps c * (cz_eps c + 2 * r * cos t) + 1).
Proof. f_equal. ring. Qed.

Lemma cz_jacobian c p : cz_admissible c p -> jacobian_ok 2 (czarny c) p.
Proof.
  intros A. pose proof (cz_s c p A) as S. destruct A as (E0 & E4 & Ee & AB).
  pose proof (cz_q _ E4) as Q. pose proof (cz_xi _ E4) as X.
  split; [|split].
  - intros i j Hi Hj. apply is_derive_Reals. unfold czarny; cbn [m_apply m_J]. unfold cz_apply, cz_J. cbn zeta. rewrite X.
    set (q := sqrt (1 - 1 / 4 * cz_eps c * cz_eps c)) in *.
    set (s := sqrt (cz_eps c * (cz_eps c + 2 * p 0%nat * cos (p 1%nat)) + 1)) in *.
    idx2 i; idx2 j; cbn [m2 c2]; unfold upd; simpl Nat.eqb; cbn iota;
      (auto_derive; [repeat split; auto; try (unfold s in *; lra); try (apply Rmult_integral_contrapositive_currified; unfold s in *; lra)|]);
      fold s; field; lra.
  - unfold czarny; cbn [m_jac m_J det_n]. unfold cz_jac, cz_J, determinant2; cbn zeta. cbn [m2 c2]. rewrite X, sqrt_comm.
    set (q := sqrt (1 - 1 / 4 * cz_eps c * cz_eps c)) in *.
    set (s := sqrt (cz_eps c * (cz_eps c + 2 * p 0%nat * cos (p 1%nat)) + 1)) in *. clearbody q s.
    pose proof (cs1 (p 1%nat)) as CS.
    field_simplify_eq; [|lra]. replace (cos (p 1%nat) ^ 2) with (cos (p 1%nat) * cos (p 1%nat)) by ring. rewrite CS. ring.
  - intros i j Hi Hj. idx2 i; idx2 j; reflexivity.
Qed.
Lemma cz_inverse c p : cz_admissible c p -> tiny <= p 0%nat -> inv_jacobian_ok 2 (czarny c) p.
Proof.
  intros A Hr. pose proof (cz_s c p A) as S. destruct A as (E0 & E4 & Ee & AB).
  pose proof (cz_q _ E4) as Q. pose proof (cz_xi _ E4) as X. pose proof tiny_pos.
  unfold inv_jacobian_ok, czarny; cbn [m_invJ m_invJc m_J]. unfold cz_invJ, cz_invJc. cbn zeta.
  destruct (Rle_dec tiny (p 0%nat)) as [_|]; [|lra]. eexists. split; [reflexivity|]. split.
  - unfold cz_J. cbn zeta. rewrite X, sqrt_comm.
    set (q := sqrt (1 - 1 / 4 * cz_eps c * cz_eps c)) in *.
    set (s := sqrt (cz_eps c * (cz_eps c + 2 * p 0%nat * cos (p 1%nat)) + 1)) in *. clearbody q s.
    pose proof (cs1 (p 1%nat)) as CS.
    split; intros i j Hi Hj; idx2 i; idx2 j; unfold mmul; cbn [Rsum m2 c2];
      (match goal with |- _ = ?r => let r' := eval cbn in r in change r with r' end);
      (field_simplify_eq; [|lra]);
      try (replace (cos (p 1%nat) ^ 2) with (cos (p 1%nat) * cos (p 1%nat)) by ring; rewrite CS); ring.
  - intros i j Hi Hj. idx2 i; idx2 j; reflexivity.
Qed.
(** the usual parameters *)
Lemma cz_admissible_disc c p : 0 < cz_eps c < 1 -> 0 < cz_e c -> 0 <= p 0%nat <= 1 -> cz_admissible c p.
Proof.
  intros He Hc Hr. unfold cz_admissible. pose proof (COS_bound (p 1%nat)) as [C1 C2].
  assert (M : -1 <= p 0%nat * cos (p 1%nat) <= 1) by nra.
  assert (M2 : - cz_eps c <= cz_eps c * (p 0%nat * cos (p 1%nat)) <= cz_eps c) by nra.
  assert (0 < (1 - cz_eps c) * (1 - cz_eps c)) by (apply Rmult_lt_0_compat; lra).
  repeat split; try lra; try nra.
Qed.
(** the O-point is the image of every point with r = 0 *)
Lemma cz_opoint c t : same_coord 2 (m_apply (czarny c) (c2 0 t)) (cz_o_point c).
Proof.
  intros i Hi. unfold czarny; cbn [m_apply]. unfold cz_apply, cz_o_point; cbn zeta. idx2 i; cbn [c2].
  - replace (cz_eps c * (cz_eps c + 2 * 0 * cos t) + 1) with (cz_eps c * cz_eps c + 1) by ring. reflexivity.
  - unfold Rdiv. ring.
Qed.

Lemma ang_scale k y x : 0 < k -> ang (k * y) (k * x) = ang y x.
Proof.
  intros Hk. set (t := ang y x). destruct (ang_polar x y) as [A B]. fold t in A, B.
  assert (0 <= sqrt (x * x + y * y)) by apply sqrt_pos. destruct (Req_dec (sqrt (x * x + y * y)) 0) as [Z|Z].
  - rewrite Z in A, B. rewrite Rmult_0_l in A, B. subst x y. unfold t. rewrite !Rmult_0_r. reflexivity.
  - replace (k * y) with (k * sqrt (x * x + y * y) * sin t) by (rewrite Rmult_assoc, B; reflexivity).
    replace (k * x) with (k * sqrt (x * x + y * y) * cos t) by (rewrite Rmult_assoc, A; reflexivity). apply ang_cos_sin; [|apply ang_range].
    apply Rmult_lt_0_compat; lra.
Qed.
Lemma cart_cz_ang c p :
  cart_cz_apply c p =
    let x := p 0%nat - cz_ox c in let y := p 1%nat - cz_oy c in
    let ex := 1 + cz_eps c * x in let ex2 := cz_eps c * x * x - 2 * x - cz_eps c in
    let xi2 := 1 / (1 - cz_eps c * cz_eps c * (1 / 4)) in
    c2 (sqrt (y * y * ex * ex / (cz_e c * cz_e c * xi2) + ex2 * ex2 * (1 / 4)))
       (ang (2 * y * ex) (cz_e c * sqrt xi2 * ex2)).
Proof. cbn zeta. rewrite ang_alt. reflexivity. Qed.
Lemma cz_left_inverse c p : cz_admissible c p -> 0 < p 0%nat -> 0 <= p 1%nat < 2 * PI ->
  same_coord 2 (cart_cz_apply c (m_apply (czarny c) p)) p.
Proof.
  intros A Hr Ht. pose proof (cz_s c p A) as S. destruct A as (E0 & E4 & Ee & AB).
  pose proof (cz_q _ E4) as Q. pose proof (cz_xi _ E4) as X.
  assert (QQ : sqrt (1 - 1 / 4 * cz_eps c * cz_eps c) * sqrt (1 - 1 / 4 * cz_eps c * cz_eps c) = 1 - 1 / 4 * cz_eps c * cz_eps c)
    by (apply sqrt_sqrt; lra).
  assert (SS : sqrt (cz_eps c * (cz_eps c + 2 * p 0%nat * cos (p 1%nat)) + 1) *
               sqrt (cz_eps c * (cz_eps c + 2 * p 0%nat * cos (p 1%nat)) + 1)
               = cz_eps c * (cz_eps c + 2 * p 0%nat * cos (p 1%nat)) + 1) by (apply sqrt_sqrt; lra).
  intros i Hi. rewrite cart_cz_ang. cbn zeta. rewrite X. unfold czarny; cbn [m_apply]. unfold cz_apply; cbn zeta; cbn [c2].
  set (q := sqrt (1 - 1 / 4 * cz_eps c * cz_eps c)) in *.
  set (s := sqrt (cz_eps c * (cz_eps c + 2 * p 0%nat * cos (p 1%nat)) + 1)) in *.
  set (r := p 0%nat) in *. set (t := p 1%nat) in *. set (eps := cz_eps c) in *. set (e := cz_e c) in *.
  clearbody q s.
  replace ((1 - s) / eps + cz_ox c - cz_ox c) with ((1 - s) / eps) by ring.
  replace (e * r * sin t / (q * (2 - s)) + cz_oy c - cz_oy c) with (e * r * sin t / (q * (2 - s))) by ring.
  replace (1 + eps * ((1 - s) / eps)) with (2 - s) by (field; lra).
  replace (eps * ((1 - s) / eps) * ((1 - s) / eps) - 2 * ((1 - s) / eps) - eps) with (2 * r * cos t).
  2:{ replace (eps * ((1 - s) / eps) * ((1 - s) / eps) - 2 * ((1 - s) / eps) - eps) with ((s * s - 1 - eps * eps) / eps) by (field; lra).
      rewrite SS. field. lra. }
  replace (1 / (1 - eps * eps * (1 / 4))) with (/ (q * q)) by (rewrite QQ; field; lra).
  idx2 i; cbn [c2].
  - replace (e * r * sin t / (q * (2 - s)) * (e * r * sin t / (q * (2 - s))) * (2 - s) * (2 - s) / (e * e * / (q * q)) + 2 * r * cos t * (2 * r * cos t) * (1 / 4))
      with (r * r * (sin t * sin t + cos t * cos t)) by (field; lra).
    rewrite cs1. replace (r * r * (sin t * sin t + (1 - sin t * sin t))) with (r * r) by ring. apply sqrt_square. exact (Rlt_le _ _ Hr).
  - replace (2 * (e * r * sin t / (q * (2 - s))) * (2 - s)) with (2 * e * r / q * sin t) by (field; lra).
    replace (e * / q * (2 * r * cos t)) with (2 * e * r / q * cos t) by (field; lra).
    apply ang_cos_sin; auto. apply Rdiv_lt_0_compat; auto. repeat apply Rmult_lt_0_compat; lra.
Qed.
Lemma cz_right_inverse c p :
  0 < cz_eps c -> cz_eps c * cz_eps c < 4 -> 0 < cz_e c ->
  -1 < cz_eps c * (p 0%nat - cz_ox c) <= 1 ->
  same_coord 2 (m_apply (czarny c) (cart_cz_apply c p)) p.
Proof.
  intros E0 E4 Ee Hx. pose proof (cz_q _ E4) as Q. pose proof (cz_xi _ E4) as X.
  assert (QQ : sqrt (1 - 1 / 4 * cz_eps c * cz_eps c) * sqrt (1 - 1 / 4 * cz_eps c * cz_eps c) = 1 - 1 / 4 * cz_eps c * cz_eps c)
    by (apply sqrt_sqrt; lra).
  intros i Hi. rewrite cart_cz_ang. cbn zeta. rewrite X. unfold czarny; cbn [m_apply]. unfold cz_apply; cbn zeta; cbn [c2].
  set (q := sqrt (1 - 1 / 4 * cz_eps c * cz_eps c)) in *.
  set (x := p 0%nat - cz_ox c) in *. set (y := p 1%nat - cz_oy c) in *. set (eps := cz_eps c) in *. set (e := cz_e c) in *.
  replace (1 / (1 - eps * eps * (1 / 4))) with (/ (q * q)) by (rewrite QQ; field; lra).
  set (ex := 1 + eps * x) in *. set (ex2 := eps * x * x - 2 * x - eps) in *.
  set (a := ex2 / 2). set (b := y * ex * q / e).
  replace (2 * y * ex) with (2 * e / q * b) by (unfold b; field; lra).
  replace (e * / q * ex2) with (2 * e / q * a) by (unfold a; field; lra).
  rewrite ang_scale by (apply Rdiv_lt_0_compat; lra).
  replace (y * y * ex * ex / (e * e * / (q * q)) + ex2 * ex2 * (1 / 4)) with (a * a + b * b) by (unfold a, b; field; lra).
  destruct (ang_polar a b) as [A B]. rewrite (Rmult_assoc 2), A, (Rmult_assoc e), B.
  assert (SQ : sqrt (eps * (eps + 2 * a) + 1) = 1 - eps * x).
  { replace (eps * (eps + 2 * a) + 1) with ((1 - eps * x) * (1 - eps * x)) by (unfold a, ex2; field). apply sqrt_square. lra. }
  rewrite SQ. idx2 i; cbn [c2].
  - replace (p 0%nat) with (x + cz_ox c) by (unfold x; ring). field. lra.
  - replace (p 1%nat) with (y + cz_oy c) by (unfold y; ring). unfold b, ex. field. lra.
Qed.
