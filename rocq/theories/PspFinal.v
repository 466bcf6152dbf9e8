(** Remaining statements of C70, C71, C73, C74 and C76. *)
From Verif Require Import Lib LagDerivSpec DerivModel QuadModel QuadProofs FemModel FemSolve FemMain FemAsm MathModel RestrictProofs MappingModel MappingCyl
  OnionEval PspModel PspSpec PspBernstein PspProofs PspBasis PspMain PspCor PspTheorems PspPole PspEval.
From Coq Require Import ZifyBool.
Open Scope R_scope.

(** ** Bernstein polynomials *)
Lemma order_bound D i j : (i + j <= D)%nat -> (order_pos D i j < (D + 1) * (D + 2) / 2)%nat.
Proof.
  intros H. unfold order_pos. pose proof (order_pos_half D i ltac:(lia)) as E. set (a := (i * (2 * D + 3 - i) / 2)%nat) in *.
  assert (E2 : (2 * ((D + 1) * (D + 2) / 2) = (D + 1) * (D + 2))%nat).
  { pose proof (order_pos_half D (D + 1) ltac:(lia)) as E3. replace (2 * D + 3 - (D + 1))%nat with (D + 2)%nat in E3 by lia. exact E3. }
  nia.
Qed.
Theorem bernstein_theorem D t p : (D <= 20)%nat ->
  exists vals, bernstein_eval D t p = Ok vals /\ length vals = ((D + 1) * (D + 2) / 2)%nat /\
    (forall i j, (i + j <= D)%nat -> nth (i * (2 * D + 3 - i) / 2 + j) vals 0 =
      INR (fact D) / (INR (fact i) * INR (fact j) * INR (fact (D - i - j)))
        * cart_to_bary t p 0%nat ^ i * cart_to_bary t p 1%nat ^ j * cart_to_bary t p 2%nat ^ (D - i - j)) /\
    fold_right Rplus 0 vals = 1 /\
    ((forall k, (k < 3)%nat -> 0 <= cart_to_bary t p k) -> forall v, In v vals -> 0 <= v).
Proof.
  intros HD. eexists. split; [exact (bernstein_eval_ok D t p HD)|]. cbv zeta. split; [rewrite map_length; apply order_length|]. split; [|split].
  - intros i j H. set (f := fun ij : nat * nat => _). rewrite (nth_indep (map f _) 0 (f (0, 0)%nat)).
    + rewrite map_nth. pose proof (order_nth D i j H) as E. unfold order_pos in E. rewrite E. reflexivity.
    + rewrite map_length, order_length. apply (order_bound D i j H).
  - rewrite bern_sum, bary_sum. apply pow1.
  - intros HP v Hv. apply in_map_iff in Hv. destruct Hv as [[i j] [<- Hij]]. apply bern_nonneg; apply HP; lia.
Qed.

Theorem bernstein_21 t p : exists vals, bernstein_eval 21 t p = Ok vals /\
  nth 22 vals 0 = 5 * cart_to_bary t p 0%nat * cart_to_bary t p 2%nat ^ 20.
Proof.
  unfold bernstein_eval. set (b := cart_to_bary t p).
  set (g := fun ij => IZR (multinomial_coefficient 21 (fst ij) (snd ij) (21 - fst ij - snd ij)) * ipow_u (b 0%nat) (fst ij) * ipow_u (b 1%nat) (snd ij) * b 2%nat ^ (21 - fst ij - snd ij)).
  exists (map g (bernstein_order 21)). split.
  - apply map_res_map. intros [i j] Hx. apply order_in in Hx. unfold bernstein_value. cbn [fst snd].
    rewrite ipow_i_spec by (unfold int_min, int_max; lia). cbn [bind]. unfold g. cbn [fst snd]. do 2 f_equal. rewrite pow_powerRZ. reflexivity.
  - rewrite (nth_indep (map g _) 0 (g (0, 0)%nat)) by (rewrite map_length, order_length; apply Nat.leb_le; reflexivity). rewrite map_nth.
    change 22%nat with (order_pos 21 1 0). rewrite order_nth by lia. unfold g. cbn [fst snd]. rewrite !ipow_u_spec.
    replace (multinomial_coefficient 21 1 0 (21 - 1 - 0)) with 5%Z by (vm_compute; reflexivity). cbn [Nat.sub]. ring.
Qed.

(** ** Indices *)
Theorem index_theorem c1 br bt ir it : (1 <= b_cells bt)%nat -> (c1 <= ir < nbasis_r br)%nat ->
  exists k, get_polar_index c1 (nbasis_t bt) (Z.of_nat ir) (Z.of_nat it) = Ok (Z.of_nat k) /\
    (n_singular c1 <= k < polar_nbasis c1 br bt)%nat /\
    get_2d_index c1 (nbasis_t bt) (Z.of_nat k) = Ok (Z.of_nat ir, Z.of_nat (it mod nbasis_t bt)).
Proof.
  intros Hn Hr. unfold nbasis_t. eexists. split; [apply polar_index_ok; lia|].
  pose proof (Nat.mod_upper_bound it (b_cells bt) ltac:(lia)). split.
  - split; [generalize ((ir - c1) * b_cells bt)%nat; intros; lia|]. unfold polar_nbasis, nbasis_t.
    assert ((ir - c1 + 1) * b_cells bt <= (nbasis_r br - c1) * b_cells bt)%nat by (apply Nat.mul_le_mono_r; lia). generalize (n_singular c1). lia.
  - rewrite index_2d_ok by auto. do 2 f_equal. lia.
Qed.
Theorem index_inverse c1 br bt k : (1 <= b_cells bt)%nat -> (n_singular c1 <= k < polar_nbasis c1 br bt)%nat ->
  exists ir it, get_2d_index c1 (nbasis_t bt) (Z.of_nat k) = Ok (Z.of_nat ir, Z.of_nat it) /\ (c1 <= ir < nbasis_r br)%nat /\ (it < nbasis_t bt)%nat /\
    get_polar_index c1 (nbasis_t bt) (Z.of_nat ir) (Z.of_nat it) = Ok (Z.of_nat k).
Proof.
  intros Hn Hk. unfold polar_nbasis, nbasis_t in *. set (a := (k - n_singular c1)%nat). set (nt := b_cells bt) in *.
  assert (Na : k = (n_singular c1 + a)%nat) by (unfold a; lia).
  pose proof (Nat.div_mod a nt ltac:(lia)) as DM. pose proof (Nat.mod_upper_bound a nt ltac:(lia)) as U.
  assert (Hq : (a / nt < nbasis_r br - c1)%nat).
  { apply Nat.div_lt_upper_bound; [lia|]. rewrite Nat.mul_comm. clear DM. revert Hk Na. generalize (n_singular c1) ((nbasis_r br - c1) * nt)%nat. clearbody a. intros; lia. }
  exists (c1 + a / nt)%nat, (a mod nt)%nat.
  assert (EK : k = (n_singular c1 + a / nt * nt + a mod nt)%nat) by (rewrite Na, DM at 1; rewrite (Nat.mul_comm nt); generalize (n_singular c1); lia).
  split; [rewrite EK at 1; apply index_2d_ok; auto|]. split; [lia|]. split; [exact U|].
  rewrite polar_index_ok by lia. rewrite (Nat.mod_small (a mod nt)) by auto. replace (c1 + a / nt - c1)%nat with (a / nt)%nat by lia. rewrite <- EK. reflexivity.
Qed.
Theorem index_refused c1 br bt : (forall ir it, (ir < c1)%nat -> get_polar_index c1 (nbasis_t bt) (Z.of_nat ir) (Z.of_nat it) = AssertFail) /\
  (forall k, (k < n_singular c1)%nat -> get_2d_index c1 (nbasis_t br) (Z.of_nat k) = AssertFail).
Proof.
  split.
  - intros ir it H. unfold get_polar_index. replace (0 <=? Z.of_nat ir - Z.of_nat c1)%Z with false by lia. reflexivity.
  - intros k H. unfold get_2d_index. replace (Z.of_nat (n_singular c1) <=? Z.of_nat k)%Z with false by lia. reflexivity.
Qed.
Theorem view_theorem c1 br bt coef : (1 <= b_cells bt)%nat -> (c1 < nbasis_r br)%nat -> length coef = polar_nbasis c1 br bt ->
  exists v, get_tensor_product_subset c1 (nbasis_t bt) coef = Ok v /\
    forall ir it, (c1 <= ir < nbasis_r br)%nat -> (it < nbasis_t bt)%nat ->
      exists k, get_polar_index c1 (nbasis_t bt) (Z.of_nat ir) (Z.of_nat it) = Ok (Z.of_nat k) /\
        rd_view v (Z.of_nat ir) (Z.of_nat it) = Ok (nth k coef 0).
Proof.
  intros Hn Hc HL. unfold polar_nbasis, nbasis_t in *. eexists. split; [exact (subset_ok c1 (b_cells bt) (nbasis_r br - c1) coef Hn ltac:(lia) HL)|].
  intros ir it Hr Ht. eexists. split; [apply polar_index_ok; lia|]. rewrite view_ok by (auto; lia). rewrite Nat.mod_small by auto. reflexivity.
Qed.

(** ** Differentiability at the pole, seen in the (x, y) plane *)
Theorem pole_differentiable br bt tr tt m x0 y0 e coef mu h : polar_setup 2 br bt tr tt m x0 y0 -> polar_make 2 br bt m = Ok e ->
  length coef = polar_nbasis 2 br bt -> 0 < mu -> 0 < h ->
  (forall r th x y, 0 <= r < h -> b_rmin bt <= th <= b_rmax bt -> dm_apply m r th = Ok (x, y) -> mu * r <= sqrt ((x - x0) ^ 2 + (y - y0) ^ 2)) ->
  exists a b c K h', 0 < h' /\ 0 <= K /\
    forall r th, 0 <= r < h' -> b_rmin bt <= th <= b_rmax bt ->
      exists f x y, eval_no_bc 2 br bt e coef 0 0 r th = Ok f /\ dm_apply m r th = Ok (x, y) /\
        Rabs (f - affine a b c x y) <= K * ((x - x0) ^ 2 + (y - y0) ^ 2).
Proof.
  intros PS He HL Hm Hh HR. destruct (pole_c1 br bt tr tt m x0 y0 e coef PS He HL) as [a [b [c [K [KP [_ [_ [HC _]]]]]]]].
  destruct PS as [SR _ _ _ _ [D0 _] _ _ _]. pose proof (first_break br tr SR D0) as HB.
  exists a, b, c, (K / (mu * mu)), (Rmin h (tr (b_deg br + 1)%nat)). split; [apply Rmin_glb_lt; auto|].
  split; [apply Rmult_le_pos; [auto|left; apply Rinv_0_lt_compat; nra]|].
  intros r th Hr Hth. pose proof (Rmin_l h (tr (b_deg br + 1)%nat)). pose proof (Rmin_r h (tr (b_deg br + 1)%nat)).
  destruct (HC r th ltac:(lra) Hth) as [f [x [y [Ef [Em B]]]]]. exists f, x, y. split; [exact Ef|]. split; [exact Em|].
  pose proof (HR r th x y ltac:(lra) Hth Em) as D. set (q := (x - x0) ^ 2 + (y - y0) ^ 2) in *.
  assert (Q : 0 <= q) by (unfold q; pose proof (pow2_ge_0 (x - x0)); pose proof (pow2_ge_0 (y - y0)); lra). pose proof (sqrt_pos q) as SP. pose proof (sqrt_sqrt q Q) as SS.
  assert (RR : mu * mu * (r * r) <= q).
  { rewrite <- SS. replace (mu * mu * (r * r)) with (mu * r * (mu * r)) by ring. apply Rmult_le_compat; try lra; apply Rmult_le_pos; lra. }
  apply Rle_trans with (1 := B). replace (K * (r * r)) with (K / (mu * mu) * (mu * mu * (r * r))) by (field; lra).
  apply Rmult_le_compat_l; [|exact RR]. apply Rmult_le_pos; [auto|left; apply Rinv_0_lt_compat; nra].
Qed.

(** ** The Jacobian of the discrete mapping *)
Theorem jacobian_consistent m r th J : dm_jacobian_matrix m r th = Ok J ->
  (forall i j, (i < 2)%nat -> (j < 2)%nat -> dm_jacobian_component m i j r th = Ok (J i j)) /\
  dm_jacobian m r th = Ok (J 0%nat 0%nat * J 1%nat 1%nat - J 0%nat 1%nat * J 1%nat 0%nat).
Proof.
  intros H. split.
  - intros i j Hi Hj. unfold dm_jacobian_matrix in H.
    destruct (dm_ev m 1 0 (dm_x m) r th) eqn:E1; try discriminate. cbn [bind] in H. destruct (dm_ev m 0 1 (dm_x m) r th) eqn:E2; try discriminate. cbn [bind] in H.
    destruct (dm_ev m 1 0 (dm_y m) r th) eqn:E3; try discriminate. cbn [bind] in H. destruct (dm_ev m 0 1 (dm_y m) r th) eqn:E4; try discriminate. cbn [bind] in H.
    injection H as <-. assert (i = 0 \/ i = 1)%nat as [->| ->] by lia; assert (j = 0 \/ j = 1)%nat as [->| ->] by lia; cbn [dm_jacobian_component]; assumption.
  - unfold dm_jacobian. rewrite H. cbn [bind]. f_equal. ring.
Qed.
(** its entries are the derivatives of the mapping: each one is dm_ev with one derivative *)
Theorem setup_form br bt tr tt m x0 y0 : polar_setup 2 br bt tr tt m x0 y0 ->
  exists e tau, polar_make 2 br bt m = Ok e /\ smallest_triangle bt m x0 y0 tau /\
    forall coef, length coef = polar_nbasis 2 br bt -> exists a b c,
      (forall k, (k < 3)%nat -> affine a b c (corner_x x0 tau (2 - k)) (corner_y y0 tau (2 - k)) = nth k coef 0) /\
      forall n q r th, b_rmin br <= r <= b_rmax br -> b_rmin bt <= th <= b_rmax bt ->
        exists pr pt, b_eval br n r = Ok pr /\ b_eval bt q th = Ok pt /\
          derivative 2 br bt e coef n q r th
          = Ok (tensor_spline br bt (polar_coefficient 2 (b_cells bt) (affine a b c) (ctrl_x bt m) (ctrl_y bt m) coef) pr pt).
Proof.
  intros [SR CL ST Hdt M D R0 _ R1]. pose proof D as [D0 [_ [D2 [D3 _]]]].
  pose proof (o_point_row0 br bt tr tt m x0 y0 SR CL ST M D0 D2 R0) as HO.
  destruct (polar_spline_is_tensor br bt tr tt m x0 y0 SR ST Hdt M D HO (R1 eq_refl)) as [e [tau [He [TP [TI [TM HC]]]]]].
  exists e, tau. split; [exact He|]. split; [split; [exact TP|split; [exact TI|exact TM]]|]. intros coef HL.
  destruct (HC coef HL) as [a [b [c [H1 [_ H2]]]]]. exists a, b, c. split; [exact H1|exact H2].
Qed.
(** C = -1: plain tensor-product splines; C = 0: one singular function *)
Theorem setup_form_low c1 br bt tr tt m x0 y0 : polar_setup c1 br bt tr tt m x0 y0 -> (c1 <= 1)%nat ->
  exists e, polar_make c1 br bt m = Ok e /\ forall coef, length coef = polar_nbasis c1 br bt ->
    forall n q r th, b_rmin br <= r <= b_rmax br -> b_rmin bt <= th <= b_rmax bt ->
      exists pr pt, b_eval br n r = Ok pr /\ b_eval bt q th = Ok pt /\
        derivative c1 br bt e coef n q r th
        = Ok (tensor_spline br bt (polar_coefficient c1 (b_cells bt) (fun _ _ => nth 0 coef 0) (fun _ _ => 0) (fun _ _ => 0) coef) pr pt).
Proof.
  intros [SR CL ST Hdt M D R0 HC1 R1] Hc.
  destruct (polar_general c1 br bt tr tt m x0 y0 SR CL ST Hdt M D R0 HC1 R1) as [e [He HG]]. exists e. split; [exact He|].
  intros coef HL n q r th Hr Hth. destruct (HG coef HL) as [L [H1 [_ [_ HE]]]].
  destruct (HE n q r th Hr Hth) as [pr [pt [Er [Et [_ [_ E]]]]]]. exists pr, pt. split; [exact Er|]. split; [exact Et|]. unfold derivative. rewrite E. f_equal.
  apply tensor_ext. intros i j Hi Hj. unfold polar_coefficient. destruct (fst pr + i <? c1)%nat eqn:Q; [|reflexivity].
  apply H1. lia.
Qed.
