(** Polar splines at the pole (C73) and the discrete mapping there (C76). *)
From Verif Require Import Lib LagDerivSpec DerivModel QuadModel QuadProofs FemModel FemSolve FemMain FemAsm MathModel RestrictProofs MappingModel MappingCyl
  OnionEval PspModel PspSpec PspBernstein PspProofs PspBasis PspMain PspCor PspTheorems.
From Coq Require Import ZifyBool.
Open Scope R_scope.

Lemma table_bound n m (f : nat -> nat -> R) : exists B, 0 <= B /\ forall i j, (i < n)%nat -> (j < m)%nat -> Rabs (f i j) <= B.
Proof.
  exists (Rsum n (fun i => Rsum m (fun j => Rabs (f i j)))).
  assert (NN : forall k g, 0 <= Rsum k (fun j => Rabs (g j))) by (intros; apply Rsum_nonneg; intros; apply Rabs_pos).
  split; [apply Rsum_nonneg; intros; apply NN|].
  assert (G : forall k g j, (j < k)%nat -> (forall i, (i < k)%nat -> 0 <= g i) -> g j <= Rsum k g).
  { induction k as [|k IH]; intros g j Hj Hg; [lia|]. cbn [Rsum].
    destruct (Nat.eq_dec j k) as [->|]; [pose proof (Rsum_nonneg k g ltac:(intros; apply Hg; lia)); lra|].
    specialize (IH g j ltac:(lia) ltac:(intros; apply Hg; lia)). specialize (Hg k ltac:(lia)). lra. }
  intros i j Hi Hj. apply Rle_trans with (Rsum m (fun j => Rabs (f i j))).
  - apply (G m (fun j => Rabs (f i j))); auto. intros; apply Rabs_pos.
  - apply (G n (fun i => Rsum m (fun j => Rabs (f i j)))); auto. 
Qed.
Lemma Rabs_Rsum n f : Rabs (Rsum n f) <= Rsum n (fun i => Rabs (f i)).
Proof.
  induction n as [|n IH]; cbn [Rsum]; [rewrite Rabs_R0; lra|]. eapply Rle_trans; [apply Rabs_triang|]. lra.
Qed.
Lemma domain_0 br tr : bspline_space br tr -> b_rmin br = 0 -> b_rmin br <= 0 <= b_rmax br.
Proof.
  intros SR H0. rewrite H0. split; [lra|]. rewrite <- H0, <- (bs_last br tr SR), <- (bs_first br tr SR). apply (bs_mono br tr SR). lia.
Qed.
Lemma first_le_last br tr : bspline_space br tr -> tr (b_deg br + 1)%nat <= b_rmax br.
Proof. intros SR. rewrite <- (bs_last br tr SR). apply (bs_mono br tr SR). pose proof (bs_cells br tr SR). lia. Qed.

(** the difference of two splines whose first two rows agree is O(r^2) *)
Lemma tensor_close br bt tr tt E E' : bspline_space br tr -> clamped br tr -> b_rmin br = 0 -> bspline_space bt tt ->
  (forall i j, (i < 2)%nat -> (j < b_size bt)%nat -> E i j = E' i j) ->
  exists K, 0 <= K /\ forall r th pr pt, 0 <= r < tr (b_deg br + 1)%nat ->
    basis_values br tr 0 r (fst pr) (snd pr) -> basis_values bt tt 0 th (fst pt) (snd pt) ->
    Rabs (tensor_spline br bt E pr pt - tensor_spline br bt E' pr pt) <= K * (r * r).
Proof.
  intros SR CL H0 ST HE. pose proof (first_break br tr SR H0) as HB. set (h := tr (b_deg br + 1)%nat) in *.
  destruct (table_bound (b_deg br + 1) (b_size bt) (fun i j => E i j - E' i j)) as [B [PB HBd]].
  set (K0 := 2 ^ b_deg br / (h * h)).
  assert (KP : 0 <= K0) by (apply Rmult_le_pos; [apply pow_le; lra|left; apply Rinv_0_lt_compat; nra]).
  exists (INR (b_deg br + 1) * (B * K0)). split; [apply Rmult_le_pos; [apply pos_INR|nra]|].
  intros r th pr pt Hr Vr Vt.
  assert (FC : fst pr = 0%nat) by (apply (first_cell br tr 0 r _ _ SR Vr); apply Hr).
  rewrite !tensor_factor, FC, <- Rsum_minus. eapply Rle_trans; [apply Rabs_Rsum|].
  rewrite Rmult_assoc, <- (Rsum_const (b_deg br + 1)). apply Rsum_le. intros i Hi. cbn [Nat.add].
  rewrite <- Rmult_minus_distr_r, <- Rsum_minus.
  pose proof (clamped_bound br tr r _ _ i SR CL H0 Vr ltac:(apply Hr) ltac:(lia)) as [VP VB]. fold h in VB.
  rewrite Rabs_mult, (Rabs_right (snd pr i)) by lra.
  assert (A : Rabs (Rsum (b_deg bt + 1) (fun j => E i (fst pt + j)%nat * snd pt j - E' i (fst pt + j)%nat * snd pt j)) <= B).
  { eapply Rle_trans; [apply Rabs_Rsum|]. replace B with (B * Rsum (b_deg bt + 1) (snd pt)) by (rewrite (basis_sum bt tt 0 th _ _ Vt); cbn; ring).
    rewrite <- Rsum_scal. apply Rsum_le. intros j Hj.
    rewrite <- Rmult_minus_distr_r, Rabs_mult. pose proof (basis_nonneg bt tt th _ _ j ST Vt ltac:(lia)).
    rewrite (Rabs_right (snd pt j)) by lra. apply Rmult_le_compat_r; auto. apply HBd; [lia|]. destruct Vt as [Vt _]. unfold b_size. lia. }
  destruct (lt_dec i 2) as [L|L].
  - rewrite (Rsum_zero (b_deg bt + 1)).
    + rewrite Rabs_R0, Rmult_0_l. apply Rmult_le_pos; [nra|]. nra.
    + intros j Hj. rewrite HE by (try lia; destruct Vt as [Vt _]; unfold b_size; lia). ring.
  - assert (RH : 0 <= r / h <= 1).
    { split; [apply Rmult_le_pos; [lra|left; now apply Rinv_0_lt_compat]|]. apply Rmult_le_reg_r with h; auto. unfold Rdiv. rewrite Rmult_assoc, Rinv_l by lra. lra. }
    assert (PW : (r / h) ^ i <= (r / h) ^ 2).
    { replace i with (2 + (i - 2))%nat by lia. rewrite pow_add.
      assert ((r / h) ^ (i - 2) <= 1) by (rewrite <- (pow1 (i - 2)); apply pow_incr; lra).
      assert (0 <= (r / h) ^ 2) by (apply pow_le; lra). nra. }
    assert (V2 : snd pr i <= K0 * (r * r)).
    { replace (K0 * (r * r)) with (2 ^ b_deg br * (r / h) ^ 2) by (unfold K0; field; lra).
      eapply Rle_trans; [exact VB|]. apply Rmult_le_compat_l; [apply pow_le; lra|exact PW]. }
    replace (B * K0 * (r * r)) with (B * (K0 * (r * r))) by ring.
    apply Rmult_le_compat; auto. apply Rabs_pos.
Qed.

Theorem pole_c1 br bt tr tt m x0 y0 e coef : polar_setup 2 br bt tr tt m x0 y0 -> polar_make 2 br bt m = Ok e ->
  length coef = polar_nbasis 2 br bt ->
  exists a b c K, 0 <= K /\ affine a b c x0 y0 = (nth 0 coef 0 + nth 1 coef 0 + nth 2 coef 0) / 3 /\
    (forall th, b_rmin bt <= th <= b_rmax bt ->
      eval_no_bc 2 br bt e coef 0 0 0 th = Ok (affine a b c x0 y0) /\ eval_no_bc 2 br bt e coef 0 1 0 th = Ok 0) /\
    (forall r th, 0 <= r < tr (b_deg br + 1)%nat -> b_rmin bt <= th <= b_rmax bt ->
      exists f x y, eval_no_bc 2 br bt e coef 0 0 r th = Ok f /\ dm_apply m r th = Ok (x, y) /\ Rabs (f - affine a b c x y) <= K * (r * r)) /\
    (forall th, b_rmin bt <= th <= b_rmax bt ->
      exists g xr yr, eval_no_bc 2 br bt e coef 1 0 0 th = Ok g /\ dm_ev m 1 0 (dm_x m) 0 th = Ok xr /\ dm_ev m 1 0 (dm_y m) 0 th = Ok yr /\
        g = b * xr + c * yr).
Proof.
  intros [SR CL ST Hdt M D R0 _ R1] He HL. pose proof D as [D0 [_ [D2 [D3 _]]]].
  pose proof (o_point_row0 br bt tr tt m x0 y0 SR CL ST M D0 D2 R0) as HO.
  destruct (polar_spline_is_tensor br bt tr tt m x0 y0 SR ST Hdt M D HO (R1 eq_refl)) as [e' [tau [He' [TP [_ [_ HC]]]]]].
  assert (e' = e) by congruence. subst e'. destruct (HC coef HL) as [a [b [c [_ [HA HE]]]]].
  set (E := polar_coefficient 2 (b_cells bt) (affine a b c) (ctrl_x bt m) (ctrl_y bt m) coef) in *.
  set (E' := fun i j => affine a b c (ctrl_x bt m i j) (ctrl_y bt m i j)).
  assert (EQ : forall i j, (i < 2)%nat -> (j < b_size bt)%nat -> E i j = E' i j).
  { intros i j Hi _. unfold E, E', polar_coefficient. replace (i <? 2)%nat with true by lia. reflexivity. }
  destruct (tensor_close br bt tr tt E E' SR CL D0 ST EQ) as [K [KP HK]].
  pose proof (domain_0 br tr SR D0) as L0. pose proof (first_break br tr SR D0) as HB.
  exists a, b, c, K. split; [exact KP|]. split.
  { rewrite HA. destruct (bary_explicit x0 y0 tau x0 y0 ltac:(lra)) as [E0 [E1 E2]]. cbv zeta in *. pose proof sqrt3_pos.
    cbn [Rsum Nat.sub]. rewrite E0, E1, E2. field. split; lra. }
  split; [|split].
  - intros th Hth.
    assert (G : forall q, eval_no_bc 2 br bt e coef 0 q 0 th = Ok (if (q =? 0)%nat then affine a b c x0 y0 else 0)).
    { intros q. destruct (HE 0%nat q 0 th L0 Hth) as [pr [pt [Er [Et EE]]]]. rewrite EE. f_equal.
      destruct (basis_at br tr 0 0 SR L0) as [cr [vr [Er' [Vr _]]]]. destruct (basis_at bt tt q th ST Hth) as [ct [vt [Et' [Vt _]]]].
      assert (pr = (cr, vr)) by congruence. assert (pt = (ct, vt)) by congruence. subst pr pt.
      apply (pole_value br bt tr tt E (affine a b c x0 y0) q th (cr, vr) (ct, vt) SR CL D0 Vr Vt).
      intros j Hj. rewrite EQ by (auto; lia). unfold E'. destruct (R0 j Hj) as [-> ->]. reflexivity. }
    split; [apply (G 0%nat)|apply (G 1%nat)].
  - intros r th Hr Hth. assert (Hr' : b_rmin br <= r <= b_rmax br) by (pose proof (first_le_last br tr SR); lra).
    destruct (HE 0%nat 0%nat r th Hr' Hth) as [pr [pt [Er [Et EE]]]].
    destruct (basis_at br tr 0 r SR Hr') as [cr [vr [Er' [Vr _]]]]. destruct (basis_at bt tt 0 th ST Hth) as [ct [vt [Et' [Vt _]]]].
    assert (pr = (cr, vr)) by congruence. assert (pt = (ct, vt)) by congruence. subst pr pt.
    exists (tensor_spline br bt E (cr, vr) (ct, vt)), (tensor_spline br bt (ctrl_x bt m) (cr, vr) (ct, vt)), (tensor_spline br bt (ctrl_y bt m) (cr, vr) (ct, vt)).
    split; [exact EE|]. split.
    { unfold dm_apply. rewrite (pm_ev br bt m M 0%nat 0%nat (dm_x m) r th _ _ (pm_len_x _ _ _ M) Hr' Hth Er Et). cbn [bind].
      rewrite (pm_ev br bt m M 0%nat 0%nat (dm_y m) r th _ _ (pm_len_y _ _ _ M) Hr' Hth Er Et). reflexivity. }
    specialize (HK r th (cr, vr) (ct, vt) Hr Vr Vt).
    assert (AF : tensor_spline br bt E' (cr, vr) (ct, vt)
      = affine a b c (tensor_spline br bt (ctrl_x bt m) (cr, vr) (ct, vt)) (tensor_spline br bt (ctrl_y bt m) (cr, vr) (ct, vt))).
    { unfold E'. rewrite tensor_affine. cbn [snd]. rewrite (basis_sum br tr 0 r _ _ Vr), (basis_sum bt tt 0 th _ _ Vt). unfold affine. cbn [Nat.eqb]. ring. }
    rewrite AF in HK. exact HK.
  - intros th Hth. destruct (HE 1%nat 0%nat 0 th L0 Hth) as [pr [pt [Er [Et EE]]]].
    destruct (basis_at br tr 1 0 SR L0) as [cr [vr [Er' [Vr _]]]]. destruct (basis_at bt tt 0 th ST Hth) as [ct [vt [Et' [Vt _]]]].
    assert (pr = (cr, vr)) by congruence. assert (pt = (ct, vt)) by congruence. subst pr pt.
    exists (tensor_spline br bt E (cr, vr) (ct, vt)), (tensor_spline br bt (ctrl_x bt m) (cr, vr) (ct, vt)), (tensor_spline br bt (ctrl_y bt m) (cr, vr) (ct, vt)).
    split; [exact EE|]. split; [exact (pm_ev br bt m M 1%nat 0%nat (dm_x m) 0 th _ _ (pm_len_x _ _ _ M) L0 Hth Er Et)|].
    split; [exact (pm_ev br bt m M 1%nat 0%nat (dm_y m) 0 th _ _ (pm_len_y _ _ _ M) L0 Hth Er Et)|].
    assert (FC : cr = 0%nat) by (apply (first_cell br tr 1 0 _ _ SR Vr); exact HB).
    assert (SW : tensor_spline br bt E (cr, vr) (ct, vt) = tensor_spline br bt E' (cr, vr) (ct, vt)).
    { rewrite !tensor_factor. apply Rsum_ext. intros i Hi. cbn [fst snd]. rewrite FC. cbn [Nat.add].
      destruct (lt_dec i 2) as [L|L].
      - f_equal. apply Rsum_ext. intros j Hj. rewrite EQ; [reflexivity|lia|]. destruct Vt as [Vt _]. cbn [fst] in *. unfold b_size. lia.
      - rewrite (clamped_deriv_0 br tr cr vr i SR CL D0 Vr) by lia. ring. }
    rewrite SW. unfold E'. rewrite tensor_affine. cbn [snd]. rewrite (basis_sum br tr 1 0 _ _ Vr). cbn [Nat.eqb]. ring.
Qed.
(** C = 0 *)
Theorem pole_c0 br bt tr tt m x0 y0 e coef th : polar_setup 1 br bt tr tt m x0 y0 -> polar_make 1 br bt m = Ok e ->
  length coef = polar_nbasis 1 br bt -> b_rmin bt <= th <= b_rmax bt ->
  eval_no_bc 1 br bt e coef 0 0 0 th = Ok (nth 0 coef 0) /\ eval_no_bc 1 br bt e coef 0 1 0 th = Ok 0.
Proof.
  intros [SR CL ST Hdt M D R0 H2 R1] He HL Hth. pose proof D as [D0 [_ [D2 [D3 _]]]].
  destruct (polar_general 1 br bt tr tt m x0 y0 SR CL ST Hdt M D R0 H2 R1) as [e' [He' HG]].
  assert (e' = e) by congruence. subst e'. destruct (HG coef HL) as [L [L1 [_ [_ HE]]]]. specialize (L1 eq_refl).
  pose proof (domain_0 br tr SR D0) as L0.
  assert (G : forall q, eval_no_bc 1 br bt e coef 0 q 0 th = Ok (if (q =? 0)%nat then nth 0 coef 0 else 0)).
  { intros q. destruct (HE 0%nat q 0 th L0 Hth) as [pr [pt [_ [_ [Vr [Vt EE]]]]]]. rewrite EE. f_equal.
    apply (pole_value br bt tr tt _ (nth 0 coef 0) q th pr pt SR CL D0 Vr Vt).
    intros j Hj. unfold polar_coefficient. cbn [Nat.ltb Nat.leb]. apply L1. }
  split; [apply (G 0%nat)|apply (G 1%nat)].
Qed.

(** ** The discrete mapping near the pole *)
Theorem mapping_pole br bt tr tt m x0 y0 th : bspline_space br tr -> clamped br tr -> bspline_space bt tt -> polar_mapping br bt m ->
  b_rmin br = 0 -> row0_is bt m x0 y0 -> b_rmin bt <= th <= b_rmax bt ->
  dm_apply m 0 th = Ok (x0, y0) /\ dm_jacobian m 0 th = Ok 0 /\
  exists J, dm_first_order m 0 th = Ok J /\ dm_jacobian_component m 0 0 0 th = Ok (J 0%nat 0%nat) /\ dm_jacobian_component m 1 0 0 th = Ok (J 1%nat 0%nat) /\
    forall eps, 0 < eps -> exists d, 0 < d /\ forall r, 0 < r < d -> exists A j, dm_jacobian_matrix m r th = Ok A /\ dm_jacobian m r th = Ok j /\
      Rabs (A 0%nat 1%nat / r - J 0%nat 1%nat) < eps /\ Rabs (A 1%nat 1%nat / r - J 1%nat 1%nat) < eps.
Proof.
  intros SR CL ST M H0 R0 Hth. pose proof (domain_0 br tr SR H0) as L0. pose proof (first_break br tr SR H0) as HB.
  assert (PE : forall q xs x, (forall j, (j < b_size bt)%nat -> field2 bt xs 0 j = x) -> length xs = (nbasis_r br * b_size bt)%nat ->
    dm_ev m 0 q xs 0 th = Ok (if (q =? 0)%nat then x else 0)).
  { intros q xs x Hx HL. destruct (basis_at br tr 0 0 SR L0) as [cr [vr [Er [Vr _]]]]. destruct (basis_at bt tt q th ST Hth) as [ct [vt [Et [Vt _]]]].
    rewrite (pm_ev br bt m M 0%nat q xs 0 th (cr, vr) (ct, vt) HL L0 Hth Er Et). f_equal.
    apply (pole_value br bt tr tt _ x q th (cr, vr) (ct, vt) SR CL H0 Vr Vt Hx). }
  assert (EV : forall n q xs r, length xs = (nbasis_r br * b_size bt)%nat -> b_rmin br <= r <= b_rmax br -> exists v, dm_ev m n q xs r th = Ok v).
  { intros n q xs r HL Hr. destruct (basis_at br tr n r SR Hr) as [cr [vr [Er _]]]. destruct (basis_at bt tt q th ST Hth) as [ct [vt [Et _]]].
    eexists. exact (pm_ev br bt m M n q xs r th (cr, vr) (ct, vt) HL Hr Hth Er Et). }
  pose proof (pm_len_x _ _ _ M) as LX. pose proof (pm_len_y _ _ _ M) as LY.
  assert (XR : forall j, (j < b_size bt)%nat -> field2 bt (dm_x m) 0 j = x0) by (intros j Hj; apply (R0 j Hj)).
  assert (YR : forall j, (j < b_size bt)%nat -> field2 bt (dm_y m) 0 j = y0) by (intros j Hj; apply (R0 j Hj)).
  split; [unfold dm_apply; rewrite (PE 0%nat (dm_x m) x0 XR LX); cbn [bind]; rewrite (PE 0%nat (dm_y m) y0 YR LY); reflexivity|].
  split.
  { unfold dm_jacobian, dm_jacobian_matrix. destruct (EV 1%nat 0%nat (dm_x m) 0 LX L0) as [xr ->]. cbn [bind].
    rewrite (PE 1%nat (dm_x m) x0 XR LX). cbn [bind]. destruct (EV 1%nat 0%nat (dm_y m) 0 LY L0) as [yr ->]. cbn [bind].
    rewrite (PE 1%nat (dm_y m) y0 YR LY). cbn [bind Nat.eqb]. f_equal. ring. }
  (* d/dr d/dtheta at the pole is the limit of (1/r) d/dtheta *)
  assert (LIM : forall xs x, (forall j, (j < b_size bt)%nat -> field2 bt xs 0 j = x) -> length xs = (nbasis_r br * b_size bt)%nat ->
    exists l, dm_ev m 1 1 xs 0 th = Ok l /\ forall eps, 0 < eps -> exists d, 0 < d /\ forall r, 0 < r < d ->
      exists v, dm_ev m 0 1 xs r th = Ok v /\ Rabs (v / r - l) < eps).
  { intros xs x Hx HL.
    destruct (basis_at br tr 1 0 SR L0) as [cr [vr [Er [Vr _]]]]. destruct (basis_at bt tt 1 th ST Hth) as [ct [vt [Et [Vt Hct]]]].
    assert (FC : cr = 0%nat) by (apply (first_cell br tr 1 0 _ _ SR Vr); exact HB). subst cr.
    set (al := fun i => Rsum (b_deg bt + 1) (fun j => field2 bt xs i (ct + j)%nat * vt j)).
    assert (AL0 : al 0%nat = 0).
    { unfold al. pose proof (row_const bt (field2 bt xs) 0 x (ct, vt) Hct Hx) as RC. cbn [fst snd] in RC. rewrite RC, (basis_sum bt tt 1 th _ _ Vt). cbn. ring. }
    exists (Rsum (b_deg br + 1) (fun i => al i * vr i)). split.
    { rewrite (pm_ev br bt m M 1%nat 1%nat xs 0 th (0%nat, vr) (ct, vt) HL L0 Hth Er Et). f_equal. rewrite tensor_factor. reflexivity. }
    assert (N0 : forall i, (1 <= i)%nat -> cdb tr (b_deg br) (b_deg br) i 0 = 0).
    { intros i Hi. destruct (le_lt_dec i (b_deg br)) as [Li|Li]; [|apply cdb_out; auto].
      pose proof (cdb_clamped tr (b_deg br) (b_deg br) i 0 ltac:(lia) ltac:(intros k Hk; rewrite CL, H0 by auto; reflexivity)
        ltac:(intros a b Hab; apply (bs_mono br tr SR); pose proof (bs_cells br tr SR); lia) HB ltac:(lra)) as CB.
      replace (0 / tr (b_deg br + 1)%nat) with 0 in CB by (field; lra). rewrite pow_ne_zero in CB by lia. lra. }
    assert (DL : forall n, (n <= b_deg br + 1)%nat -> forall eps, 0 < eps -> exists d, 0 < d /\ forall r, 0 < r < d ->
      Rabs (Rsum n (fun i => al i * cdb tr (b_deg br) (b_deg br) i r) / r - Rsum n (fun i => al i * vr i)) < eps).
    { induction n as [|n IH]; intros Hn eps Hep.
      - exists 1. split; [lra|]. intros r Hr. cbn [Rsum]. replace (0 / r - 0) with 0 by (field; lra). rewrite Rabs_R0. auto.
      - destruct (IH ltac:(lia) (eps / 2) ltac:(lra)) as [d1 [Pd1 H1]].
        assert (exists d, 0 < d /\ forall r, 0 < r < d -> Rabs (al n * cdb tr (b_deg br) (b_deg br) n r / r - al n * vr n) < eps / 2) as [d2 [Pd2 H2]].
        { destruct n as [|n].
          - exists 1. split; [lra|]. intros r Hr. rewrite AL0. replace (0 * _ / r - 0 * _) with 0 by (field; lra). rewrite Rabs_R0. lra.
          - destruct Vr as [_ [_ Vr]]. destruct (Vr (S n) ltac:(lia)) as [g [[F [A [B C]]] EG]]. rewrite Nat.add_0_r in A.
            specialize (B 0%nat 0 ltac:(lia)). rewrite C, <- EG in B.
            set (al' := al (S n)). pose proof (Rabs_pos al') as PA.
            destruct (B (eps / 2 / (Rabs al' + 1))) as [d Hd]; [apply Rmult_lt_0_compat; [lra|apply Rinv_0_lt_compat; lra]|].
            exists d. split; [apply cond_pos|]. intros r Hr. specialize (Hd r ltac:(lra) ltac:(rewrite Rabs_right; lra)).
            rewrite Rplus_0_l, !A, N0, Rminus_0_r in Hd by lia.
            replace (al' * cdb tr (b_deg br) (b_deg br) (S n) r / r - al' * vr (S n))
              with (al' * (cdb tr (b_deg br) (b_deg br) (S n) r / r - vr (S n))) by (field; lra).
            rewrite Rabs_mult.
            apply Rle_lt_trans with (Rabs al' * (eps / 2 / (Rabs al' + 1))); [apply Rmult_le_compat_l; lra|].
            apply Rmult_lt_reg_r with (Rabs al' + 1); [lra|].
            replace (Rabs al' * (eps / 2 / (Rabs al' + 1)) * (Rabs al' + 1)) with (Rabs al' * (eps / 2)) by (field; lra). nra. }
        exists (Rmin d1 d2). split; [apply Rmin_glb_lt; auto|]. intros r Hr.
        specialize (H1 r ltac:(pose proof (Rmin_l d1 d2); lra)). specialize (H2 r ltac:(pose proof (Rmin_r d1 d2); lra)). cbn [Rsum].
        replace ((Rsum n (fun i => al i * cdb tr (b_deg br) (b_deg br) i r) + al n * cdb tr (b_deg br) (b_deg br) n r) / r - (Rsum n (fun i => al i * vr i) + al n * vr n))
          with ((Rsum n (fun i => al i * cdb tr (b_deg br) (b_deg br) i r) / r - Rsum n (fun i => al i * vr i))
             + (al n * cdb tr (b_deg br) (b_deg br) n r / r - al n * vr n)) by (field; lra).
        eapply Rle_lt_trans; [apply Rabs_triang|]. lra. }
    intros eps Hep. destruct (DL (b_deg br + 1)%nat ltac:(lia) eps Hep) as [d [Pd Hd]].
    exists (Rmin d (tr (b_deg br + 1)%nat)). split; [apply Rmin_glb_lt; auto|]. intros r Hr.
    pose proof (Rmin_l d (tr (b_deg br + 1)%nat)). pose proof (Rmin_r d (tr (b_deg br + 1)%nat)). pose proof (first_le_last br tr SR).
    assert (Hr' : b_rmin br <= r <= b_rmax br) by lra.
    destruct (basis_at br tr 0 r SR Hr') as [c0 [v0 [E0 [V0 _]]]].
    assert (c0 = 0%nat) by (apply (first_cell br tr 0 r _ _ SR V0); lra). subst c0.
    eexists. split; [exact (pm_ev br bt m M 0%nat 1%nat xs r th (0%nat, v0) (ct, vt) HL Hr' Hth E0 Et)|].
    rewrite tensor_factor. cbn [fst snd Nat.add].
    rewrite (Rsum_ext (b_deg br + 1) _ (fun i => al i * cdb tr (b_deg br) (b_deg br) i r)).
    - apply Hd. lra.
    - intros i Hi. rewrite (basis_value_0 br tr r 0 v0 i V0) by lia. rewrite Nat.add_0_r. reflexivity. }
  destruct (LIM (dm_x m) x0 XR LX) as [lx [ELx HLx]]. destruct (LIM (dm_y m) y0 YR LY) as [ly [ELy HLy]].
  destruct (EV 1%nat 0%nat (dm_x m) 0 LX L0) as [xr Exr]. destruct (EV 1%nat 0%nat (dm_y m) 0 LY L0) as [yr Eyr].
  eexists. split; [unfold dm_first_order; rewrite Exr; cbn [bind]; rewrite ELx; cbn [bind]; rewrite Eyr; cbn [bind]; rewrite ELy; reflexivity|].
  split; [exact Exr|]. split; [exact Eyr|].
  intros eps Hep. destruct (HLx eps Hep) as [d1 [P1 H1]]. destruct (HLy eps Hep) as [d2 [P2 H2]].
  exists (Rmin (Rmin d1 d2) (b_rmax br)). pose proof (first_le_last br tr SR).
  split; [repeat apply Rmin_glb_lt; auto; lra|]. intros r Hr.
  pose proof (Rmin_l (Rmin d1 d2) (b_rmax br)). pose proof (Rmin_r (Rmin d1 d2) (b_rmax br)). pose proof (Rmin_l d1 d2). pose proof (Rmin_r d1 d2).
  assert (Hr' : b_rmin br <= r <= b_rmax br) by lra.
  destruct (H1 r ltac:(lra)) as [xt [Ext Bx]]. destruct (H2 r ltac:(lra)) as [yt [Eyt By]].
  destruct (EV 1%nat 0%nat (dm_x m) r LX Hr') as [xr' Exr']. destruct (EV 1%nat 0%nat (dm_y m) r LY Hr') as [yr' Eyr'].
  assert (JM : exists A, dm_jacobian_matrix m r th = Ok A /\ A 0%nat 1%nat = xt /\ A 1%nat 1%nat = yt).
  { unfold dm_jacobian_matrix. rewrite Exr'. cbn [bind]. rewrite Ext. cbn [bind]. rewrite Eyr'. cbn [bind]. rewrite Eyt. cbn [bind]. eexists. split; [reflexivity|]. split; reflexivity. }
  destruct JM as [A [EA [A1 A2]]]. exists A. eexists. split; [exact EA|]. split; [unfold dm_jacobian; rewrite EA; reflexivity|].
  rewrite A1, A2. split; assumption.
Qed.
