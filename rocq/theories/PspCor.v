(** Consequences for constants, bounds, coordinates (C72), the pole (C73) and the evaluator (C74). *)
From Verif Require Import Lib LagDerivSpec DerivModel QuadModel QuadProofs FemModel FemSolve FemMain FemAsm MathModel RestrictProofs MappingModel MappingCyl
  OnionEval PspModel PspSpec PspBernstein PspProofs PspBasis PspMain.
From Coq Require Import ZifyBool.
Open Scope R_scope.

(** ** The radial B-splines on the first cell *)
Lemma break_le b t i j : bspline_space b t -> (i <= j <= b_cells b)%nat -> t (b_deg b + i)%nat <= t (b_deg b + j)%nat.
Proof. intros S H. apply (bs_mono b t S). lia. Qed.
Lemma first_cell b t n x c v : bspline_space b t -> basis_values b t n x c v -> x < t (b_deg b + 1)%nat -> c = 0%nat.
Proof.
  intros S [Hc [[Hx _] _]] H. destruct c as [|c]; [reflexivity|]. exfalso.
  pose proof (break_le b t 1 (Datatypes.S c) S ltac:(lia)). lra.
Qed.
Lemma first_break b t : bspline_space b t -> b_rmin b = 0 -> 0 < t (b_deg b + 1)%nat.
Proof.
  intros S H0. pose proof (bs_breaks b t S 0%nat (bs_cells b t S)) as B. rewrite Nat.add_0_r in B. rewrite (bs_first b t S), H0 in B. exact B.
Qed.
Lemma clamped_bound b t x c v j : bspline_space b t -> clamped b t -> b_rmin b = 0 -> basis_values b t 0 x c v ->
  x < t (b_deg b + 1)%nat -> (j <= b_deg b)%nat -> 0 <= v j <= 2 ^ b_deg b * (x / t (b_deg b + 1)%nat) ^ j.
Proof.
  intros S C H0 V Hx Hj. pose proof (first_cell b t 0 x c v S V Hx) as ->.
  rewrite (basis_value_0 b t x 0 v j V Hj). rewrite Nat.add_0_r.
  destruct V as [_ [[Hx0 _] _]]. rewrite Nat.add_0_r, (bs_first b t S), H0 in Hx0.
  apply cdb_clamped; auto.
  - intros i Hi. rewrite C, H0 by auto. reflexivity.
  - intros a a' Ha. apply (bs_mono b t S). pose proof (bs_cells b t S). lia.
  - apply first_break; auto.
  - lra.
Qed.
Lemma clamped_at_0 b t c v : bspline_space b t -> clamped b t -> b_rmin b = 0 -> basis_values b t 0 0 c v ->
  c = 0%nat /\ v 0%nat = 1 /\ forall j, (1 <= j <= b_deg b)%nat -> v j = 0.
Proof.
  intros S C H0 V. pose proof (first_break b t S H0) as HB.
  split; [apply (first_cell b t 0 0 c v S V HB)|].
  assert (Z : forall j, (1 <= j <= b_deg b)%nat -> v j = 0).
  { intros j Hj. pose proof (clamped_bound b t 0 c v j S C H0 V HB ltac:(lia)) as B.
    replace (0 / t (b_deg b + 1)%nat) with 0 in B by (field; lra). rewrite pow_ne_zero in B by lia. lra. }
  split; [|exact Z]. pose proof (basis_sum b t 0 0 c v V) as SM. cbn [Nat.eqb] in SM.
  rewrite Nat.add_1_r, Rsum_first in SM. rewrite (Rsum_zero (b_deg b)) in SM by (intros i Hi; apply Z; lia). lra.
Qed.
(** the radial derivative at the pole of the B-splines after the first two *)
Lemma clamped_deriv_0 b t c v j : bspline_space b t -> clamped b t -> b_rmin b = 0 -> basis_values b t 1 0 c v -> (2 <= j <= b_deg b)%nat -> v j = 0.
Proof.
  intros S C H0 V Hj. pose proof (first_break b t S H0) as HB. set (h := t (b_deg b + 1)%nat) in *.
  pose proof (first_cell b t 1 0 c v S V HB) as ->. destruct V as [_ [_ HV]]. destruct (HV j ltac:(lia)) as [g [[F [A [B D]]] ->]].
  rewrite Nat.add_0_r in A. specialize (B 0%nat 0 ltac:(lia)). rewrite D in B.
  assert (BD : forall x, 0 <= x <= h -> 0 <= F 0%nat x <= 2 ^ b_deg b * (x / h) ^ j).
  { intros x Hx. rewrite A. apply cdb_clamped; auto.
    - intros i Hi. rewrite C, H0 by auto. reflexivity.
    - intros a a' Ha. apply (bs_mono b t S). pose proof (bs_cells b t S). lia. }
  assert (F0 : F 0%nat 0 = 0).
  { pose proof (BD 0 ltac:(lra)) as B0. replace (0 / h) with 0 in B0 by (field; lra). rewrite pow_ne_zero in B0 by lia. lra. }
  destruct (Req_dec (g 0) 0) as [|NE]; [assumption|exfalso].
  destruct (B (Rabs (g 0) / 2)) as [d Hd]; [pose proof (Rabs_pos_lt _ NE); lra|].
  pose proof (cond_pos d) as Pd. set (K := 2 ^ b_deg b / (h * h)).
  assert (KP : 0 < K) by (apply Rmult_lt_0_compat; [apply pow_lt; lra|apply Rinv_0_lt_compat; nra]).
  pose proof (Rabs_pos_lt _ NE) as GP.
  set (s := Rmin (h / 2) (Rmin (d / 2) (Rabs (g 0) / 4 / K))).
  assert (P3 : 0 < Rabs (g 0) / 4 / K) by (apply Rmult_lt_0_compat; [lra|now apply Rinv_0_lt_compat]).
  assert (SP : 0 < s) by (repeat apply Rmin_glb_lt; lra).
  assert (S1 : s <= h / 2) by apply Rmin_l. assert (S2 : s <= d / 2) by (eapply Rle_trans; [apply Rmin_r|apply Rmin_l]).
  assert (S3 : s <= Rabs (g 0) / 4 / K) by (eapply Rle_trans; [apply Rmin_r|apply Rmin_r]).
  specialize (Hd s ltac:(lra) ltac:(rewrite Rabs_right; lra)). rewrite Rplus_0_l, F0, Rminus_0_r in Hd.
  assert (Q : 0 <= F 0%nat s / s <= K * s).
  { pose proof (BD s ltac:(lra)) as [B1 B2]. split; [apply Rmult_le_pos; [auto|left; now apply Rinv_0_lt_compat]|].
    apply Rmult_le_reg_r with s; auto. unfold Rdiv at 1. rewrite Rmult_assoc, Rinv_l, Rmult_1_r by lra.
    assert (PW : (s / h) ^ j <= (s / h) ^ 2).
    { assert (0 <= s / h <= 1).
      { split; [apply Rmult_le_pos; [lra|left; now apply Rinv_0_lt_compat]|]. apply Rmult_le_reg_r with h; auto. unfold Rdiv. rewrite Rmult_assoc, Rinv_l by lra. lra. }
      replace j with (2 + (j - 2))%nat by lia. rewrite pow_add.
      assert ((s / h) ^ (j - 2) <= 1) by (rewrite <- (pow1 (j - 2)); apply pow_incr; lra).
      assert (0 <= (s / h) ^ 2) by (apply pow_le; lra). nra. }
    assert (E : K * s * s = 2 ^ b_deg b * (s / h) ^ 2) by (unfold K; field; lra). rewrite E.
    eapply Rle_trans; [exact B2|]. apply Rmult_le_compat_l; [apply pow_le; lra|exact PW]. }
  assert (KS : K * s <= Rabs (g 0) / 4).
  { replace (Rabs (g 0) / 4) with (K * (Rabs (g 0) / 4 / K)) by (field; lra). apply Rmult_le_compat_l; lra. }
  apply Rabs_def2 in Hd. unfold Rabs in *. destruct (Rcase_abs (g 0)); lra.
Qed.

(** ** Tensor-product splines *)
Lemma tensor_scal br bt E a pr pt : tensor_spline br bt (fun i j => a * E i j) pr pt = a * tensor_spline br bt E pr pt.
Proof.
  unfold tensor_spline. rewrite <- Rsum_scal. apply Rsum_ext. intros i _. rewrite <- Rsum_scal. apply Rsum_ext. intros; ring.
Qed.
Lemma tensor_plus br bt E E' pr pt : tensor_spline br bt (fun i j => E i j + E' i j) pr pt = tensor_spline br bt E pr pt + tensor_spline br bt E' pr pt.
Proof.
  unfold tensor_spline. rewrite <- Rsum_plus. apply Rsum_ext. intros i _. rewrite <- Rsum_plus. apply Rsum_ext. intros; ring.
Qed.
Lemma tensor_const br bt a pr pt : tensor_spline br bt (fun _ _ => a) pr pt = a * (Rsum (b_deg br + 1) (snd pr) * Rsum (b_deg bt + 1) (snd pt)).
Proof.
  unfold tensor_spline. rewrite Rsum_prod, <- Rsum_scal. apply Rsum_ext. intros i _. rewrite <- Rsum_scal. apply Rsum_ext. intros; ring.
Qed.
Lemma tensor_affine br bt a b c X Y pr pt : tensor_spline br bt (fun i j => affine a b c (X i j) (Y i j)) pr pt
  = a * (Rsum (b_deg br + 1) (snd pr) * Rsum (b_deg bt + 1) (snd pt)) + b * tensor_spline br bt X pr pt + c * tensor_spline br bt Y pr pt.
Proof.
  unfold affine. rewrite (tensor_plus br bt (fun i j => a + b * X i j) (fun i j => c * Y i j)).
  rewrite (tensor_plus br bt (fun i j => a) (fun i j => b * X i j)), tensor_const, !tensor_scal. reflexivity.
Qed.
Lemma tensor_le br bt E E' pr pt : (forall i, (i <= b_deg br)%nat -> 0 <= snd pr i) -> (forall j, (j <= b_deg bt)%nat -> 0 <= snd pt j) ->
  (forall i j, (i <= b_deg br)%nat -> (j <= b_deg bt)%nat -> E (fst pr + i)%nat (fst pt + j)%nat <= E' (fst pr + i)%nat (fst pt + j)%nat) ->
  tensor_spline br bt E pr pt <= tensor_spline br bt E' pr pt.
Proof.
  intros H1 H2 H. apply Rsum_le. intros i Hi. apply Rsum_le. intros j Hj.
  apply Rmult_le_compat_r; [apply H2; lia|]. apply Rmult_le_compat_r; [apply H1; lia|]. apply H; lia.
Qed.
Lemma tensor_factor br bt E pr pt : tensor_spline br bt E pr pt
  = Rsum (b_deg br + 1) (fun i => Rsum (b_deg bt + 1) (fun j => E (fst pr + i)%nat (fst pt + j)%nat * snd pt j) * snd pr i).
Proof.
  unfold tensor_spline. apply Rsum_ext. intros i _. rewrite <- Rsum_scal_r. apply Rsum_ext. intros; ring.
Qed.

(** ** The mapping at r = 0 *)
Lemma row_const bt (E : nat -> nat -> R) i e0 (pt : nat * (nat -> R)) : (fst pt < b_cells bt)%nat -> (forall j, (j < b_size bt)%nat -> E i j = e0) ->
  Rsum (b_deg bt + 1) (fun j => E i (fst pt + j)%nat * snd pt j) = e0 * Rsum (b_deg bt + 1) (snd pt).
Proof. intros H1 H2. rewrite <- Rsum_scal. apply Rsum_ext. intros j Hj. rewrite H2 by (unfold b_size; lia). reflexivity. Qed.
Lemma pole_value br bt tr tt E e0 q th pr pt : bspline_space br tr -> clamped br tr -> b_rmin br = 0 ->
  basis_values br tr 0 0 (fst pr) (snd pr) -> basis_values bt tt q th (fst pt) (snd pt) ->
  (forall j, (j < b_size bt)%nat -> E 0%nat j = e0) -> tensor_spline br bt E pr pt = if (q =? 0)%nat then e0 else 0.
Proof.
  intros S C H0 V1 V2 HE. destruct (clamped_at_0 br tr _ _ S C H0 V1) as [C0 [W0 WJ]]. rewrite tensor_factor, C0.
  rewrite Nat.add_1_r, Rsum_first. rewrite (Rsum_zero (b_deg br)) by (intros i Hi; rewrite (WJ (Datatypes.S i)) by lia; ring).
  rewrite W0. cbn [Nat.add]. rewrite (row_const bt E 0 e0 pt) by (auto; apply V2). rewrite (basis_sum bt tt q th _ _ V2).
  destruct (q =? 0)%nat; ring.
Qed.
Lemma o_point_row0 br bt tr tt m x0 y0 : bspline_space br tr -> clamped br tr -> bspline_space bt tt -> polar_mapping br bt m ->
  b_rmin br = 0 -> b_rmin bt <= 0 <= b_rmax bt -> row0_is bt m x0 y0 -> dm_o_point m = Ok (x0, y0).
Proof.
  intros SR C ST M H0 HT R0. unfold dm_o_point, dm_apply.
  assert (L0 : b_rmin br <= 0 <= b_rmax br).
  { rewrite H0. split; [lra|]. rewrite <- H0, <- (bs_last br tr SR), <- (bs_first br tr SR). apply (bs_mono br tr SR). lia. }
  destruct (basis_at br tr 0 0 SR L0) as [cr [vr [Er [Vr _]]]]. destruct (basis_at bt tt 0 0 ST HT) as [ct [vt [Et [Vt _]]]].
  rewrite (pm_ev br bt m M 0%nat 0%nat (dm_x m) 0 0 (cr, vr) (ct, vt) (pm_len_x _ _ _ M) L0 HT Er Et). cbn [bind].
  rewrite (pm_ev br bt m M 0%nat 0%nat (dm_y m) 0 0 (cr, vr) (ct, vt) (pm_len_y _ _ _ M) L0 HT Er Et). cbn [bind].
  rewrite (pole_value br bt tr tt _ x0 0 0 (cr, vr) (ct, vt) SR C H0 Vr Vt) by (intros; apply R0; auto).
  rewrite (pole_value br bt tr tt _ y0 0 0 (cr, vr) (ct, vt) SR C H0 Vr Vt) by (intros; apply R0; auto). reflexivity.
Qed.

(** ** All continuities at once: the inner coefficients are convex combinations of the singular ones *)
Definition hull (ns : nat) (coef : list R) (v : R) : Prop :=
  exists l, (forall k, (k < ns)%nat -> 0 <= l k) /\ Rsum ns l = 1 /\ v = Rsum ns (fun k => l k * nth k coef 0).
Lemma hull_bounds ns coef v lo hi : hull ns coef v -> (forall k, (k < ns)%nat -> lo <= nth k coef 0 <= hi) -> lo <= v <= hi.
Proof.
  intros [l [H1 [H2 ->]]] HB.
  assert (A : Rsum ns (fun k => lo * l k) <= Rsum ns (fun k => l k * nth k coef 0)) by (apply Rsum_le; intros k Hk; specialize (H1 k Hk); specialize (HB k Hk); nra).
  assert (B : Rsum ns (fun k => l k * nth k coef 0) <= Rsum ns (fun k => hi * l k)) by (apply Rsum_le; intros k Hk; specialize (H1 k Hk); specialize (HB k Hk); nra).
  rewrite Rsum_scal, H2 in A, B. lra.
Qed.
Theorem polar_general c1 br bt tr tt m x0 y0 : bspline_space br tr -> clamped br tr -> bspline_space bt tt -> (b_deg bt <= b_cells bt)%nat ->
  polar_mapping br bt m -> polar_domain c1 br bt -> row0_is bt m x0 y0 -> (c1 <= 2)%nat -> (c1 = 2%nat -> row1_differs bt m x0 y0) ->
  exists e, polar_make c1 br bt m = Ok e /\
    forall coef, length coef = polar_nbasis c1 br bt -> exists L : R -> R -> R,
      (c1 = 1%nat -> forall x y, L x y = nth 0 coef 0) /\
      (c1 = 2%nat -> exists a b c, L = affine a b c) /\
      (forall i j, (i < c1)%nat -> (j < b_size bt)%nat -> hull (n_singular c1) coef (L (ctrl_x bt m i j) (ctrl_y bt m i j))) /\
      forall n q r th, b_rmin br <= r <= b_rmax br -> b_rmin bt <= th <= b_rmax bt ->
        exists pr pt, b_eval br n r = Ok pr /\ b_eval bt q th = Ok pt /\
          basis_values br tr n r (fst pr) (snd pr) /\ basis_values bt tt q th (fst pt) (snd pt) /\
          eval_no_bc c1 br bt e coef n q r th
          = Ok (tensor_spline br bt (polar_coefficient c1 (b_cells bt) L (ctrl_x bt m) (ctrl_y bt m) coef) pr pt).
Proof.
  intros SR C ST Hdt M D R0 Hc R1. pose proof D as [D0 [D1 [D2 [D3 D4]]]].
  pose proof (o_point_row0 br bt tr tt m x0 y0 SR C ST M D0 D2 R0) as HO.
  assert (c1 = 0 \/ c1 = 1 \/ c1 = 2)%nat as [->| [->| ->]] by lia.
  - exists []. split.
    { unfold polar_make. rewrite D0, Rabs_R0. destruct (Rlt_dec 0 (/ 10 ^ 15)) as [_|N]; [|exfalso; apply N; apply Rinv_0_lt_compat; lra]. cbn [check bind].
      rewrite D1. replace (2 * PI - 2 * PI) with 0 by ring. rewrite Rabs_R0.
      destruct (Rlt_dec 0 (/ 10 ^ 14)) as [_|N]; [|exfalso; apply N; apply Rinv_0_lt_compat; lra]. reflexivity. }
    intros coef HL. exists (fun _ _ => 0). split; [discriminate|]. split; [discriminate|]. split; [intros; lia|].
    intros n q r th Hr Hth. destruct (basis_at br tr n r SR Hr) as [cr [vr [Er [Vr Hcr]]]]. destruct (basis_at bt tt q th ST Hth) as [ct [vt [Et [Vt Hct]]]].
    exists (cr, vr), (ct, vt). repeat (split; [assumption|]).
    rewrite (eval_no_bc_ok 0 br bt [] (fun _ _ _ => 0) coef n q r th cr vr ct vt ltac:(intros k i j Hk; exfalso; exact (Nat.nlt_0_r k Hk)) Er Et Hcr Hct ltac:(lia) Hdt D3 HL).
    reflexivity.
  - destruct (polar_make_ok 1 br bt m x0 y0 M D ltac:(lia) (bs_cells bt tt ST) HO) as [e [He Hh]]. exists e. split; [exact He|].
    intros coef HL. exists (fun _ _ => nth 0 coef 0). split; [reflexivity|]. split; [discriminate|]. split.
    { intros i j _ _. exists (fun _ => 1). split; [intros; lra|]. split; cbn; ring. }
    intros n q r th Hr Hth. destruct (basis_at br tr n r SR Hr) as [cr [vr [Er [Vr Hcr]]]]. destruct (basis_at bt tt q th ST Hth) as [ct [vt [Et [Vt Hct]]]].
    exists (cr, vr), (ct, vt). repeat (split; [assumption|]).
    rewrite (eval_no_bc_ok 1 br bt e _ coef n q r th cr vr ct vt Hh Er Et Hcr Hct ltac:(lia) Hdt D3 HL).
    f_equal. apply tensor_ext. intros i j Hi Hj. unfold expand, polar_coefficient. cbn [fst].
    destruct (cr + i <? 1)%nat; [|reflexivity]. change (n_singular 1) with 1%nat. cbn [Rsum]. rewrite sing_elem_1. ring.
  - destruct (polar_spline_is_tensor br bt tr tt m x0 y0 SR ST Hdt M D HO (R1 eq_refl)) as [e [tau [He [TP [TI [_ HC]]]]]].
    exists e. split; [exact He|]. intros coef HL. destruct (HC coef HL) as [a [b [c [_ [HA HE]]]]]. exists (affine a b c).
    split; [discriminate|]. split; [eauto|]. split.
    + intros i j Hi Hj. rewrite HA.
      assert (IT : in_triangle x0 y0 tau (ctrl_x bt m i j) (ctrl_y bt m i j)).
      { assert (i = 0 \/ i = 1)%nat as [->| ->] by lia; [|now apply TI].
        destruct (R0 j Hj) as [-> ->]. apply in_triangle_bound; auto. unfold tau_bound. cbn [fst snd]. rewrite !Rminus_eq_0. lra. }
      pose proof (proj1 (in_triangle_bound x0 y0 tau _ _ TP) IT) as _.
      destruct IT as [l0 [P1 [P2 [P3 P4]]]].
      exists (fun k => cart_to_bary (triangle (x0, y0) tau) (c2 (ctrl_x bt m i j) (ctrl_y bt m i j)) (2 - k)%nat).
      assert (EL : forall k, (k < 3)%nat -> cart_to_bary (triangle (x0, y0) tau) (c2 (ctrl_x bt m i j) (ctrl_y bt m i j)) k = l0 k).
      { intros k Hk. destruct (bary_explicit x0 y0 tau (ctrl_x bt m i j) (ctrl_y bt m i j) ltac:(lra)) as [E0 [E1 E2]]. cbv zeta in *.
        pose proof sqrt3_pos as SP. cbn [Rsum corner_x corner_y] in P3, P4.
        assert (L0 : l0 0%nat = 1 - l0 1%nat - l0 2%nat) by lra.
        assert (k = 0 \/ k = 1 \/ k = 2)%nat as [->| [->| ->]] by lia; [rewrite E0|rewrite E1|rewrite E2]; rewrite P3, ?P4, ?L0; field; try split; lra. }
      split; [intros k Hk; change (n_singular 2) with 3%nat in Hk; rewrite EL by lia; apply P1; lia|]. change (n_singular 2) with 3%nat.
      split; [cbn [Rsum Nat.sub]; rewrite !EL by lia; lra|]. apply Rsum_ext. intros; ring.
    + intros n q r th Hr Hth. destruct (HE n q r th Hr Hth) as [pr [pt [Er [Et EE]]]].
      destruct (basis_at br tr n r SR Hr) as [cr [vr [Er' [Vr _]]]]. destruct (basis_at bt tt q th ST Hth) as [ct [vt [Et' [Vt _]]]].
      assert (pr = (cr, vr)) by congruence. assert (pt = (ct, vt)) by congruence. subst pr pt.
      exists (cr, vr), (ct, vt). repeat (split; [assumption|]). exact EE.
Qed.
