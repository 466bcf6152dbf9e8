(** The properties C72 - C74 of polar splines. *)
From Verif Require Import Lib LagDerivSpec DerivModel QuadModel QuadProofs FemModel FemSolve FemMain FemAsm MathModel RestrictProofs MappingModel MappingCyl
  OnionEval PspModel PspSpec PspBernstein PspProofs PspBasis PspMain PspCor.
From Coq Require Import ZifyBool.
Open Scope R_scope.

Section Setup.
  Context (c1 : nat) (br bt : bspace) (tr tt : nat -> R) (m : dmap) (x0 y0 : R) (PS : polar_setup c1 br bt tr tt m x0 y0).
  Let SR := ps_r _ _ _ _ _ _ _ _ PS. Let CL := ps_clamped _ _ _ _ _ _ _ _ PS. Let ST := ps_t _ _ _ _ _ _ _ _ PS. Let Hdt := ps_deg _ _ _ _ _ _ _ _ PS.
  Let M := ps_map _ _ _ _ _ _ _ _ PS. Let D := ps_dom _ _ _ _ _ _ _ _ PS. Let R0 := ps_row0 _ _ _ _ _ _ _ _ PS.
  Let HC1 := ps_c1 _ _ _ _ _ _ _ _ PS. Let R1 := ps_row1 _ _ _ _ _ _ _ _ PS.

  Lemma setup_o_point : dm_o_point m = Ok (x0, y0).
  Proof. destruct D as [D0 [_ [D2 _]]]. exact (o_point_row0 br bt tr tt m x0 y0 SR CL ST M D0 D2 R0). Qed.
  Lemma setup_make : exists e, polar_make c1 br bt m = Ok e.
  Proof. destruct (polar_general c1 br bt tr tt m x0 y0 SR CL ST Hdt M D R0 HC1 R1) as [e [He _]]. eauto. Qed.
  Lemma coef_index cr ct i j : (cr < b_cells br)%nat -> (i <= b_deg br)%nat -> (c1 <= cr + i)%nat ->
    (c1 * (c1 + 1) / 2 + (cr + i - c1) * b_cells bt + (ct + j) mod b_cells bt < polar_nbasis c1 br bt)%nat.
  Proof.
    intros H1 H2 H3. unfold polar_nbasis, nbasis_r, nbasis_t, n_singular. pose proof (bs_cells bt tt ST).
    pose proof (Nat.mod_upper_bound (ct + j) (b_cells bt) ltac:(lia)).
    assert ((cr + i - c1 + 1) * b_cells bt <= (b_cells br + b_deg br - c1) * b_cells bt)%nat by (apply Nat.mul_le_mono_r; lia).
    generalize (c1 * (c1 + 1) / 2)%nat. lia.
  Qed.
  Lemma setup_values e coef lo hi r th : polar_make c1 br bt m = Ok e -> length coef = polar_nbasis c1 br bt ->
    (forall k, (k < length coef)%nat -> lo <= nth k coef 0 <= hi) ->
    b_rmin br <= r <= b_rmax br -> b_rmin bt <= th <= b_rmax bt ->
    exists v, eval_no_bc c1 br bt e coef 0 0 r th = Ok v /\ lo <= v <= hi.
  Proof.
    intros He HL HB Hr Hth.
    destruct (polar_general c1 br bt tr tt m x0 y0 SR CL ST Hdt M D R0 HC1 R1) as [e' [He' HG]].
    assert (e' = e) by congruence. subst e'. destruct (HG coef HL) as [L [_ [_ [HH HE]]]].
    destruct (HE 0%nat 0%nat r th Hr Hth) as [pr [pt [_ [_ [Vr [Vt EE]]]]]]. eexists. split; [exact EE|].
    set (E := polar_coefficient c1 (b_cells bt) L (ctrl_x bt m) (ctrl_y bt m) coef).
    assert (EB : forall i j, (i <= b_deg br)%nat -> (j <= b_deg bt)%nat -> lo <= E (fst pr + i)%nat (fst pt + j)%nat <= hi).
    { intros i j Hi Hj. unfold E, polar_coefficient. destruct (fst pr + i <? c1)%nat eqn:Q.
      - apply (hull_bounds (n_singular c1) coef); [apply HH; [lia|destruct Vt as [Vt _]; unfold b_size; lia]|].
        intros k Hk. apply HB. rewrite HL. unfold polar_nbasis. apply Nat.lt_le_trans with (1 := Hk). apply Nat.le_add_r.
      - apply HB. rewrite HL. apply coef_index; [apply Vr|auto|lia]. }
    assert (PR : forall i, (i <= b_deg br)%nat -> 0 <= snd pr i) by (intros i Hi; apply (basis_nonneg br tr r _ _ i SR Vr Hi)).
    assert (PT : forall j, (j <= b_deg bt)%nat -> 0 <= snd pt j) by (intros j Hj; apply (basis_nonneg bt tt th _ _ j ST Vt Hj)).
    pose proof (tensor_le br bt (fun _ _ => lo) E pr pt PR PT ltac:(intros; apply EB; auto)) as A.
    pose proof (tensor_le br bt E (fun _ _ => hi) pr pt PR PT ltac:(intros; apply EB; auto)) as B.
    rewrite tensor_const, (basis_sum br tr 0 r _ _ Vr), (basis_sum bt tt 0 th _ _ Vt) in A, B. cbn [Nat.eqb] in A, B. lra.
  Qed.
  Lemma setup_constants e coef a n q r th : polar_make c1 br bt m = Ok e -> length coef = polar_nbasis c1 br bt ->
    (forall k, (k < length coef)%nat -> nth k coef 0 = a) ->
    b_rmin br <= r <= b_rmax br -> b_rmin bt <= th <= b_rmax bt ->
    eval_no_bc c1 br bt e coef n q r th = Ok (if (n + q =? 0)%nat then a else 0).
  Proof.
    intros He HL HB Hr Hth.
    destruct (polar_general c1 br bt tr tt m x0 y0 SR CL ST Hdt M D R0 HC1 R1) as [e' [He' HG]].
    assert (e' = e) by congruence. subst e'. destruct (HG coef HL) as [L [_ [_ [HH HE]]]].
    destruct (HE n q r th Hr Hth) as [pr [pt [_ [_ [Vr [Vt EE]]]]]]. rewrite EE. f_equal.
    rewrite (tensor_ext br bt _ (fun _ _ => a)).
    - rewrite tensor_const, (basis_sum br tr n r _ _ Vr), (basis_sum bt tt q th _ _ Vt).
      destruct n, q; cbn [Nat.eqb Nat.add]; ring.
    - intros i j Hi Hj. unfold polar_coefficient. destruct (fst pr + i <? c1)%nat eqn:Q.
      + apply Rle_antisym.
        * apply (hull_bounds (n_singular c1) coef _ a a); [apply HH; [lia|destruct Vt as [Vt _]; unfold b_size; lia]|].
          intros k Hk. rewrite HB; [lra|]. rewrite HL. unfold polar_nbasis. apply Nat.lt_le_trans with (1 := Hk). apply Nat.le_add_r.
        * apply (hull_bounds (n_singular c1) coef _ a a); [apply HH; [lia|destruct Vt as [Vt _]; unfold b_size; lia]|].
          intros k Hk. rewrite HB; [lra|]. rewrite HL. unfold polar_nbasis. apply Nat.lt_le_trans with (1 := Hk). apply Nat.le_add_r.
      + apply HB. rewrite HL. apply coef_index; [apply Vr|auto|lia].
  Qed.
  (** linearity *)
  Lemma setup_linear e n q r th : polar_make c1 br bt m = Ok e -> b_rmin br <= r <= b_rmax br -> b_rmin bt <= th <= b_rmax bt ->
    exists w, forall coef, length coef = polar_nbasis c1 br bt ->
      eval_no_bc c1 br bt e coef n q r th = Ok (Rsum (polar_nbasis c1 br bt) (fun k => nth k coef 0 * w k)).
  Proof.
    intros He Hr Hth. destruct D as [D0 [D1 [D2 [D3 D4]]]].
    assert (HV : exists V, holds c1 (b_size bt) e V).
    { assert (c1 = 0 \/ 1 <= c1)%nat as [Z|P] by lia.
      - exists (fun _ _ _ => 0). intros k i j Hk. exfalso. revert Hk. rewrite Z. exact (Nat.nlt_0_r k).
      - destruct (polar_make_ok c1 br bt m x0 y0 M D ltac:(lia) (bs_cells bt tt ST) setup_o_point) as [e' [He' Hh]].
        assert (e' = e) by congruence. subst e'. eexists. exact Hh. }
    destruct HV as [V Hh].
    destruct (basis_at br tr n r SR Hr) as [cr [vr [Er [Vr Hcr]]]]. destruct (basis_at bt tt q th ST Hth) as [ct [vt [Et [Vt Hct]]]].
    exists (fun k => tensor_spline br bt (fun i j => if (i <? c1)%nat then (if (k <? n_singular c1)%nat then V k i j else 0)
      else if (k =? n_singular c1 + (i - c1) * b_cells bt + j mod b_cells bt)%nat then 1 else 0) (cr, vr) (ct, vt)).
    intros coef HL. rewrite (eval_no_bc_ok c1 br bt e V coef n q r th cr vr ct vt Hh Er Et Hcr Hct ltac:(lia) Hdt D3 HL). f_equal.
    unfold tensor_spline.
    rewrite (Rsum_ext (polar_nbasis c1 br bt) _ (fun k => Rsum (b_deg br + 1) (fun i => Rsum (b_deg bt + 1) (fun j =>
      nth k coef 0 * ((if (cr + i <? c1)%nat then (if (k <? n_singular c1)%nat then V k (cr + i)%nat (ct + j)%nat else 0)
      else if (k =? n_singular c1 + (cr + i - c1) * b_cells bt + (ct + j) mod b_cells bt)%nat then 1 else 0) * vr i * vt j))))).
    2:{ intros k _. cbn [fst snd]. rewrite <- Rsum_scal. apply Rsum_ext. intros i _. rewrite <- Rsum_scal. reflexivity. }
    rewrite Rsum3_swap. apply Rsum_ext. intros i Hi. apply Rsum_ext. intros j Hj. unfold expand. cbn [fst snd].
    pose proof (coef_index cr ct i j Hcr ltac:(lia)) as CI. fold (n_singular c1) in CI.
    destruct (cr + i <? c1)%nat eqn:Q.
    - rewrite (Rsum_cut (polar_nbasis c1 br bt) (n_singular c1)).
      + rewrite Rmult_assoc, <- Rsum_scal_r. apply Rsum_ext. intros k Hk. replace (k <? n_singular c1)%nat with true by lia. ring.
      + unfold polar_nbasis. apply Nat.le_add_r.
      + intros k Hk. replace (k <? n_singular c1)%nat with false by lia. ring.
    - rewrite (Rsum_single (polar_nbasis c1 br bt) _ (n_singular c1 + (cr + i - c1) * b_cells bt + (ct + j) mod b_cells bt)%nat).
      + rewrite Nat.eqb_refl. ring.
      + apply CI. lia.
      + intros k Hk NE. replace (k =? _)%nat with false by lia. ring.
  Qed.
End Setup.

(** coordinates, C = 1 *)
Theorem coordinates_2 br bt tr tt m x0 y0 : polar_setup 2 br bt tr tt m x0 y0 ->
  exists tau, smallest_triangle bt m x0 y0 tau /\
  forall e cx cy n q r th, polar_make 2 br bt m = Ok e ->
    length cx = polar_nbasis 2 br bt -> length cy = polar_nbasis 2 br bt ->
    (forall k, (k < 3)%nat -> nth k cx 0 = corner_x x0 tau (2 - k) /\ nth k cy 0 = corner_y y0 tau (2 - k)) ->
    (forall i j, (2 <= i < nbasis_r br)%nat -> (j < b_cells bt)%nat ->
      nth (3 + (i - 2) * b_cells bt + j) cx 0 = ctrl_x bt m i j /\ nth (3 + (i - 2) * b_cells bt + j) cy 0 = ctrl_y bt m i j) ->
    b_rmin br <= r <= b_rmax br -> b_rmin bt <= th <= b_rmax bt ->
    exists x y, eval_no_bc 2 br bt e cx n q r th = Ok x /\ eval_no_bc 2 br bt e cy n q r th = Ok y /\
      dm_ev m n q (dm_x m) r th = Ok x /\ dm_ev m n q (dm_y m) r th = Ok y.
Proof.
  intros PS. destruct PS as [SR CL ST Hdt M D R0 _ R1]. pose proof D as [D0 [_ [D2 [D3 _]]]].
  pose proof (o_point_row0 br bt tr tt m x0 y0 SR CL ST M D0 D2 R0) as HO.
  destruct (polar_spline_is_tensor br bt tr tt m x0 y0 SR ST Hdt M D HO (R1 eq_refl)) as [e [tau [He [TP [TI [TM HC]]]]]].
  exists tau. split; [split; [exact TP|split; [exact TI|exact TM]]|].
  intros e' cx cy n q r th He' Lx Ly HK HT Hr Hth. assert (e' = e) by congruence. subst e'.
  destruct (HC cx Lx) as [a [b [c [_ [HA HE]]]]]. destruct (HC cy Ly) as [a' [b' [c' [_ [HA' HE']]]]].
  destruct (HE n q r th Hr Hth) as [pr [pt [Er [Et E]]]]. destruct (HE' n q r th Hr Hth) as [pr' [pt' [Er' [Et' E']]]].
  assert (pr' = pr) by congruence. assert (pt' = pt) by congruence. subst pr' pt'.
  rewrite E, E'. eexists. eexists. split; [reflexivity|]. split; [reflexivity|].
  assert (AX : forall x y, affine a b c x y = x).
  { intros x y. rewrite HA. destruct (corners_reproduce x0 y0 tau x y ltac:(lra)) as [_ [CX _]]. cbv zeta in CX. etransitivity; [|symmetry; exact CX].
    cbn [Rsum Nat.sub]. rewrite (proj1 (HK 0%nat ltac:(lia))), (proj1 (HK 1%nat ltac:(lia))), (proj1 (HK 2%nat ltac:(lia))). cbn [Nat.sub]. ring. }
  assert (AY : forall x y, affine a' b' c' x y = y).
  { intros x y. rewrite HA'. destruct (corners_reproduce x0 y0 tau x y ltac:(lra)) as [_ [_ CY]]. cbv zeta in CY. etransitivity; [|symmetry; exact CY].
    cbn [Rsum Nat.sub]. rewrite (proj2 (HK 0%nat ltac:(lia))), (proj2 (HK 1%nat ltac:(lia))), (proj2 (HK 2%nat ltac:(lia))). cbn [Nat.sub]. ring. }
  destruct (basis_at br tr n r SR Hr) as [cr [vr [Er1 [_ Hcr]]]]. destruct (basis_at bt tt q th ST Hth) as [ct [vt [Et1 [_ Hct]]]].
  assert (pr = (cr, vr)) by congruence. assert (pt = (ct, vt)) by congruence. subst pr pt.
  assert (PER : forall f : nat -> nat -> R, (forall i j, (i < nbasis_r br)%nat -> (j < b_deg bt)%nat -> f i (j + b_cells bt)%nat = f i j) ->
    forall i j, (i < nbasis_r br)%nat -> (j < b_size bt)%nat -> f i (j mod b_cells bt) = f i j).
  { intros f Hf i j Hi Hj. destruct (lt_dec j (b_cells bt)) as [L|L]; [now rewrite Nat.mod_small|].
    unfold b_size in Hj. replace j with (j - b_cells bt + 1 * b_cells bt)%nat at 1 by lia. rewrite Nat.mod_add by lia. rewrite Nat.mod_small by lia.
    rewrite <- Hf by lia. f_equal. lia. }
  rewrite (pm_ev br bt m M n q (dm_x m) r th (cr, vr) (ct, vt) (pm_len_x _ _ _ M) Hr Hth Er Et).
  rewrite (pm_ev br bt m M n q (dm_y m) r th (cr, vr) (ct, vt) (pm_len_y _ _ _ M) Hr Hth Er Et).
  split; f_equal; symmetry; apply tensor_ext; intros i j Hi Hj; cbn [fst]; unfold polar_coefficient;
    (destruct (cr + i <? 2)%nat eqn:Q; [rewrite ?AX, ?AY; reflexivity|]); change (2 * (2 + 1) / 2)%nat with 3%nat.
  - assert (U : ((ct + j) mod b_cells bt < b_cells bt)%nat) by (apply Nat.mod_upper_bound; lia).
    rewrite (proj1 (HT (cr + i)%nat ((ct + j) mod b_cells bt) ltac:(unfold nbasis_r; lia) U)).
    apply (PER (ctrl_x bt m) (pm_per_x _ _ _ M)); unfold nbasis_r, b_size; lia.
  - assert (U : ((ct + j) mod b_cells bt < b_cells bt)%nat) by (apply Nat.mod_upper_bound; lia).
    rewrite (proj2 (HT (cr + i)%nat ((ct + j) mod b_cells bt) ltac:(unfold nbasis_r; lia) U)).
    apply (PER (ctrl_y bt m) (pm_per_y _ _ _ M)); unfold nbasis_r, b_size; lia.
Qed.
