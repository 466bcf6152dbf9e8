(** The constructor and the evaluation of polar splines (C72 - C74). *)
From Verif Require Import Lib LagDerivSpec DerivModel QuadModel QuadProofs FemModel FemSolve FemMain MathModel RestrictProofs MappingModel MappingCyl
  OnionEval PspModel PspSpec PspBernstein PspProofs PspBasis.
From Coq Require Import ZifyBool.
Open Scope R_scope.

(** ** The triangle *)
Lemma sqrt3_pos : 0 < sqrt 3. Proof. apply sqrt_lt_R0; lra. Qed.
Lemma sqrt3_sq : sqrt 3 * sqrt 3 = 3. Proof. apply sqrt_sqrt; lra. Qed.
Definition tau_bound (x0 y0 : R) (p : R * R) (t : R) : Prop :=
  -2 * (fst p - x0) <= t /\ fst p - x0 - sqrt 3 * (snd p - y0) <= t /\ fst p - x0 + sqrt 3 * (snd p - y0) <= t.
Lemma tau_step_spec x0 y0 t p : let t' := tau_step x0 y0 t p in
  t <= t' /\ tau_bound x0 y0 p t' /\ (forall u, t <= u -> tau_bound x0 y0 p u -> t' <= u).
Proof.
  assert (M : forall a b, (if Rlt_dec a b then b else a) = Rmax b a).
  { intros a b. destruct (Rlt_dec a b); [rewrite Rmax_left|rewrite Rmax_right]; lra. }
  unfold tau_step, tau_bound. cbv zeta. rewrite !M.
  split; [|split; [split; [|split]|intros u Hu [A [B C]]]].
  - eapply Rle_trans; [|apply Rmax_l]. eapply Rle_trans; [|apply Rmax_l]. apply Rmax_l.
  - eapply Rle_trans; [|apply Rmax_l]. eapply Rle_trans; [|apply Rmax_l]. apply Rmax_r.
  - eapply Rle_trans; [|apply Rmax_l]. apply Rmax_r.
  - apply Rmax_r.
  - repeat apply Rmax_lub; auto.
Qed.
Lemma fold_tau x0 y0 l t : let t' := fold_left (tau_step x0 y0) l t in
  t <= t' /\ (forall p, In p l -> tau_bound x0 y0 p t') /\ (forall u, t <= u -> (forall p, In p l -> tau_bound x0 y0 p u) -> t' <= u).
Proof.
  revert t. induction l as [|p l IH]; intros t; cbn [fold_left].
  - split; [lra|]. split; [intros p []|auto].
  - destruct (IH (tau_step x0 y0 t p)) as [A [B C]]. destruct (tau_step_spec x0 y0 t p) as [D [E F]]. cbv zeta in *.
    split; [lra|]. split.
    + intros q [<-|Hq]; [|auto]. unfold tau_bound in *. lra.
    + intros u Hu HU. apply C; [apply F; [auto|apply HU; left; reflexivity]|intros q Hq; apply HU; right; auto].
Qed.
Lemma triangle_size_spec pole l : let t := triangle_size pole l in
  0 <= t /\ (forall p, In p l -> tau_bound (fst pole) (snd pole) p t) /\
  (forall u, 0 <= u -> (forall p, In p l -> tau_bound (fst pole) (snd pole) p u) -> t <= u).
Proof. apply fold_tau. Qed.
Lemma triangle_size_pos pole l p : In p l -> p <> pole -> 0 < triangle_size pole l.
Proof.
  intros Hp Hn. destruct (triangle_size_spec pole l) as [A [B _]]. cbv zeta in *. destruct (B p Hp) as [B1 [B2 B3]].
  destruct (Req_dec (fst p) (fst pole)) as [E1|N1]; [destruct (Req_dec (snd p) (snd pole)) as [E2|N2]|].
  - destruct p, pole. cbn in *. congruence.
  - pose proof sqrt3_pos. destruct (Rtotal_order (snd p) (snd pole)) as [L|[L|L]]; [| |]; try lra; nra.
  - destruct (Rtotal_order (fst p) (fst pole)) as [L|[L|L]]; try lra.
Qed.
Lemma bary_explicit x0 y0 tau x y : tau <> 0 ->
  let b := cart_to_bary (triangle (x0, y0) tau) (c2 x y) in
  b 0%nat = 1 / 3 + 2 * (x - x0) / (3 * tau) /\
  b 1%nat = 1 / 3 + (y - y0) / (sqrt 3 * tau) - (x - x0) / (3 * tau) /\
  b 2%nat = 1 / 3 - (y - y0) / (sqrt 3 * tau) - (x - x0) / (3 * tau).
Proof.
  intros Ht. pose proof sqrt3_pos. unfold cart_to_bary, triangle. cbn [fst snd bx1 bx2 bx3 by1 by2 by3 c2 c3]. cbv zeta. cbn [c3].
  assert (D : forall u, (y0 + / 2 * tau * sqrt 3 - (y0 - / 2 * tau * sqrt 3)) * (x0 + tau - (x0 - / 2 * tau)) + (x0 - / 2 * tau - (x0 - / 2 * tau)) * u
    = 3 / 2 * sqrt 3 * tau * tau) by (intros; field).
  rewrite !D. assert (3 / 2 * sqrt 3 * tau * tau <> 0).
  { apply Rmult_integral_contrapositive_currified; [|auto]. apply Rmult_integral_contrapositive_currified; [|auto]. lra. }
  split; [|split]; field; split; auto; lra.
Qed.
Lemma corners_reproduce x0 y0 tau x y : tau <> 0 -> let b := cart_to_bary (triangle (x0, y0) tau) (c2 x y) in
  b 0%nat + b 1%nat + b 2%nat = 1 /\
  x = Rsum 3 (fun k => b k * corner_x x0 tau k) /\ y = Rsum 3 (fun k => b k * corner_y y0 tau k).
Proof.
  intros Ht b. destruct (bary_explicit x0 y0 tau x y Ht) as [E0 [E1 E2]]. fold b in E0, E1, E2.
  pose proof sqrt3_pos. pose proof sqrt3_sq. cbn [Rsum corner_x corner_y]. rewrite E0, E1, E2.
  split; [field; split; auto; lra|]. split; [field; split; auto; lra|].
  transitivity (y0 + (y - y0) / (sqrt 3 * tau) * (tau * sqrt 3)); [field; split; auto; lra|field; split; auto; lra].
Qed.
Lemma in_triangle_bound x0 y0 tau x y : 0 < tau -> (in_triangle x0 y0 tau x y <-> tau_bound x0 y0 (x, y) tau).
Proof.
  intros Ht. pose proof sqrt3_pos as SP. pose proof sqrt3_sq as SQ. unfold tau_bound. cbn [fst snd]. split.
  - intros [l [Hl [HS [Hx Hy]]]]. pose proof (Hl 0%nat ltac:(lia)). pose proof (Hl 1%nat ltac:(lia)). pose proof (Hl 2%nat ltac:(lia)).
    cbn [Rsum corner_x corner_y] in Hx, Hy. set (l0 := l 0%nat) in *. set (l1 := l 1%nat) in *. set (l2 := l 2%nat) in *.
    assert (Ex : x - x0 = tau * (l0 - / 2 * (l1 + l2))).
    { rewrite Hx. replace l0 with (1 - l1 - l2) by lra. field. }
    assert (Ey : sqrt 3 * (y - y0) = 3 / 2 * tau * (l1 - l2)).
    { rewrite Hy. replace l0 with (1 - l1 - l2) by lra.
      transitivity ((sqrt 3 * sqrt 3) * (tau / 2 * (l1 - l2))); [field|rewrite SQ; field]. }
    rewrite Ey, Ex. replace l0 with (1 - l1 - l2) in * by lra.
    split; [|split]; nra.
  - intros [A [B C]]. exists (cart_to_bary (triangle (x0, y0) tau) (c2 x y)).
    destruct (bary_explicit x0 y0 tau x y ltac:(lra)) as [E0 [E1 E2]]. destruct (corners_reproduce x0 y0 tau x y ltac:(lra)) as [S1 S2].
    split; [|split; auto]. cbv zeta in *. intros k Hk.
    assert (IV : (y - y0) / (sqrt 3 * tau) = sqrt 3 * (y - y0) / (3 * tau)).
    { replace (3 * tau) with (sqrt 3 * sqrt 3 * tau) by (rewrite SQ; ring). field. split; lra. }
    assert (k = 0 \/ k = 1 \/ k = 2)%nat as [->| [->| ->]] by lia.
    + rewrite E0. replace (1 / 3 + 2 * (x - x0) / (3 * tau)) with ((tau + 2 * (x - x0)) / (3 * tau)) by (field; lra).
      apply Rmult_le_pos; [lra|]. left; apply Rinv_0_lt_compat; lra.
    + rewrite E1, IV. replace (1 / 3 + sqrt 3 * (y - y0) / (3 * tau) - (x - x0) / (3 * tau)) with ((tau + sqrt 3 * (y - y0) - (x - x0)) / (3 * tau)) by (field; lra).
      apply Rmult_le_pos; [lra|]. left; apply Rinv_0_lt_compat; lra.
    + rewrite E2, IV. replace (1 / 3 - sqrt 3 * (y - y0) / (3 * tau) - (x - x0) / (3 * tau)) with ((tau - sqrt 3 * (y - y0) - (x - x0)) / (3 * tau)) by (field; lra).
      apply Rmult_le_pos; [lra|]. left; apply Rinv_0_lt_compat; lra.
Qed.

(** ** The constructor *)
Lemma rd2_ok (l : list R) nr nc i j : length l = (nr * nc)%nat -> (i < nr)%nat -> (j < nc)%nat ->
  rd2 l nr nc (Z.of_nat i) (Z.of_nat j) = Ok (nth (i * nc + j) l 0).
Proof.
  intros HL Hi Hj. unfold rd2. replace (_ && _ && _ && _)%bool with true by lia.
  replace (Z.of_nat i * Z.of_nat nc + Z.of_nat j)%Z with (Z.of_nat (i * nc + j)) by (rewrite Nat2Z.inj_add, Nat2Z.inj_mul; reflexivity).
  apply rd_nth. rewrite HL. assert ((i + 1) * nc <= nr * nc)%nat by (apply Nat.mul_le_mono_r; lia). lia.
Qed.
Lemma ctrl_point_ok br bt m i j : polar_mapping br bt m -> (i < nbasis_r br)%nat -> (j < b_size bt)%nat ->
  dm_control_point m (nbasis_r br) (b_size bt) (Z.of_nat i) (Z.of_nat j) = Ok (ctrl bt m i j).
Proof.
  intros M Hi Hj. unfold dm_control_point. rewrite !rd2_ok by (auto; apply M). reflexivity.
Qed.
Lemma read_ctrl_ok c1 br bt m : polar_mapping br bt m -> (c1 <= 2)%nat -> (2 <= nbasis_r br)%nat ->
  read_ctrl c1 br bt m = Ok (map (fun i => map (fun j => ctrl bt m i j) (seq 0 (b_size bt))) (seq 0 2)).
Proof.
  intros M Hc Hn. unfold read_ctrl. replace (ctrl_rows c1) with 2%nat by (unfold ctrl_rows; lia).
  apply map_res_map. intros i Hi. apply in_seq in Hi. apply map_res_map. intros j Hj. apply in_seq in Hj.
  apply ctrl_point_ok; auto; lia.
Qed.
Lemma ctrl_nth (f : nat -> nat -> R * R) i j n : (i < 2)%nat -> (j < n)%nat ->
  nth j (nth i (map (fun i => map (fun j => f i j) (seq 0 n)) (seq 0 2)) []) (0, 0) = f i j.
Proof.
  intros Hi Hj.
  assert (E : nth i (map (fun i => map (fun j => f i j) (seq 0 n)) (seq 0 2)) [] = map (fun j => f i j) (seq 0 n)).
  { assert (i = 0 \/ i = 1)%nat as [->| ->] by lia; reflexivity. }
  rewrite E. rewrite (nth_indep _ (0, 0) (f i 0%nat)) by (rewrite map_length, seq_length; lia).
  rewrite (map_nth (fun j => f i j)), seq_nth by lia. reflexivity.
Qed.
(** the Bernstein values of a control point, in the order of the singular functions *)
Definition sing_elem (c1 : nat) (tr : bary_triangle) (p : R * R) (k : nat) : R :=
  let b := cart_to_bary tr (c2 (fst p) (snd p)) in
  nth k (map (fun ij => bern (c1 - 1) (b 0%nat) (b 1%nat) (b 2%nat) (fst ij) (snd ij)) (bernstein_order (c1 - 1))) 0.
Lemma order_length_sing c1 : (1 <= c1)%nat -> length (bernstein_order (c1 - 1)) = n_singular c1.
Proof.
  intros H. rewrite order_length. unfold n_singular. replace (c1 - 1 + 1)%nat with c1 by lia.
  replace (c1 - 1 + 2)%nat with (c1 + 1)%nat by lia. reflexivity.
Qed.
Definition row1 (bt : bspace) (m : dmap) : list (R * R) := map (ctrl bt m 1) (seq 0 (b_size bt)).
Lemma polar_make_gen c1 br bt m x0 y0 : polar_mapping br bt m -> b_rmin br = 0 -> b_rmax bt - b_rmin bt = 2 * PI ->
  (2 <= nbasis_r br)%nat -> (c1 < nbasis_r br)%nat -> (1 <= c1 <= 2)%nat -> (1 <= b_cells bt)%nat ->
  dm_o_point m = Ok (x0, y0) ->
  let tr := triangle (x0, y0) (triangle_size (x0, y0) (row1 bt m)) in
  exists e, polar_make c1 br bt m = Ok e /\ holds c1 (b_size bt) e (fun k i j => sing_elem c1 tr (ctrl bt m i j) k).
Proof.
  intros M D0 D1 NB NC Hc Ht HO tr. unfold polar_make.
  rewrite D0, Rabs_R0. destruct (Rlt_dec 0 (/ 10 ^ 15)) as [_|N]; [|exfalso; apply N; apply Rinv_0_lt_compat; lra]. cbn [check bind].
  rewrite D1. replace (2 * PI - 2 * PI) with 0 by ring. rewrite Rabs_R0.
  destruct (Rlt_dec 0 (/ 10 ^ 14)) as [_|N]; [|exfalso; apply N; apply Rinv_0_lt_compat; lra]. cbn [check bind].
  replace (c1 =? 0)%nat with false by lia.
  rewrite read_ctrl_ok by (auto; lia). cbn [bind]. rewrite HO. cbn [bind].
  replace (c1 <? b_size br)%nat with true by (unfold b_size, nbasis_r in *; lia). cbn [check bind].
  change (nth 1 _ []) with (row1 bt m). fold tr.
  set (pt := fun i j => nth j (nth i _ []) (0, 0)).
  assert (Hpt : forall i j, (i < c1)%nat -> (j < b_size bt)%nat -> pt i j = ctrl bt m i j).
  { intros i j Hi Hj. unfold pt. apply (ctrl_nth (ctrl bt m)); lia. }
  destruct (fill_elements_ok c1 (b_cells bt) (b_deg bt) (fun k i j => sing_elem c1 tr (ctrl bt m i j) k) tr pt) as [e [E [_ De]]].
  - intros i j Hi Hj. rewrite (Hpt i j) by (auto; unfold b_size; lia).
    pose proof (bernstein_eval_ok (c1 - 1) tr (c2 (fst (ctrl bt m i j)) (snd (ctrl bt m i j))) ltac:(lia)) as BE.
    cbv zeta in BE. rewrite BE. eexists. split; [reflexivity|]. split; [rewrite map_length; apply order_length_sing; lia|].
    intros k Hk. reflexivity.
  - intros k i j Hk Hi Hj. f_equal. unfold ctrl. f_equal; apply M; lia.
  - exact Ht.
  - exists e. split; [exact E|]. intros k i j Hk Hi Hj. apply De; auto.
Qed.

Lemma polar_make_ok c1 br bt m x0 y0 : polar_mapping br bt m -> polar_domain c1 br bt -> (1 <= c1 <= 2)%nat -> (1 <= b_cells bt)%nat ->
  dm_o_point m = Ok (x0, y0) ->
  let tr := triangle (x0, y0) (triangle_size (x0, y0) (row1 bt m)) in
  exists e, polar_make c1 br bt m = Ok e /\ holds c1 (b_size bt) e (fun k i j => sing_elem c1 tr (ctrl bt m i j) k).
Proof. intros M [D0 [D1 [D2 [D3 D4]]]] Hc Ht HO. apply polar_make_gen; auto; unfold nbasis_r; lia. Qed.

(** ** The inner coefficients *)
(** C = 0: the only singular function has all its coefficients equal to 1 *)
Lemma sing_elem_1 tr p : sing_elem 1 tr p 0 = 1.
Proof. unfold sing_elem. cbv zeta. change (bernstein_order (1 - 1)) with [(0, 0)%nat]. cbn. unfold bern. cbn. field. Qed.
(** C = 1: the singular functions 0, 1, 2 take the barycentric coordinates 3, 2, 1 *)
Lemma sing_elem_2 tr p k : (k < 3)%nat -> sing_elem 2 tr p k = cart_to_bary tr (c2 (fst p) (snd p)) (2 - k)%nat.
Proof.
  intros Hk. unfold sing_elem. cbv zeta. change (bernstein_order (2 - 1)) with [(0, 0); (0, 1); (1, 0)]%nat.
  set (b := cart_to_bary _ _). cbn [map fst snd].
  assert (k = 0 \/ k = 1 \/ k = 2)%nat as [->| [->| ->]] by lia; cbn [nth Nat.sub]; unfold bern; cbn [fact Nat.sub pow INR Nat.mul Nat.add]; field.
Qed.
(** the affine function through three values at the corners *)
Lemma affine_through x0 y0 tau (c : nat -> R) : tau <> 0 -> exists a b d,
  (forall k, (k < 3)%nat -> affine a b d (corner_x x0 tau k) (corner_y y0 tau k) = c k) /\
  (forall x y, Rsum 3 (fun k => c k * cart_to_bary (triangle (x0, y0) tau) (c2 x y) k) = affine a b d x y).
Proof.
  intros Ht. pose proof sqrt3_pos as SP. pose proof sqrt3_sq as SQ.
  set (b := (2 * c 0%nat - c 1%nat - c 2%nat) / (3 * tau)). set (d := (c 1%nat - c 2%nat) / (sqrt 3 * tau)).
  set (a := (c 0%nat + c 1%nat + c 2%nat) / 3 - b * x0 - d * y0).
  assert (G : forall x y, Rsum 3 (fun k => c k * cart_to_bary (triangle (x0, y0) tau) (c2 x y) k) = affine a b d x y).
  { intros x y. destruct (bary_explicit x0 y0 tau x y Ht) as [E0 [E1 E2]]. cbv zeta in *. cbn [Rsum]. rewrite E0, E1, E2.
    unfold affine, a, b, d. field. split; auto; lra. }
  exists a, b, d. split; [|exact G]. intros k Hk. rewrite <- G.
  destruct (bary_explicit x0 y0 tau (corner_x x0 tau k) (corner_y y0 tau k) Ht) as [E0 [E1 E2]]. cbv zeta in *.
  cbn [Rsum]. rewrite E0, E1, E2.
  assert (k = 0 \/ k = 1 \/ k = 2)%nat as [->| [->| ->]] by lia; cbn [corner_x corner_y]; field; split; auto; lra.
Qed.
Lemma basis_at b t n x : bspline_space b t -> b_rmin b <= x <= b_rmax b ->
  exists c v, b_eval b n x = Ok (c, v) /\ basis_values b t n x c v /\ (c < b_cells b)%nat.
Proof. intros S Hx. destruct (bs_eval b t S n x Hx) as [c [v [E V]]]. exists c, v. split; [auto|]. split; [auto|]. apply V. Qed.

Lemma tensor_ext br bt E E' pr pt : (forall i j, (i <= b_deg br)%nat -> (j <= b_deg bt)%nat -> E (fst pr + i)%nat (fst pt + j)%nat = E' (fst pr + i)%nat (fst pt + j)%nat) ->
  tensor_spline br bt E pr pt = tensor_spline br bt E' pr pt.
Proof. intros H. apply Rsum_ext. intros i Hi. apply Rsum_ext. intros j Hj. rewrite H by lia. reflexivity. Qed.

Theorem polar_spline_is_tensor br bt tr tt m x0 y0 : bspline_space br tr -> bspline_space bt tt -> (b_deg bt <= b_cells bt)%nat ->
  polar_mapping br bt m -> polar_domain 2 br bt -> dm_o_point m = Ok (x0, y0) ->
  (exists j, (j < b_size bt)%nat /\ ctrl bt m 1 j <> (x0, y0)) ->
  exists e tau, polar_make 2 br bt m = Ok e /\ 0 < tau /\
    (forall j, (j < b_size bt)%nat -> in_triangle x0 y0 tau (ctrl_x bt m 1 j) (ctrl_y bt m 1 j)) /\
    (forall u, 0 < u -> (forall j, (j < b_size bt)%nat -> in_triangle x0 y0 u (ctrl_x bt m 1 j) (ctrl_y bt m 1 j)) -> tau <= u) /\
    forall coef, length coef = polar_nbasis 2 br bt -> exists a b c,
      (forall k, (k < 3)%nat -> affine a b c (corner_x x0 tau (2 - k)) (corner_y y0 tau (2 - k)) = nth k coef 0) /\
      (forall x y, affine a b c x y = Rsum 3 (fun k => nth k coef 0 * cart_to_bary (triangle (x0, y0) tau) (c2 x y) (2 - k)%nat)) /\
      forall n q r th, b_rmin br <= r <= b_rmax br -> b_rmin bt <= th <= b_rmax bt ->
        exists pr pt, b_eval br n r = Ok pr /\ b_eval bt q th = Ok pt /\
          eval_no_bc 2 br bt e coef n q r th
          = Ok (tensor_spline br bt (polar_coefficient 2 (b_cells bt) (affine a b c) (ctrl_x bt m) (ctrl_y bt m) coef) pr pt).
Proof.
  intros SR ST Hdt M D HO [j1 [Hj1 Hne]].
  set (tau := triangle_size (x0, y0) (row1 bt m)).
  destruct (polar_make_ok 2 br bt m x0 y0 M D ltac:(lia) (bs_cells bt tt ST) HO) as [e [He Hh]]. fold tau in Hh.
  assert (IN : forall j, (j < b_size bt)%nat -> In (ctrl bt m 1 j) (row1 bt m)).
  { intros j Hj. unfold row1. apply in_map. apply in_seq. lia. }
  assert (TP : 0 < tau) by (apply (triangle_size_pos (x0, y0) _ (ctrl bt m 1 j1)); auto).
  destruct (triangle_size_spec (x0, y0) (row1 bt m)) as [_ [TB TM]]. cbv zeta in TB, TM. fold tau in TB, TM. cbn [fst snd] in TB, TM.
  exists e, tau. split; [exact He|]. split; [exact TP|]. split.
  { intros j Hj. apply in_triangle_bound; auto. apply (TB _ (IN j Hj)). }
  split.
  { intros u Hu HU. apply TM; [lra|]. intros p Hp. unfold row1 in Hp. apply in_map_iff in Hp. destruct Hp as [j [<- Hj]]. apply in_seq in Hj.
    pose proof (HU j ltac:(lia)) as HI. apply in_triangle_bound in HI; auto. }
  intros coef HL.
  destruct (affine_through x0 y0 tau (fun k => nth (2 - k) coef 0) ltac:(lra)) as [a [b [c [HC HA]]]].
  exists a, b, c. split; [|split].
  - intros k Hk. rewrite HC by lia. f_equal. lia.
  - intros x y. rewrite <- HA. cbn [Rsum Nat.sub]. ring.
  - intros n q r th Hr Hth.
    destruct (basis_at br tr n r SR Hr) as [cr [vr [Er [_ Hcr]]]]. destruct (basis_at bt tt q th ST Hth) as [ct [vt [Et [_ Hct]]]].
    exists (cr, vr), (ct, vt). split; [exact Er|]. split; [exact Et|]. destruct D as [_ [_ [_ [D3 D4]]]].
    rewrite (eval_no_bc_ok 2 br bt e _ coef n q r th cr vr ct vt Hh Er Et Hcr Hct ltac:(lia) Hdt D3 HL).
    f_equal. apply tensor_ext. intros i j Hi Hj. unfold expand, polar_coefficient. cbn [fst].
    destruct (cr + i <? 2)%nat; [|reflexivity].
    rewrite <- HA. change (n_singular 2) with 3%nat. cbn [Rsum]. rewrite !sing_elem_2 by lia. cbn [ctrl fst snd Nat.sub]. ring.
Qed.
