(** The builders of discrete mappings: values, interpolation, uniqueness, pole. *)
From Verif Require Import Lib LagDerivSpec DerivModel QuadModel QuadProofs FemSolve FemAsm MappingModel OnionEval PspModel PspSpec PspProofs PspBasis PspMain PspCor DmbModel DmbSpec.
Open Scope R_scope.

(** ** The loop over the grid *)
Lemma pair_dec (p q : nat * nat) : {p = q} + {p <> q}. Proof. decide equality; apply Nat.eq_dec. Qed.
Lemma set_values_gen A gr gt order : forall xs ys,
  (forall i j, In (i, j) order -> (i < length gr)%nat /\ (j < length gt)%nat) ->
  length xs = (length gr * length gt)%nat -> length ys = (length gr * length gt)%nat ->
  exists xs' ys', set_values A gr gt order (xs, ys) = Ok (xs', ys') /\
    length xs' = (length gr * length gt)%nat /\ length ys' = (length gr * length gt)%nat /\
    forall i j, (j < length gt)%nat ->
      nth (i * length gt + j) xs' 0 = (if in_dec pair_dec (i, j) order then fst (image A (nth i gr 0) (nth j gt 0)) else nth (i * length gt + j) xs 0) /\
      nth (i * length gt + j) ys' 0 = (if in_dec pair_dec (i, j) order then snd (image A (nth i gr 0) (nth j gt 0)) else nth (i * length gt + j) ys 0).
Proof.
  unfold set_values. induction order as [|[a b] l IH]; intros xs ys HI LX LY.
  - exists xs, ys. cbn [fold_left]. split; [reflexivity|]. split; [auto|]. split; [auto|]. intros i j _. destruct (in_dec pair_dec (i, j) []) as [F|F]; [destruct F|auto].
  - cbn [fold_left bind]. destruct (HI a b (or_introl eq_refl)) as [Ha Hb].
    rewrite (rd_nth gr a 0 Ha). cbn [bind]. rewrite (rd_nth gt b 0 Hb). cbn [bind].
    replace (Z.of_nat a * Z.of_nat (length gt) + Z.of_nat b)%Z with (Z.of_nat (a * length gt + b)) by lia.
    assert (LT : (a * length gt + b < length gr * length gt)%nat).
    { apply Nat.lt_le_trans with ((a + 1) * length gt)%nat; [lia|]. apply Nat.mul_le_mono_r. lia. }
    destruct (wr_nth xs (a * length gt + b) (A (c2 (nth a gr 0) (nth b gt 0)) 0%nat) 0 ltac:(lia)) as [x1 [E1 [L1 N1]]].
    destruct (wr_nth ys (a * length gt + b) (A (c2 (nth a gr 0) (nth b gt 0)) 1%nat) 0 ltac:(lia)) as [y1 [E2 [L2 N2]]].
    rewrite E1. cbn [bind]. rewrite E2. cbn [bind].
    destruct (IH x1 y1) as [xs' [ys' [E [L3 [L4 N]]]]]; [intros i j H; apply HI; right; exact H|lia|lia|].
    exists xs', ys'. split; [exact E|]. split; [exact L3|]. split; [exact L4|].
    intros i j Hj. destruct (N i j Hj) as [NX NY]. rewrite NX, NY.
    assert (Q : (i * length gt + j =? a * length gt + b)%nat = true <-> (a, b) = (i, j)).
    { rewrite Nat.eqb_eq. split; [|intros [= -> ->]; reflexivity]. intros Q.
      assert (i = a) by (apply (f_equal (fun k => (k / length gt)%nat)) in Q; rewrite !Nat.div_add_l, !Nat.div_small in Q by lia; lia).
      f_equal; nia. }
    destruct (in_dec pair_dec (i, j) l) as [F|F].
    + destruct (in_dec pair_dec (i, j) ((a, b) :: l)) as [G|G]; [auto|]. exfalso. apply G. right. exact F.
    + rewrite N1, N2. destruct (i * length gt + j =? a * length gt + b)%nat eqn:EQ.
      * pose proof (proj1 Q eq_refl) as EE; injection EE as <- <-. destruct (in_dec pair_dec (a, b) ((a, b) :: l)) as [G|G]; [split; reflexivity|]. exfalso. apply G. left. reflexivity.
      * destruct (in_dec pair_dec (i, j) ((a, b) :: l)) as [G|G]; [|auto]. destruct G as [G|G]; [|contradiction]. apply Q in G. discriminate.
Qed.
Lemma set_values_ok A bu order uninit : grid_loop bu order uninit ->
  exists xs ys, set_values A (bu_r bu) (bu_t bu) order uninit = Ok (xs, ys) /\
    length xs = (length (bu_r bu) * length (bu_t bu))%nat /\ length ys = (length (bu_r bu) * length (bu_t bu))%nat /\
    forall i j, (i < length (bu_r bu))%nat -> (j < length (bu_t bu))%nat ->
      (nth (i * length (bu_t bu) + j) xs 0, nth (i * length (bu_t bu) + j) ys 0) = image A (nth i (bu_r bu) 0) (nth j (bu_t bu) 0).
Proof.
  intros [_ [HI [LX LY]]]. destruct uninit as [ux uy]. cbn [fst snd] in *.
  destruct (set_values_gen A (bu_r bu) (bu_t bu) order ux uy) as [xs [ys [E [L1 [L2 N]]]]]; auto.
  { intros i j H. apply HI, H. }
  exists xs, ys. split; [exact E|]. split; [exact L1|]. split; [exact L2|]. intros i j Hi Hj.
  destruct (N i j Hj) as [N1 N2]. rewrite N1, N2. destruct (in_dec pair_dec (i, j) order) as [F|F]; [reflexivity|].
  exfalso. apply F, HI. auto.
Qed.

(** ** What the builder gives *)
Lemma fits_coefs br bt tr tt bu ev cx cy A : builder_setup br bt tr tt bu ev ->
  length cx = (nbasis_r br * b_size bt)%nat -> length cy = (nbasis_r br * b_size bt)%nat ->
  (forall r th pr pt, In r (bu_r bu) -> In th (bu_t bu) -> b_eval br 0 r = Ok pr -> b_eval bt 0 th = Ok pt ->
     (tensor_spline br bt (field2 bt cx) pr pt, tensor_spline br bt (field2 bt cy) pr pt) = image A r th) <->
  fits {| dm_x := cx; dm_y := cy; dm_ev := ev |} bu A.
Proof.
  intros H LX LY. split.
  - intros F r th Hr Ht. unfold dm_apply. cbn [dm_ev dm_x dm_y].
    pose proof (bu_in_r _ _ _ _ _ _ H r Hr) as Dr. pose proof (bu_in_t _ _ _ _ _ _ H th Ht) as Dt.
    destruct (basis_at br tr 0 r (bu_space_r _ _ _ _ _ _ H) Dr) as [cr [vr [Er _]]].
    destruct (basis_at bt tt 0 th (bu_space_t _ _ _ _ _ _ H) Dt) as [ct [vt [Et _]]].
    rewrite (bu_ev _ _ _ _ _ _ H 0%nat 0%nat cx r th _ _ LX Dr Dt Er Et). cbn [bind].
    rewrite (bu_ev _ _ _ _ _ _ H 0%nat 0%nat cy r th _ _ LY Dr Dt Er Et). cbn [bind].
    rewrite <- (F r th (cr, vr) (ct, vt) Hr Ht Er Et). reflexivity.
  - intros F r th pr pt Hr Ht Er Et. specialize (F r th Hr Ht). unfold dm_apply in F. cbn [dm_ev dm_x dm_y] in F.
    pose proof (bu_in_r _ _ _ _ _ _ H r Hr) as Dr. pose proof (bu_in_t _ _ _ _ _ _ H th Ht) as Dt.
    rewrite (bu_ev _ _ _ _ _ _ H 0%nat 0%nat cx r th _ _ LX Dr Dt Er Et) in F. cbn [bind] in F.
    rewrite (bu_ev _ _ _ _ _ _ H 0%nat 0%nat cy r th _ _ LY Dr Dt Er Et) in F. cbn [bind] in F. congruence.
Qed.
Theorem builder_fits br bt tr tt bu ev A order uninit : builder_setup br bt tr tt bu ev -> grid_loop bu order uninit ->
  exists m, build_mapping A bu ev order uninit = Ok m /\ polar_mapping br bt (bd_map m) /\ fits (bd_map m) bu A /\
    dm_ev (bd_map m) = ev /\
    bd_singular m = {| r2_r0 := 0; r2_t0 := 0; r2_nr := 1; r2_nt := length (bu_t bu) |}.
Proof.
  intros H G. destruct (set_values_ok A bu order uninit G) as [xs [ys [E [LX [LY N]]]]].
  unfold build_mapping. rewrite E. cbn [bind].
  destruct (bu_ddc _ _ _ _ _ _ H xs LX) as [cx [EX [LCX [PX IX]]]]. destruct (bu_ddc _ _ _ _ _ _ H ys LY) as [cy [EY [LCY [PY IY]]]].
  rewrite EX. cbn [bind]. rewrite EY. cbn [bind]. cbn [r2_nt r2_nr].
  assert (L0 : (1 <= length (bu_r bu))%nat).
  { pose proof (bu_first _ _ _ _ _ _ H) as F. destruct (bu_r bu); [discriminate|cbn; lia]. }
  unfold take_first. cbn [r2_nr r2_nt]. replace (1 <=? length (bu_r bu))%nat with true by (symmetry; apply Nat.leb_le; exact L0).
  rewrite Nat.leb_refl. cbn [andb check bind r2_r0 r2_t0]. eexists. split; [reflexivity|]. cbn [bd_map bd_singular dm_ev].
  split; [|split; [|split; reflexivity]].
  - constructor; auto.
    + intros i j Hi Hj. apply PX; auto.
    + intros i j Hi Hj. apply PY; auto.
    + apply (bu_ev _ _ _ _ _ _ H).
  - apply (fits_coefs br bt tr tt bu ev cx cy A H LCX LCY).
    intros r th pr pt Hr Ht Er Et.
    destruct (In_nth_error _ _ Hr) as [i Ei]. destruct (In_nth_error _ _ Ht) as [j Ej].
    rewrite (IX i j r th pr pt Ei Ej Er Et), (IY i j r th pr pt Ei Ej Er Et).
    rewrite N by (apply nth_error_Some; congruence).
    rewrite (nth_error_nth _ _ _ Ei), (nth_error_nth _ _ _ Ej). reflexivity.
Qed.

(** ** The points determine the tensor-product splines *)
Lemma tensor_rows br bt E pr pt : tensor_spline br bt E pr pt = spline1 bt (fun j => spline1 br (fun i => E i j) pr) pt.
Proof.
  unfold tensor_spline, spline1. rewrite Rsum_swap. apply Rsum_ext. intros j _. rewrite <- Rsum_scal_r. apply Rsum_ext. intros; ring.
Qed.
Lemma determines_2 br bt tr tt bu ev E : builder_setup br bt tr tt bu ev ->
  (forall i, (i < nbasis_r br)%nat -> periodic_coefs bt (E i)) ->
  (forall r th pr pt, In r (bu_r bu) -> In th (bu_t bu) -> b_eval br 0 r = Ok pr -> b_eval bt 0 th = Ok pt -> tensor_spline br bt E pr pt = 0) ->
  forall i j, (i < nbasis_r br)%nat -> (j < b_size bt)%nat -> E i j = 0.
Proof.
  intros H P Z i j Hi Hj.
  assert (row : forall r pr, In r (bu_r bu) -> b_eval br 0 r = Ok pr -> spline1 br (fun i => E i j) pr = 0).
  { intros r pr Hr Er.
    apply (bu_det_t _ _ _ _ _ _ H (fun j => spline1 br (fun i => E i j) pr)); auto.
    - intros k Hk. unfold spline1. apply Rsum_ext. intros a Ha. rewrite P by (auto; pose proof (bu_in_r _ _ _ _ _ _ H r Hr) as Dr;
        destruct (basis_at br tr 0 r (bu_space_r _ _ _ _ _ _ H) Dr) as [cr [vr [Er' [_ Hc]]]]; rewrite Er in Er'; injection Er' as ->; cbn [fst]; unfold nbasis_r; lia). reflexivity.
    - intros th pt Ht Et. rewrite <- tensor_rows. apply (Z r th); auto. }
  apply (bu_det_r _ _ _ _ _ _ H (fun i => E i j)); auto.
Qed.
Theorem fits_unique br bt tr tt bu ev A m m' : builder_setup br bt tr tt bu ev ->
  polar_mapping br bt m -> polar_mapping br bt m' -> fits m bu A -> fits m' bu A -> same_control_points br bt m m'.
Proof.
  intros H M M' F F' i j Hi Hj. unfold ctrl.
  assert (X : forall r th pr pt, In r (bu_r bu) -> In th (bu_t bu) -> b_eval br 0 r = Ok pr -> b_eval bt 0 th = Ok pt ->
      tensor_spline br bt (ctrl_x bt m) pr pt = tensor_spline br bt (ctrl_x bt m') pr pt /\
      tensor_spline br bt (ctrl_y bt m) pr pt = tensor_spline br bt (ctrl_y bt m') pr pt).
  { intros r th pr pt Hr Ht Er Et. specialize (F r th Hr Ht). specialize (F' r th Hr Ht). unfold dm_apply in F, F'.
    pose proof (bu_in_r _ _ _ _ _ _ H r Hr) as Dr. pose proof (bu_in_t _ _ _ _ _ _ H th Ht) as Dt.
    rewrite (pm_ev _ _ _ M 0%nat 0%nat _ r th _ _ (pm_len_x _ _ _ M) Dr Dt Er Et), (pm_ev _ _ _ M 0%nat 0%nat _ r th _ _ (pm_len_y _ _ _ M) Dr Dt Er Et) in F.
    rewrite (pm_ev _ _ _ M' 0%nat 0%nat _ r th _ _ (pm_len_x _ _ _ M') Dr Dt Er Et), (pm_ev _ _ _ M' 0%nat 0%nat _ r th _ _ (pm_len_y _ _ _ M') Dr Dt Er Et) in F'.
    cbn [bind] in F, F'. unfold ctrl_x, ctrl_y. rewrite <- F' in F. injection F as F1 F2. auto. }
  assert (D : forall E E', (forall i, (i < nbasis_r br)%nat -> periodic_coefs bt (E i)) -> (forall i, (i < nbasis_r br)%nat -> periodic_coefs bt (E' i)) ->
      (forall r th pr pt, In r (bu_r bu) -> In th (bu_t bu) -> b_eval br 0 r = Ok pr -> b_eval bt 0 th = Ok pt -> tensor_spline br bt E pr pt = tensor_spline br bt E' pr pt) ->
      E i j = E' i j).
  { intros E E' PE PE' T. pose proof (determines_2 br bt tr tt bu ev (fun i j => E i j + -1 * E' i j) H) as D. cbv beta in D.
    enough (E i j + -1 * E' i j = 0) by lra. apply D; auto.
    - intros a Ha b Hb. rewrite PE, PE' by auto. reflexivity.
    - intros r th pr pt Hr Ht Er Et. rewrite (tensor_plus br bt E (fun i j => -1 * E' i j)), tensor_scal, (T r th pr pt) by auto. ring. }
  f_equal; apply D; try (intros a Ha b Hb; first [apply (pm_per_x _ _ _ M) | apply (pm_per_y _ _ _ M) | apply (pm_per_x _ _ _ M') | apply (pm_per_y _ _ _ M')]; assumption);
    intros r th pr pt Hr Ht Er Et; apply (X r th pr pt Hr Ht Er Et).
Qed.

(** ** The pole *)
Lemma pole_row br bt tr tt bu ev E e0 : builder_setup br bt tr tt bu ev -> b_rmin br = 0 -> periodic_coefs bt (E 0%nat) ->
  (forall th pr pt, In th (bu_t bu) -> b_eval br 0 0 = Ok pr -> b_eval bt 0 th = Ok pt -> tensor_spline br bt E pr pt = e0) ->
  forall j, (j < b_size bt)%nat -> E 0%nat j = e0.
Proof.
  intros H H0 P T j Hj. pose proof (bu_space_r _ _ _ _ _ _ H) as SR. pose proof (bu_space_t _ _ _ _ _ _ H) as ST.
  assert (D0 : b_rmin br <= 0 <= b_rmax br).
  { rewrite <- H0. apply (bu_in_r _ _ _ _ _ _ H). apply (nth_error_In _ 0). apply (bu_first _ _ _ _ _ _ H). }
  destruct (basis_at br tr 0 0 SR D0) as [cr [vr [Er [Vr _]]]].
  destruct (clamped_at_0 br tr cr vr SR (bu_clamped _ _ _ _ _ _ H) H0 Vr) as [C0 [W0 WJ]].
  enough (E 0%nat j + - e0 = 0) by lra.
  apply (bu_det_t _ _ _ _ _ _ H (fun j => E 0%nat j + - e0)); auto.
  - intros k Hk. rewrite P by auto. reflexivity.
  - intros th pt Ht Et. specialize (T th (cr, vr) pt Ht Er Et). rewrite tensor_factor in T. cbn [fst snd] in T.
    rewrite Nat.add_1_r, Rsum_first in T. rewrite (Rsum_zero (b_deg br)) in T by (intros i Hi; rewrite (WJ (Datatypes.S i)) by lia; ring).
    rewrite W0, C0 in T. cbn [Nat.add] in T.
    pose proof (bu_in_t _ _ _ _ _ _ H th Ht) as Dt. destruct (basis_at bt tt 0 th ST Dt) as [ct [vt [Et' [Vt _]]]]. rewrite Et in Et'. injection Et' as ->.
    unfold spline1. cbn [fst snd] in *. rewrite (Rsum_ext _ _ (fun i => E 0%nat (ct + i)%nat * vt i + - e0 * vt i)) by (intros; ring).
    rewrite Rsum_plus, Rsum_scal. rewrite (basis_sum bt tt 0 th _ _ Vt). cbn [Nat.eqb]. lra.
Qed.
Theorem builder_pole br bt tr tt bu ev A x0 y0 m : builder_setup br bt tr tt bu ev -> b_rmin br = 0 ->
  has_pole br bu A x0 y0 -> polar_mapping br bt m -> fits m bu A ->
  row0_is bt m x0 y0 /\ forall th, b_rmin bt <= th <= b_rmax bt -> dm_apply m 0 th = Ok (x0, y0).
Proof.
  intros H H0 HP M F. pose proof (bu_space_r _ _ _ _ _ _ H) as SR. pose proof (bu_space_t _ _ _ _ _ _ H) as ST.
  assert (I0 : In 0 (bu_r bu)) by (rewrite <- H0; apply (nth_error_In _ 0); apply (bu_first _ _ _ _ _ _ H)).
  assert (D0 : b_rmin br <= 0 <= b_rmax br) by (apply (bu_in_r _ _ _ _ _ _ H), I0).
  assert (N1 : (0 < nbasis_r br)%nat) by (pose proof (bs_cells _ _ SR); unfold nbasis_r; lia).
  assert (T : forall th pr pt, In th (bu_t bu) -> b_eval br 0 0 = Ok pr -> b_eval bt 0 th = Ok pt ->
      tensor_spline br bt (ctrl_x bt m) pr pt = x0 /\ tensor_spline br bt (ctrl_y bt m) pr pt = y0).
  { intros th pr pt Ht Er Et. specialize (F 0 th I0 Ht). rewrite <- H0 in F. rewrite (HP th Ht) in F. rewrite H0 in F. unfold dm_apply in F.
    pose proof (bu_in_t _ _ _ _ _ _ H th Ht) as Dt.
    rewrite (pm_ev _ _ _ M 0%nat 0%nat _ 0 th _ _ (pm_len_x _ _ _ M) D0 Dt Er Et), (pm_ev _ _ _ M 0%nat 0%nat _ 0 th _ _ (pm_len_y _ _ _ M) D0 Dt Er Et) in F.
    cbn [bind] in F. unfold ctrl_x, ctrl_y. injection F as F1 F2. auto. }
  assert (R0 : row0_is bt m x0 y0).
  { intros j Hj. split.
    - apply (pole_row br bt tr tt bu ev (ctrl_x bt m) x0 H H0); auto; [intros k Hk; apply (pm_per_x _ _ _ M); auto|].
      intros th pr pt Ht Er Et. apply (T th pr pt Ht Er Et).
    - apply (pole_row br bt tr tt bu ev (ctrl_y bt m) y0 H H0); auto; [intros k Hk; apply (pm_per_y _ _ _ M); auto|].
      intros th pr pt Ht Er Et. apply (T th pr pt Ht Er Et). }
  split; [exact R0|]. intros th Ht. unfold dm_apply.
  destruct (basis_at br tr 0 0 SR D0) as [cr [vr [Er [Vr _]]]]. destruct (basis_at bt tt 0 th ST Ht) as [ct [vt [Et [Vt _]]]].
  rewrite (pm_ev _ _ _ M 0%nat 0%nat _ 0 th (cr, vr) (ct, vt) (pm_len_x _ _ _ M) D0 Ht Er Et). cbn [bind].
  rewrite (pm_ev _ _ _ M 0%nat 0%nat _ 0 th (cr, vr) (ct, vt) (pm_len_y _ _ _ M) D0 Ht Er Et). cbn [bind].
  pose proof (bu_clamped _ _ _ _ _ _ H) as C.
  rewrite (pole_value br bt tr tt (field2 bt (dm_x m)) x0 0 th (cr, vr) (ct, vt) SR C H0 Vr Vt) by (intros; apply R0; auto).
  rewrite (pole_value br bt tr tt (field2 bt (dm_y m)) y0 0 th (cr, vr) (ct, vt) SR C H0 Vr Vt) by (intros; apply R0; auto).
  reflexivity.
Qed.
(** both ways to compute the O-point agree with the pole *)
Theorem builder_o_point br bt tr tt bu ev A x0 y0 order uninit m host : builder_setup br bt tr tt bu ev -> b_rmin br = 0 ->
  b_rmin bt <= 0 <= b_rmax bt -> bu_t bu <> [] -> has_pole br bu A x0 y0 -> grid_loop bu order uninit ->
  build_mapping A bu ev order uninit = Ok m -> mapping_o_point host m (bu_r bu) (bu_t bu) = Ok (x0, y0).
Proof.
  intros H H0 HT NE HP G E. destruct (builder_fits br bt tr tt bu ev A order uninit H G) as [m' [E' [M [F [_ SG]]]]].
  rewrite E in E'. injection E' as <-. destruct (builder_pole br bt tr tt bu ev A x0 y0 (bd_map m) H H0 HP M F) as [R0 V].
  unfold mapping_o_point. destruct host.
  - unfold dm_o_point. apply V. exact HT.
  - rewrite SG. unfold take_first. cbn [r2_r0 r2_t0 r2_nr r2_nt].
    destruct (bu_t bu) as [|t0 l] eqn:ET; [congruence|]. replace (1 <=? length (t0 :: l))%nat with true by reflexivity. cbn [Nat.leb andb check bind r2_r0 r2_t0].
    pose proof (bu_first _ _ _ _ _ _ H) as B1. unfold rd at 1. cbn [Z.ltb Z.compare Z.of_nat Z.to_nat]. rewrite B1. cbn [bind].
    unfold rd. cbn. rewrite H0. apply V. apply (bu_in_t _ _ _ _ _ _ H). rewrite ET. left. reflexivity.
Qed.

(** ** An affine map of the analytical mapping is an affine map of the discrete one *)
Theorem builder_affine br bt tr tt bu ev A a11 a12 a21 a22 bx by_ m m' : builder_setup br bt tr tt bu ev ->
  polar_mapping br bt m -> polar_mapping br bt m' -> fits m bu A ->
  fits m' bu (fun p => affine_map a11 a12 a21 a22 bx by_ (A p)) ->
  forall i j, (i < nbasis_r br)%nat -> (j < b_size bt)%nat ->
    ctrl bt m' i j = (affine bx a11 a12 (ctrl_x bt m i j) (ctrl_y bt m i j), affine by_ a21 a22 (ctrl_x bt m i j) (ctrl_y bt m i j)).
Proof.
  intros H M M' F F' i j Hi Hj.
  assert (D : forall E a b c, (forall i, (i < nbasis_r br)%nat -> periodic_coefs bt (E i)) ->
      (forall r th pr pt, In r (bu_r bu) -> In th (bu_t bu) -> b_eval br 0 r = Ok pr -> b_eval bt 0 th = Ok pt ->
         tensor_spline br bt E pr pt = affine a b c (tensor_spline br bt (ctrl_x bt m) pr pt) (tensor_spline br bt (ctrl_y bt m) pr pt)) ->
      E i j = affine a b c (ctrl_x bt m i j) (ctrl_y bt m i j)).
  { intros E a b c PE T.
    enough (E i j + -1 * affine a b c (ctrl_x bt m i j) (ctrl_y bt m i j) = 0) by lra.
    apply (determines_2 br bt tr tt bu ev (fun i j => E i j + -1 * affine a b c (ctrl_x bt m i j) (ctrl_y bt m i j)) H); auto.
    - intros k Hk l Hl. rewrite PE by auto. rewrite (pm_per_x _ _ _ M), (pm_per_y _ _ _ M) by auto. reflexivity.
    - intros r th pr pt Hr Ht Er Et. rewrite (tensor_plus br bt E (fun i j => -1 * affine a b c (ctrl_x bt m i j) (ctrl_y bt m i j))), tensor_scal, (T r th pr pt) by auto.
      rewrite tensor_affine.
      pose proof (bu_in_r _ _ _ _ _ _ H r Hr) as Dr. pose proof (bu_in_t _ _ _ _ _ _ H th Ht) as Dt.
      destruct (basis_at br tr 0 r (bu_space_r _ _ _ _ _ _ H) Dr) as [cr [vr [Er' [Vr _]]]]. destruct (basis_at bt tt 0 th (bu_space_t _ _ _ _ _ _ H) Dt) as [ct [vt [Et' [Vt _]]]].
      rewrite Er in Er'. injection Er' as ->. rewrite Et in Et'. injection Et' as ->. cbn [fst snd].
      rewrite (basis_sum _ _ _ _ _ _ Vr), (basis_sum _ _ _ _ _ _ Vt). cbn [Nat.eqb]. unfold affine. ring. }
  assert (X : forall r th pr pt, In r (bu_r bu) -> In th (bu_t bu) -> b_eval br 0 r = Ok pr -> b_eval bt 0 th = Ok pt ->
      tensor_spline br bt (ctrl_x bt m') pr pt = affine bx a11 a12 (tensor_spline br bt (ctrl_x bt m) pr pt) (tensor_spline br bt (ctrl_y bt m) pr pt) /\
      tensor_spline br bt (ctrl_y bt m') pr pt = affine by_ a21 a22 (tensor_spline br bt (ctrl_x bt m) pr pt) (tensor_spline br bt (ctrl_y bt m) pr pt)).
  { intros r th pr pt Hr Ht Er Et. specialize (F r th Hr Ht). specialize (F' r th Hr Ht). unfold dm_apply in F, F'.
    pose proof (bu_in_r _ _ _ _ _ _ H r Hr) as Dr. pose proof (bu_in_t _ _ _ _ _ _ H th Ht) as Dt.
    rewrite (pm_ev _ _ _ M 0%nat 0%nat _ r th _ _ (pm_len_x _ _ _ M) Dr Dt Er Et), (pm_ev _ _ _ M 0%nat 0%nat _ r th _ _ (pm_len_y _ _ _ M) Dr Dt Er Et) in F.
    rewrite (pm_ev _ _ _ M' 0%nat 0%nat _ r th _ _ (pm_len_x _ _ _ M') Dr Dt Er Et), (pm_ev _ _ _ M' 0%nat 0%nat _ r th _ _ (pm_len_y _ _ _ M') Dr Dt Er Et) in F'.
    cbn [bind] in F, F'. unfold image in F, F'. unfold ctrl_x, ctrl_y. injection F as F1 F2. injection F' as F3 F4. rewrite F1, F2, F3, F4.
    split; reflexivity. }
  unfold ctrl. f_equal; apply D; try (intros k Hk l Hl; first [apply (pm_per_x _ _ _ M') | apply (pm_per_y _ _ _ M')]; assumption);
    intros r th pr pt Hr Ht Er Et; apply (X r th pr pt Hr Ht Er Et).
Qed.
