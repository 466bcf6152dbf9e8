(** Splines reproduce x; the discrete mapping built from the circular one is linear in r. *)
From Verif Require Import Lib LagDerivSpec DerivModel QuadModel QuadProofs FemSolve FemAsm MappingModel OnionEval PspModel PspSpec PspProofs PspBasis PspMain PspCor DmbModel DmbSpec DmbProofs.
Open Scope R_scope.

(** ** The Greville abscissae are the coefficients of x *)
Definition knot_sum (t : nat -> R) (p i : nat) : R := Rsum p (fun k => t (i + k + 1)%nat).
Lemma cdb_linear t m p x : (p <= m)%nat -> (forall i j, (i <= m)%nat -> (m < j <= m + p)%nat -> t i < t j) ->
  Rsum (p + 1) (fun j => knot_sum t p (m + j - p)%nat * cdb t m p j x) = INR p * x.
Proof.
  induction p as [|p IH]; intros Hp HT.
  - cbn. unfold knot_sum. cbn. ring.
  - assert (E : Rsum (S p + 1) (fun j => knot_sum t (S p) (m + j - S p) * cdb t m (S p) j x)
       = Rsum (p + 1) (fun j => knot_sum t p (m + j - p)%nat * cdb t m p j x) + x * Rsum (p + 1) (fun j => cdb t m p j x)).
    { rewrite <- Rsum_scal, <- Rsum_plus.
      assert (A1 : Rsum (S p + 1) (fun j => knot_sum t (S p) (m + j - S p) * match j with O => 0 | S j' => cdb_weight t m (S p) j x * cdb t m p j' x end)
          = Rsum (p + 1) (fun j => knot_sum t (S p) (m + (S j) - S p) * (cdb_weight t m (S p) (S j) x * cdb t m p j x))).
      { replace (S p + 1)%nat with (S (p + 1)) by lia. rewrite Rsum_first. ring. }
      assert (A2 : Rsum (S p + 1) (fun j => knot_sum t (S p) (m + j - S p) * ((1 - cdb_weight t m (S p) (S j) x) * cdb t m p j x))
          = Rsum (p + 1) (fun j => knot_sum t (S p) (m + j - S p) * ((1 - cdb_weight t m (S p) (S j) x) * cdb t m p j x))).
      { replace (S p + 1)%nat with (S (p + 1)) by lia. cbn [Rsum]. rewrite (cdb_out t m p (p + 1) x) by lia. ring. }
      transitivity (Rsum (S p + 1) (fun j => knot_sum t (S p) (m + j - S p) * match j with O => 0 | S j' => cdb_weight t m (S p) j x * cdb t m p j' x end)
          + Rsum (S p + 1) (fun j => knot_sum t (S p) (m + j - S p) * ((1 - cdb_weight t m (S p) (S j) x) * cdb t m p j x))).
      { rewrite <- Rsum_plus. apply Rsum_ext. intros j _. cbn [cdb]. ring. }
      rewrite A1, A2, <- Rsum_plus. apply Rsum_ext. intros j Hj.
      assert (K1 : knot_sum t (S p) (m + S j - S p) = knot_sum t p (m + j - p) + t (m + j + 1)%nat).
      { unfold knot_sum. cbn [Rsum]. replace (m + S j - S p)%nat with (m + j - p)%nat by lia. replace (m + j - p + p + 1)%nat with (m + j + 1)%nat by lia. reflexivity. }
      assert (K2 : knot_sum t (S p) (m + j - S p) = t (m + j - p)%nat + knot_sum t p (m + j - p)).
      { unfold knot_sum. rewrite Rsum_first. f_equal; [f_equal; lia|]. apply Rsum_ext. intros k _. f_equal. lia. }
      rewrite K1, K2. unfold cdb_weight. replace (m + S j - S p)%nat with (m + j - p)%nat by lia. replace (m + S j)%nat with (m + j + 1)%nat by lia.
      pose proof (HT (m + j - p)%nat (m + j + 1)%nat ltac:(lia) ltac:(lia)) as D. field. lra. }
    rewrite E, cdb_sum, IH, S_INR; [ring|lia|]. intros i j Hi Hj. apply HT; lia.
Qed.
Definition greville (b : bspace) (t : nat -> R) (i : nat) : R := knot_sum t (b_deg b) i / INR (b_deg b).
Lemma knots_apart b t c i j : bspline_space b t -> (c < b_cells b)%nat -> (i <= b_deg b + c)%nat -> (b_deg b + c < j <= b_deg b + c + b_deg b)%nat -> t i < t j.
Proof.
  intros S Hc Hi Hj. pose proof (bs_breaks b t S c Hc) as B.
  pose proof (bs_mono b t S i (b_deg b + c) ltac:(lia)). pose proof (bs_mono b t S (b_deg b + c + 1) j ltac:(lia)). lra.
Qed.
Lemma deg_pos d : (1 <= d)%nat -> 0 < INR d. Proof. intros H. apply lt_0_INR. lia. Qed.
(** the spline with the Greville abscissae as coefficients: x and its derivatives *)
Lemma greville_values b t n x c v : bspline_space b t -> (1 <= b_deg b)%nat -> basis_values b t n x c v -> (n <= 1)%nat ->
  spline1 b (greville b t) (c, v) = if (n =? 0)%nat then x else 1.
Proof.
  intros S Hd V Hn. destruct V as [Hc [_ V]]. pose proof (deg_pos _ Hd) as HP.
  assert (L : forall y, Rsum (b_deg b + 1) (fun j => greville b t (c + j)%nat * cdb t (b_deg b + c) (b_deg b) j y) = y).
  { intros y. pose proof (cdb_linear t (b_deg b + c) (b_deg b) y ltac:(lia)) as Q.
    rewrite (Rsum_ext _ _ (fun j => / INR (b_deg b) * (knot_sum t (b_deg b) (b_deg b + c + j - b_deg b) * cdb t (b_deg b + c) (b_deg b) j y))).
    - rewrite Rsum_scal, Q; [field; lra|]. intros i j Hi Hj. apply (knots_apart b t c i j S Hc Hi Hj).
    - intros j Hj. unfold greville. replace (b_deg b + c + j - b_deg b)%nat with (c + j)%nat by lia. field. lra. }
  unfold spline1. cbn [fst snd].
  assert (n = 0 \/ n = 1)%nat as [->| ->] by lia; cbn [Nat.eqb].
  - transitivity (Rsum (b_deg b + 1) (fun j => greville b t (c + j)%nat * cdb t (b_deg b + c) (b_deg b) j x)); [|apply L]. apply Rsum_ext. intros j Hj. destruct (V j ltac:(lia)) as [g [G ->]]. rewrite (nth_derivative_0 _ _ _ G). reflexivity.
  - assert (DX : derivable_pt_lim (fun y => Rsum (b_deg b + 1) (fun j => greville b t (c + j)%nat * cdb t (b_deg b + c) (b_deg b) j y)) x
        (Rsum (b_deg b + 1) (fun j => greville b t (c + j)%nat * v j))).
    { assert (GV : forall j, (j < b_deg b + 1)%nat -> derivable_pt_lim (cdb t (b_deg b + c) (b_deg b) j) x (v j)).
      { intros j Hj. destruct (V j ltac:(lia)) as [g [[ds [D0 [DS DN]]] ->]].
        apply (derivable_pt_lim_ext' (ds 0%nat)); [intros; apply D0|]. rewrite <- DN. apply DS. lia. }
      generalize dependent (b_deg b + 1)%nat. intros N. clear - N. intros _ GV. induction N as [|N IH]; cbn [Rsum].
      - apply derivable_pt_lim_const.
      - apply (derivable_pt_lim_plus (fun y => Rsum N (fun j => greville b t (c + j)%nat * cdb t (b_deg b + c) (b_deg b) j y)) (fun y => greville b t (c + N)%nat * cdb t (b_deg b + c) (b_deg b) N y)).
        + apply IH. intros j Hj. apply GV. lia.
        + apply (derivable_pt_lim_scal (cdb t (b_deg b + c) (b_deg b) N)). apply GV. lia. }
    apply (uniqueness_limite (fun y => y) x).
    + apply (derivable_pt_lim_ext' (fun y => Rsum (b_deg b + 1) (fun j => greville b t (c + j)%nat * cdb t (b_deg b + c) (b_deg b) j y))); [exact L|exact DX].
    + apply derivable_pt_lim_id.
Qed.

(** ** Products *)
Lemma tensor_product br bt (f g : nat -> R) pr pt : tensor_spline br bt (fun i j => f i * g j) pr pt = spline1 br f pr * spline1 bt g pt.
Proof.
  rewrite tensor_rows. unfold spline1. rewrite <- Rsum_scal. apply Rsum_ext. intros j _.
  rewrite (Rsum_ext _ (fun i => f (fst pr + i)%nat * g (fst pt + j)%nat * snd pr i) (fun i => g (fst pt + j)%nat * (f (fst pr + i)%nat * snd pr i))) by (intros; ring).
  rewrite Rsum_scal. ring.
Qed.
Lemma tensor_const_product br bt a (f g : nat -> R) pr pt : tensor_spline br bt (fun i j => a + f i * g j) pr pt
  = a * (Rsum (b_deg br + 1) (snd pr) * Rsum (b_deg bt + 1) (snd pt)) + spline1 br f pr * spline1 bt g pt.
Proof. rewrite (tensor_plus br bt (fun _ _ => a) (fun i j => f i * g j)), tensor_const, tensor_product. reflexivity. Qed.

(** ** Coefficients of a + r f(theta) *)
Lemma greville_last br tr : bspline_space br tr -> clamped br tr -> b_rmin br = 0 -> (1 <= b_deg br)%nat ->
  forall i, (i < nbasis_r br)%nat -> (1 <= i)%nat -> 0 < greville br tr i.
Proof.
  intros S C H0 Hd i Hi H1. unfold greville. apply Rdiv_lt_0_compat; [|apply deg_pos, Hd]. unfold knot_sum.
  assert (NN : forall k, (k <= b_cells br + 2 * b_deg br)%nat -> 0 <= tr k).
  { intros k Hk. rewrite <- H0, <- (C 0%nat) by lia. apply (bs_mono br tr S). lia. }
  replace (b_deg br) with (b_deg br - 1 + 1)%nat at 1 by lia. rewrite Rsum_app. cbn [Rsum].
  unfold nbasis_r in Hi.
  assert (0 <= Rsum (b_deg br - 1) (fun k => tr (i + k + 1)%nat)) by (apply Rsum_nonneg; intros k Hk; apply NN; lia).
  assert (tr (b_deg br + 0 + 1)%nat <= tr (i + (b_deg br - 1 + 0) + 1)%nat) by (apply (bs_mono br tr S); pose proof (bs_cells br tr S); lia).
  pose proof (bs_breaks br tr S 0 ltac:(pose proof (bs_cells br tr S); lia)) as B.
  assert (tr (b_deg br + 0)%nat = 0) by (rewrite Nat.add_0_r, (bs_first br tr S); exact H0). lra.
Qed.
Lemma nonzero_point br bt tr tt bu ev : builder_setup br bt tr tt bu ev -> b_rmin br = 0 -> (1 <= b_deg br)%nat ->
  exists r, In r (bu_r bu) /\ r <> 0.
Proof.
  intros H H0 Hd. pose proof (bu_space_r _ _ _ _ _ _ H) as S.
  destruct (Exists_dec (fun r => r <> 0) (bu_r bu)) as [E|E].
  { intros r. destruct (Req_EM_T r 0); [right; lra|left; auto]. }
  - apply Exists_exists in E. destruct E as [r [A B]]. exists r. auto.
  - exfalso. assert (Z : forall r, In r (bu_r bu) -> r = 0).
    { intros r Hr. destruct (Req_dec r 0) as [|N]; auto. exfalso. apply E, Exists_exists. exists r. auto. }
    assert (L : (1 < nbasis_r br)%nat) by (pose proof (bs_cells _ _ S); unfold nbasis_r; lia).
    assert (G0 : greville br tr 1 = 0).
    { apply (bu_det_r _ _ _ _ _ _ H (greville br tr)); auto. intros x p Hx Ep.
      pose proof (bu_in_r _ _ _ _ _ _ H x Hx) as Dx. destruct (basis_at br tr 0 x S Dx) as [c [v [Ev [V _]]]]. rewrite Ep in Ev. injection Ev as ->.
      rewrite (greville_values br tr 0 x c v S Hd V) by lia. cbn [Nat.eqb]. auto. }
    pose proof (greville_last br tr S (bu_clamped _ _ _ _ _ _ H) H0 Hd 1 L ltac:(lia)). lra.
Qed.
Lemma linear_coefs br bt tr tt bu ev E a f : builder_setup br bt tr tt bu ev -> b_rmin br = 0 -> (1 <= b_deg br)%nat ->
  (forall i, (i < nbasis_r br)%nat -> periodic_coefs bt (E i)) ->
  (forall r th pr pt, In r (bu_r bu) -> In th (bu_t bu) -> b_eval br 0 r = Ok pr -> b_eval bt 0 th = Ok pt ->
     tensor_spline br bt E pr pt = a + r * f th) ->
  exists e, spline_through bt e (bu_t bu) f /\
    forall i j, (i < nbasis_r br)%nat -> (j < b_size bt)%nat -> E i j = a + greville br tr i * e j.
Proof.
  intros H H0 Hd P T. pose proof (bu_space_r _ _ _ _ _ _ H) as SR. pose proof (bu_space_t _ _ _ _ _ _ H) as ST.
  destruct (nonzero_point br bt tr tt bu ev H H0 Hd) as [rk [Ik Nk]].
  pose proof (bu_in_r _ _ _ _ _ _ H rk Ik) as Dk. destruct (basis_at br tr 0 rk SR Dk) as [ck [vk [Ek [Vk Hk]]]].
  set (e := fun j => (spline1 br (fun i => E i j) (ck, vk) - a) / rk).
  assert (PE : periodic_coefs bt e).
  { intros j Hj. unfold e. f_equal. f_equal. unfold spline1. apply Rsum_ext. intros i Hi. cbn [fst]. rewrite P by (auto; unfold nbasis_r; lia). reflexivity. }
  assert (VE : forall th pt, In th (bu_t bu) -> b_eval bt 0 th = Ok pt -> spline1 bt e pt = f th).
  { intros th pt Ht Et. pose proof (T rk th (ck, vk) pt Ik Ht Ek Et) as Q. rewrite tensor_rows in Q.
    pose proof (bu_in_t _ _ _ _ _ _ H th Ht) as Dt. destruct (basis_at bt tt 0 th ST Dt) as [ct [vt [Et' [Vt _]]]]. rewrite Et in Et'. injection Et' as ->.
    unfold e. unfold spline1 at 1. cbn [fst snd]. unfold spline1 at 1 in Q. cbn [fst snd] in Q.
    rewrite (Rsum_ext _ _ (fun j => / rk * (spline1 br (fun i => E i (ct + j)%nat) (ck, vk) * vt j) + - (a / rk) * vt j)) by (intros; field; exact Nk).
    rewrite Rsum_plus, !Rsum_scal, Q. rewrite (basis_sum _ _ _ _ _ _ Vt). cbn [Nat.eqb]. field. exact Nk. }
  exists e. split.
  - split; [exact PE|]. intros th Ht. pose proof (bu_in_t _ _ _ _ _ _ H th Ht) as Dt. destruct (basis_at bt tt 0 th ST Dt) as [ct [vt [Et _]]].
    exists (ct, vt). split; [exact Et|]. symmetry. apply VE; auto.
  - intros i j Hi Hj. enough (E i j + -1 * (a + greville br tr i * e j) = 0) by lra.
    apply (determines_2 br bt tr tt bu ev (fun i j => E i j + -1 * (a + greville br tr i * e j)) H); auto.
    + intros k Hk' l Hl. rewrite P, PE by auto. reflexivity.
    + intros r th pr pt Hr Ht Er Et.
      rewrite (tensor_plus br bt E (fun i j => -1 * (a + greville br tr i * e j))), tensor_scal, tensor_const_product, (T r th pr pt) by auto.
      rewrite (VE th pt Ht Et).
      pose proof (bu_in_r _ _ _ _ _ _ H r Hr) as Dr. pose proof (bu_in_t _ _ _ _ _ _ H th Ht) as Dt.
      destruct (basis_at br tr 0 r SR Dr) as [cr [vr [Er' [Vr _]]]]. destruct (basis_at bt tt 0 th ST Dt) as [ct [vt [Et' [Vt _]]]].
      rewrite Er in Er'. injection Er' as ->. rewrite Et in Et'. injection Et' as ->. cbn [fst snd].
      rewrite (basis_sum _ _ _ _ _ _ Vr), (basis_sum _ _ _ _ _ _ Vt), (greville_values br tr 0 r cr vr SR Hd Vr) by lia. cbn [Nat.eqb]. ring.
Qed.

(** ** The circular mapping *)
Lemma circular_coefs br bt tr tt bu ev ox oy m : builder_setup br bt tr tt bu ev -> b_rmin br = 0 -> (1 <= b_deg br)%nat ->
  polar_mapping br bt m -> fits m bu (circ_apply ox oy) ->
  exists C S, spline_through bt C (bu_t bu) cos /\ spline_through bt S (bu_t bu) sin /\
    (forall i j, (i < nbasis_r br)%nat -> (j < b_size bt)%nat ->
       ctrl_x bt m i j = ox + greville br tr i * C j /\ ctrl_y bt m i j = oy + greville br tr i * S j).
Proof.
  intros H H0 Hd M F.
  assert (T : forall r th pr pt, In r (bu_r bu) -> In th (bu_t bu) -> b_eval br 0 r = Ok pr -> b_eval bt 0 th = Ok pt ->
     tensor_spline br bt (ctrl_x bt m) pr pt = ox + r * cos th /\ tensor_spline br bt (ctrl_y bt m) pr pt = oy + r * sin th).
  { intros r th pr pt Hr Ht Er Et. specialize (F r th Hr Ht). unfold dm_apply in F.
    pose proof (bu_in_r _ _ _ _ _ _ H r Hr) as Dr. pose proof (bu_in_t _ _ _ _ _ _ H th Ht) as Dt.
    rewrite (pm_ev _ _ _ M 0%nat 0%nat _ r th _ _ (pm_len_x _ _ _ M) Dr Dt Er Et), (pm_ev _ _ _ M 0%nat 0%nat _ r th _ _ (pm_len_y _ _ _ M) Dr Dt Er Et) in F.
    cbn [bind] in F. unfold image, circ_apply, c2 in F. unfold ctrl_x, ctrl_y. injection F as F1 F2. rewrite F1, F2. split; ring. }
  destruct (linear_coefs br bt tr tt bu ev (ctrl_x bt m) ox cos H H0 Hd) as [C [HC EC]].
  { intros i Hi j Hj. apply (pm_per_x _ _ _ M); auto. }
  { intros r th pr pt Hr Ht Er Et. apply (T r th pr pt Hr Ht Er Et). }
  destruct (linear_coefs br bt tr tt bu ev (ctrl_y bt m) oy sin H H0 Hd) as [S [HS ES]].
  { intros i Hi j Hj. apply (pm_per_y _ _ _ M); auto. }
  { intros r th pr pt Hr Ht Er Et. apply (T r th pr pt Hr Ht Er Et). }
  exists C, S. split; [exact HC|]. split; [exact HS|]. intros i j Hi Hj. auto.
Qed.
Theorem circular_linear br bt tr tt bu ev ox oy m : builder_setup br bt tr tt bu ev -> b_rmin br = 0 -> (1 <= b_deg br)%nat ->
  polar_mapping br bt m -> fits m bu (circ_apply ox oy) ->
  exists C S, spline_through bt C (bu_t bu) cos /\ spline_through bt S (bu_t bu) sin /\ circular_form br bt m ox oy C S.
Proof.
  intros H H0 Hd M F. destruct (circular_coefs br bt tr tt bu ev ox oy m H H0 Hd M F) as [C [S [HC [HS EC]]]].
  exists C, S. split; [exact HC|]. split; [exact HS|].
  pose proof (bu_space_r _ _ _ _ _ _ H) as SR. pose proof (bu_space_t _ _ _ _ _ _ H) as ST.
  intros r th Dr Dt.
  destruct (basis_at br tr 0 r SR Dr) as [cr [vr [Er [Vr Hr]]]]. destruct (basis_at bt tt 0 th ST Dt) as [ct [vt [Et [Vt Ht]]]].
  destruct (basis_at br tr 1 r SR Dr) as [cr' [vr' [Er' [Vr' Hr']]]]. destruct (basis_at bt tt 1 th ST Dt) as [ct' [vt' [Et' [Vt' Ht']]]].
  exists (spline1 bt C (ct, vt)), (spline1 bt S (ct, vt)), (spline1 bt C (ct', vt')), (spline1 bt S (ct', vt')).
  split; [eexists; split; [exact Et|reflexivity]|]. split; [eexists; split; [exact Et|reflexivity]|].
  split; [eexists; split; [exact Et'|reflexivity]|]. split; [eexists; split; [exact Et'|reflexivity]|].
  assert (X : forall pr pt, (fst pr < b_cells br)%nat -> (fst pt < b_cells bt)%nat ->
    tensor_spline br bt (field2 bt (dm_x m)) pr pt = ox * (Rsum (b_deg br + 1) (snd pr) * Rsum (b_deg bt + 1) (snd pt)) + spline1 br (greville br tr) pr * spline1 bt C pt /\
    tensor_spline br bt (field2 bt (dm_y m)) pr pt = oy * (Rsum (b_deg br + 1) (snd pr) * Rsum (b_deg bt + 1) (snd pt)) + spline1 br (greville br tr) pr * spline1 bt S pt).
  { intros pr pt Hp Hq. rewrite <- !tensor_const_product. split; apply tensor_ext; intros i j Hi Hj;
      apply (EC (fst pr + i)%nat (fst pt + j)%nat ltac:(unfold nbasis_r; lia) ltac:(unfold b_size; lia)). }
  pose proof (pm_len_x _ _ _ M) as LX. pose proof (pm_len_y _ _ _ M) as LY. pose proof (pm_ev _ _ _ M) as EV.
  pose proof (basis_sum _ _ _ _ _ _ Vr) as B1. pose proof (basis_sum _ _ _ _ _ _ Vt) as B2.
  pose proof (basis_sum _ _ _ _ _ _ Vr') as B3. pose proof (basis_sum _ _ _ _ _ _ Vt') as B4.
  pose proof (greville_values br tr 0 r cr vr SR Hd Vr ltac:(lia)) as G1. pose proof (greville_values br tr 1 r cr' vr' SR Hd Vr' ltac:(lia)) as G2.
  cbn [Nat.eqb] in B1, B2, B3, B4, G1, G2.
  split.
  - unfold dm_apply. rewrite (EV 0%nat 0%nat _ r th _ _ LX Dr Dt Er Et), (EV 0%nat 0%nat _ r th _ _ LY Dr Dt Er Et). cbn [bind].
    destruct (X (cr, vr) (ct, vt) Hr Ht) as [X1 X2]. rewrite X1, X2. cbn [fst snd]. rewrite B1, B2, G1. f_equal. f_equal; ring.
  - unfold dm_jacobian, dm_jacobian_matrix.
    rewrite (EV 1%nat 0%nat _ r th _ _ LX Dr Dt Er' Et), (EV 0%nat 1%nat _ r th _ _ LX Dr Dt Er Et'), (EV 1%nat 0%nat _ r th _ _ LY Dr Dt Er' Et), (EV 0%nat 1%nat _ r th _ _ LY Dr Dt Er Et'). cbn [bind].
    destruct (X (cr', vr') (ct, vt) Hr' Ht) as [X1 X2]. destruct (X (cr, vr) (ct', vt') Hr Ht') as [X3 X4]. rewrite X1, X2, X3, X4. cbn [fst snd]. rewrite B1, B2, B3, B4, G1, G2. f_equal. ring.
Qed.
(** it meets all the conditions of the polar splines *)
Theorem circular_setup c1 br bt tr tt bu ev ox oy m : builder_setup br bt tr tt bu ev -> polar_domain c1 br bt -> (c1 <= 2)%nat ->
  (b_deg bt <= b_cells bt)%nat -> polar_mapping br bt m -> fits m bu (circ_apply ox oy) -> polar_setup c1 br bt tr tt m ox oy.
Proof.
  intros H PD Hc Hdt M F. pose proof PD as [H0 [_ [_ [_ Hd]]]].
  pose proof (bu_space_r _ _ _ _ _ _ H) as SR. pose proof (bu_space_t _ _ _ _ _ _ H) as ST.
  assert (HP : has_pole br bu (circ_apply ox oy) ox oy).
  { intros th _. unfold image, circ_apply, c2. rewrite H0. f_equal; ring. }
  destruct (builder_pole br bt tr tt bu ev (circ_apply ox oy) ox oy m H H0 HP M F) as [R0 _].
  constructor; auto; [exact (bu_clamped _ _ _ _ _ _ H)|]. intros _.
  destruct (circular_coefs br bt tr tt bu ev ox oy m H H0 Hd M F) as [C [S [[PC HC] [[PS HS] EC]]]].
  assert (L : (1 < nbasis_r br)%nat) by (pose proof (bs_cells _ _ SR); unfold nbasis_r; lia).
  pose proof (greville_last br tr SR (bu_clamped _ _ _ _ _ _ H) H0 Hd 1 L ltac:(lia)) as GP.
  destruct (Exists_dec (fun j => ctrl bt m 1 j <> (ox, oy)) (seq 0 (b_size bt))) as [X|X].
  { intros j. unfold ctrl. destruct (Req_EM_T (ctrl_x bt m 1 j) ox) as [E1|E1]; [destruct (Req_EM_T (ctrl_y bt m 1 j) oy) as [E2|E2]|].
    - right. rewrite E1, E2. intros N. apply N. reflexivity.
    - left. intros N. injection N as _ N. contradiction.
    - left. intros N. injection N as N _. contradiction. }
  - apply Exists_exists in X. destruct X as [j [Hj N]]. exists j. split; [apply in_seq in Hj; lia|exact N].
  - exfalso.
    assert (Z : forall j, (j < b_size bt)%nat -> C j = 0 /\ S j = 0).
    { intros j Hj. destruct (EC 1%nat j L Hj) as [E1 E2].
      destruct (Req_EM_T (C j) 0) as [Z1|Z1]; [destruct (Req_EM_T (S j) 0) as [Z2|Z2]|]; auto; exfalso; apply X, Exists_exists; exists j;
        (split; [apply in_seq; lia|]); unfold ctrl; rewrite E1, E2; intros N; injection N as N1 N2.
      - apply Z2. apply (Rmult_eq_reg_l (greville br tr 1)); lra.
      - apply Z1. apply (Rmult_eq_reg_l (greville br tr 1)); lra. }
    destruct (bu_t bu) as [|th l] eqn:ET.
    + pose proof (bu_det_t _ _ _ _ _ _ H (fun _ => 1)) as D. rewrite ET in D.
      assert (1 = 0); [|lra]. apply (D ltac:(intros j _; reflexivity) ltac:(intros x p []) 0%nat). pose proof (bs_cells _ _ ST). unfold b_size. lia.
    + destruct (HC th ltac:(left; reflexivity)) as [p [Ep V1]]. destruct (HS th ltac:(left; reflexivity)) as [p' [Ep' V2]]. rewrite Ep in Ep'. injection Ep' as <-.
      pose proof (bu_in_t _ _ _ _ _ _ H th ltac:(rewrite ET; left; reflexivity)) as Dt.
      destruct (basis_at bt tt 0 th ST Dt) as [ct [vt [Et' [_ Ht]]]]. rewrite Ep in Et'. injection Et' as ->.
      assert (Q : forall e, (forall j, (j < b_size bt)%nat -> e j = 0) -> spline1 bt e (ct, vt) = 0).
      { intros e He. unfold spline1. apply Rsum_zero. intros i Hi. cbn [fst]. rewrite He by (unfold b_size; lia). ring. }
      rewrite (Q C) in V1 by (intros; apply Z; auto). rewrite (Q S) in V2 by (intros; apply Z; auto).
      pose proof (sin2_cos2 th) as SC. rewrite V1, V2 in SC. unfold Rsqr in SC. lra.
Qed.
