(** The error function and the diffusion coefficient of the intra-species collisions. *)
From Verif Require Import CollIntraModel CollIntraSpec QuadProofs XVxProofs.
From Coquelicot Require Import Coquelicot.
Open Scope R_scope.

Definition c0 : R := 2 / sqrt PI.
Lemma sqrt_PI_pos : 0 < sqrt PI.
Proof. apply sqrt_lt_R0, PI_RGT_0. Qed.
Lemma c0_pos : 0 < c0.
Proof. unfold c0, Rdiv. apply Rmult_lt_0_compat; [lra|]. apply Rinv_0_lt_compat, sqrt_PI_pos. Qed.

Definition gauss (t : R) : R := exp (- t * t).
Lemma gauss_cont t : continuous gauss t.
Proof.
  apply (ex_derive_continuous gauss). unfold gauss. auto_derive. auto.
Qed.
Lemma gauss_pos t : 0 < gauss t.
Proof. apply exp_pos. Qed.
Lemma gauss_lt1 t : t <> 0 -> gauss t < 1.
Proof.
  intros H. unfold gauss. rewrite <- exp_0. apply exp_increasing.
  assert (0 < t * t) by (destruct (Rdichotomy _ _ H); nra). lra.
Qed.

Lemma erf_0 : erf 0 = 0.
Proof. unfold erf. rewrite RInt_point. unfold zero; simpl. ring. Qed.
Lemma erf_derive x : is_derive erf x (c0 * gauss x).
Proof.
  unfold erf, c0. apply (is_derive_scal (fun x => RInt gauss 0 x) x (2 / sqrt PI) (gauss x)).
  apply (is_derive_RInt gauss (fun b => RInt gauss 0 b) 0 x).
  - apply filter_forall. intros b. apply (RInt_correct (V := R_CompleteNormedModule)). apply (ex_RInt_continuous (V := R_CompleteNormedModule)). intros; apply gauss_cont.
  - apply gauss_cont.
Qed.
Lemma gauss_derive x : is_derive gauss x (- 2 * x * gauss x).
Proof. unfold gauss. auto_derive; auto. ring. Qed.

(** positivity from the derivative *)
Lemma pos_from_deriv (f f' : R -> R) x : 0 < x -> f 0 = 0 ->
  (forall c, is_derive f c (f' c)) -> (forall c, 0 < c -> 0 < f' c) -> 0 < f x.
Proof.
  intros Hx H0 D P.
  destruct (MVT_cor2 f f' 0 x Hx) as [c [E [C1 C2]]].
  - intros c _. apply is_derive_Reals, D.
  - rewrite H0 in E. assert (0 < f' c) by now apply P. nra.
Qed.

Lemma erf_ex x : ex_derive erf x. Proof. eexists. apply erf_derive. Qed.
Lemma erf_Derive x : Derive erf x = c0 * gauss x. Proof. apply is_derive_unique, erf_derive. Qed.
Lemma gauss_ex x : ex_derive gauss x. Proof. eexists. apply gauss_derive. Qed.
Lemma gauss_Derive x : Derive gauss x = - 2 * x * gauss x. Proof. apply is_derive_unique, gauss_derive. Qed.

Lemma gauss_0 : gauss 0 = 1.
Proof. unfold gauss. rewrite Rmult_0_r. apply exp_0. Qed.

Ltac deriv := intros; auto_derive; [repeat split; auto using erf_ex, gauss_ex|
  try rewrite erf_Derive; try rewrite gauss_Derive; try (unfold Rdiv; ring); try field].

Lemma erf_pos x : 0 < x -> 0 < erf x.
Proof.
  intros H. apply (pos_from_deriv erf (fun c => c0 * gauss c)); [assumption|apply erf_0|apply erf_derive|].
  intros c _. apply Rmult_lt_0_compat; [apply c0_pos|apply gauss_pos].
Qed.
Lemma erf_upper x : 0 < x -> erf x < c0 * x.
Proof.
  intros H.
  assert (P : 0 < (fun x => c0 * x - erf x) x); [|simpl in P; lra].
  apply (pos_from_deriv (fun x => c0 * x - erf x) (fun c => c0 * (1 - gauss c)) x); [assumption|rewrite erf_0; ring| |].
  - deriv.
  - intros c Hc. apply Rmult_lt_0_compat; [apply c0_pos|]. pose proof (gauss_lt1 c). lra.
Qed.
Lemma erf_lower x : 0 < x -> c0 * x * gauss x < erf x.
Proof.
  intros H.
  assert (P : 0 < (fun x => erf x - c0 * x * gauss x) x); [|simpl in P; lra].
  apply (pos_from_deriv (fun x => erf x - c0 * x * gauss x) (fun c => c0 * (2 * (c * c) * gauss c)) x); [assumption|rewrite erf_0; ring| |].
  - deriv.
  - intros c Hc. apply Rmult_lt_0_compat; [apply c0_pos|].
    apply Rmult_lt_0_compat; [nra|apply gauss_pos].
Qed.
(** 2 x^2 (phi - psi) *)
Definition gg (x : R) : R := (2 * x * x - 1) * erf x + x * (c0 * gauss x).
Lemma gg_derive x : is_derive gg x (4 * x * erf x).
Proof. unfold gg. deriv. Qed.
Lemma gg_upper x : 0 < x -> gg x < 4 * c0 / 3 * x ^ 3.
Proof.
  intros H.
  assert (P : 0 < (fun x => 4 * c0 / 3 * x ^ 3 - gg x) x); [|simpl in *; lra].
  apply (pos_from_deriv (fun x => 4 * c0 / 3 * x ^ 3 - gg x) (fun c => 4 * c * (c0 * c - erf c)) x); [assumption|unfold gg; rewrite erf_0; simpl; ring| |].
  - intros c. evar_last.
    + apply (is_derive_minus (fun x => 4 * c0 / 3 * x ^ 3) gg c (4 * c0 * c ^ 2) (4 * c * erf c)); [|apply gg_derive].
      auto_derive; auto. field.
    + unfold minus, plus, opp; simpl. ring.
  - intros c Hc. pose proof (erf_upper c Hc). apply Rmult_lt_0_compat; lra.
Qed.
Lemma gg_lower x : 0 < x -> 4 * c0 / 3 * x ^ 3 * gauss x < gg x.
Proof.
  intros H.
  assert (P : 0 < (fun x => gg x - 4 * c0 / 3 * x ^ 3 * gauss x) x); [|simpl in *; lra].
  apply (pos_from_deriv (fun x => gg x - 4 * c0 / 3 * x ^ 3 * gauss x) (fun c => 4 * c * (erf c - c0 * c * gauss c) + 8 * c0 / 3 * c ^ 4 * gauss c) x);
    [assumption|unfold gg; rewrite erf_0; simpl; ring| |].
  - intros c. evar_last.
    + apply (is_derive_minus gg (fun x => 4 * c0 / 3 * x ^ 3 * gauss x) c (4 * c * erf c)
        (4 * c0 * c ^ 2 * gauss c - 8 * c0 / 3 * c ^ 4 * gauss c)); [apply gg_derive|].
      auto_derive; [auto using gauss_ex|]. rewrite gauss_Derive. field.
    + unfold minus, plus, opp; simpl. field.
  - intros c Hc. pose proof (erf_lower c Hc).
    assert (0 < c ^ 4) by now apply pow_lt. pose proof (gauss_pos c). pose proof c0_pos.
    assert (0 < 4 * c * (erf c - c0 * c * gauss c)) by (apply Rmult_lt_0_compat; lra).
    assert (0 < 8 * c0 / 3 * c ^ 4 * gauss c); [|lra].
    apply Rmult_lt_0_compat; [|assumption]. apply Rmult_lt_0_compat; [lra|assumption].
Qed.
(** 2 x^2 (phi - 3 psi) *)
Definition kk (x : R) : R := (2 * x * x - 3) * erf x + 3 * x * (c0 * gauss x).
Lemma kk_pos x : 0 < x -> 0 < kk x.
Proof.
  intros H. apply (pos_from_deriv kk (fun c => 4 * c * (erf c - c0 * c * gauss c))); [assumption|unfold kk; rewrite erf_0; ring| |].
  - unfold kk. deriv.
  - intros c Hc. pose proof (erf_lower c Hc). apply Rmult_lt_0_compat; lra.
Qed.

(** ** Dcoll *)
Definition AD (T nu : R) : R := 3 * sqrt (2 * PI) / 4 * T * nu.
Lemma AD_c0 T nu : AD T nu * (2 * c0 / 3) = sqrt 2 * T * nu.
Proof.
  unfold AD, c0. rewrite sqrt_mult by (pose proof PI_RGT_0; lra). pose proof sqrt_PI_pos. field. lra.
Qed.
Definition vnorm (T v : R) : R := Rabs v / sqrt (2 * T).
Lemma vT_pos T : 0 < T -> 0 < sqrt (2 * T).
Proof. intros. apply sqrt_lt_R0. lra. Qed.
Lemma tol_pos : 0 < tol.
Proof. unfold tol. apply Rinv_0_lt_compat, pow_lt. lra. Qed.
Lemma gauss_vnorm T v : 0 < T -> gauss (vnorm T v) = exp (- (v * v) / (2 * T)).
Proof.
  intros H. unfold gauss, vnorm. f_equal. pose proof (vT_pos T H) as P.
  replace (- (Rabs v / sqrt (2 * T)) * (Rabs v / sqrt (2 * T)))
    with (- (Rabs v * Rabs v) / (sqrt (2 * T) * sqrt (2 * T))) by (field; lra).
  rewrite sqrt_sqrt by lra. rewrite <- Rabs_mult, Rabs_pos_eq by (apply Rle_0_sqr). reflexivity.
Qed.
Lemma Dcoll_big T nu v : tol < vnorm T v -> Dcoll T nu v = AD T nu * (gg (vnorm T v) / (2 * vnorm T v ^ 3)).
Proof.
  intros H. unfold Dcoll. fold (vnorm T v). destruct (Rlt_dec tol (vnorm T v)); [|contradiction].
  cbv zeta. fold (AD T nu). fold c0. unfold gg, gauss. replace 0.5 with (/ 2) by lra.
  pose proof tol_pos. set (x := vnorm T v) in *. clearbody x.
  set (e := exp _). clearbody e. field. lra.
Qed.
Lemma Dcoll_small T nu v : vnorm T v <= tol -> Dcoll T nu v = sqrt 2 * T * nu.
Proof. intros H. unfold Dcoll. fold (vnorm T v). destruct (Rlt_dec tol (vnorm T v)); [lra|reflexivity]. Qed.

Theorem Dcoll_bounds T nu v : 0 < T -> 0 <= nu ->
  sqrt 2 * T * nu * exp (- (v * v) / (2 * T)) <= Dcoll T nu v <= sqrt 2 * T * nu.
Proof.
  intros HT Hn. rewrite <- gauss_vnorm by assumption.
  assert (S : 0 <= sqrt 2 * T * nu) by (apply Rmult_le_pos; [apply Rmult_le_pos; [apply sqrt_pos|lra]|assumption]).
  destruct (Rlt_dec tol (vnorm T v)) as [H|H].
  - rewrite Dcoll_big by assumption. pose proof tol_pos. set (x := vnorm T v) in *. assert (Hx : 0 < x) by lra. clearbody x.
    pose proof (gg_upper x Hx) as U. pose proof (gg_lower x Hx) as L.
    assert (A : 0 <= AD T nu).
    { unfold AD. apply Rmult_le_pos; [|assumption]. apply Rmult_le_pos; [|lra].
      pose proof (sqrt_pos (2 * PI)). lra. }
    rewrite <- AD_c0 in *. assert (0 < x ^ 3) by now apply pow_lt.
    set (w := gg x) in *. set (p := x ^ 3) in *. set (e := gauss x) in *. clearbody w p e.
    assert (W : w / (2 * p) <= 2 * c0 / 3).
    { apply (Rmult_le_reg_r (2 * p)); [lra|]. unfold Rdiv at 1. rewrite Rmult_assoc, Rinv_l by lra. lra. }
    assert (W2 : 2 * c0 / 3 * e <= w / (2 * p)).
    { apply (Rmult_le_reg_r (2 * p)); [lra|]. unfold Rdiv at 2. rewrite (Rmult_assoc w), Rinv_l by lra. lra. }
    split; [rewrite Rmult_assoc|]; apply Rmult_le_compat_l; assumption.
  - rewrite Dcoll_small by lra. split; [|lra].
    assert (gauss (vnorm T v) <= 1).
    { destruct (Req_EM_T (vnorm T v) 0) as [->|N]; [rewrite gauss_0; lra|left; now apply gauss_lt1]. }
    rewrite <- (Rmult_1_r (sqrt 2 * T * nu)) at 2. now apply Rmult_le_compat_l.
Qed.
Theorem Dcoll_pos T nu v : 0 < T -> 0 < nu -> 0 < Dcoll T nu v.
Proof.
  intros HT Hn. eapply Rlt_le_trans; [|apply Dcoll_bounds; lra].
  apply Rmult_lt_0_compat; [|apply exp_pos]. apply Rmult_lt_0_compat; [|assumption].
  apply Rmult_lt_0_compat; [apply sqrt_lt_R0; lra|assumption].
Qed.

Lemma dvDcoll_big T nu v : 0 < T -> tol < vnorm T v ->
  dvDcoll T nu v = - (v / Rabs v) * AD T nu / sqrt (2 * T) * kk (vnorm T v) / (2 * vnorm T v ^ 4).
Proof.
  intros HT H. pose proof (vT_pos T HT) as VT. unfold dvDcoll. fold (vnorm T v). destruct (Rlt_dec tol (vnorm T v)); [|contradiction].
  cbv zeta. fold (AD T nu). fold c0. unfold kk, gauss. replace 0.5 with (/ 2) by lra.
  pose proof tol_pos. set (x := vnorm T v) in *. clearbody x.
  set (e := exp _). set (s := v / Rabs v). set (w := sqrt (2 * T)) in *. clearbody e s w. field. split; lra.
Qed.
Theorem dvDcoll_sign T nu v : 0 < T -> 0 <= nu -> v * dvDcoll T nu v <= 0.
Proof.
  intros HT Hn. destruct (Rlt_dec tol (vnorm T v)) as [H|H].
  - rewrite dvDcoll_big by assumption. pose proof tol_pos.
    assert (V0 : v <> 0).
    { intros ->. unfold vnorm in H. rewrite Rabs_R0 in H. unfold Rdiv in H. lra. }
    pose proof (Rabs_pos_lt v V0) as RA. pose proof (kk_pos (vnorm T v)) as K.
    assert (0 < vnorm T v ^ 4) by (apply pow_lt; lra).
    assert (A : 0 <= AD T nu).
    { unfold AD. apply Rmult_le_pos; [|assumption]. apply Rmult_le_pos; [|lra].
      pose proof (sqrt_pos (2 * PI)). lra. }
    pose proof (vT_pos T HT) as VT. set (x := vnorm T v) in *.
    assert (Hk : 0 < kk x) by (apply K; lra). clear K. clearbody x.
    replace (v * (- (v / Rabs v) * AD T nu / sqrt (2 * T) * kk x / (2 * x ^ 4)))
      with (- ((v * v) * AD T nu * kk x * / (Rabs v * sqrt (2 * T) * (2 * x ^ 4)))) by (field; repeat split; try lra; intros Z0; subst x; simpl in *; lra).
    assert (0 <= v * v * AD T nu * kk x * / (Rabs v * sqrt (2 * T) * (2 * x ^ 4))); [|lra].
    apply Rmult_le_pos.
    + apply Rmult_le_pos; [|lra]. apply Rmult_le_pos; [apply Rle_0_sqr|assumption].
    + left. apply Rinv_0_lt_compat. repeat apply Rmult_lt_0_compat; lra.
  - unfold dvDcoll. fold (vnorm T v). destruct (Rlt_dec tol (vnorm T v)); [contradiction|lra].
Qed.

(** dvDcoll is the derivative of Dcoll *)
Theorem dvDcoll_derivative T nu v : 0 < T -> Rabs v / sqrt (2 * T) <> tol ->
  derivable_pt_lim (Dcoll T nu) v (dvDcoll T nu v).
Proof.
  intros HT H. apply is_derive_Reals. fold (vnorm T v) in H.
  assert (CN : continuous (vnorm T) v).
  { unfold vnorm, Rdiv. apply (continuous_mult Rabs (fun _ => / sqrt (2 * T))); [apply continuous_Rabs|apply continuous_const]. }
  destruct (Rlt_dec tol (vnorm T v)) as [B|B].
  - rewrite dvDcoll_big by assumption.
    apply (is_derive_ext_loc (fun v => AD T nu * (gg (vnorm T v) / (2 * vnorm T v ^ 3)))).
    { assert (L : locally v (fun w => tol < vnorm T w)).
      { apply (CN (fun y => tol < y)). now apply (open_gt tol). }
      eapply filter_imp; [|exact L]. intros w Hw. simpl. symmetry. now apply Dcoll_big. }
    pose proof tol_pos.
    assert (V0 : v <> 0).
    { intros ->. unfold vnorm in B. rewrite Rabs_R0 in B. unfold Rdiv in B. lra. }
    assert (DN : is_derive (vnorm T) v (v / Rabs v / sqrt (2 * T))).
    { unfold vnorm. pose proof (vT_pos T HT). apply (is_derive_ext (fun v => / sqrt (2 * T) * Rabs v)); [intros t; apply Rmult_comm|].
      evar_last; [apply (is_derive_scal Rabs v (/ sqrt (2 * T)) (sign v * 1)); apply (is_derive_Rabs (fun x => x) v 1); [apply @is_derive_id|assumption]|].
      assert (sign v = v / Rabs v).
      { destruct (Rdichotomy _ _ V0).
        - rewrite sign_eq_m1, Rabs_left by assumption. field. lra.
        - rewrite sign_eq_1, Rabs_right by lra. field. lra. }
      rewrite H2. unfold Rdiv. ring. }
    evar_last.
    + apply (is_derive_comp (fun x => AD T nu * (gg x / (2 * x ^ 3))) (vnorm T) v
        (- AD T nu * kk (vnorm T v) / (2 * vnorm T v ^ 4)) (v / Rabs v / sqrt (2 * T))); [|exact DN].
      set (x := vnorm T v) in *. assert (Hx : 0 < x) by lra. clearbody x.
      auto_derive.
      * split; [eexists; apply gg_derive|]. split; [|exact I]. intros Z0. assert (0 < x ^ 3) by now apply pow_lt. simpl in *. lra.
      * replace (Derive (fun x => gg x) x) with (4 * x * erf x) by (symmetry; apply is_derive_unique, gg_derive).
        unfold gg, kk. simpl. field. lra.
    + unfold scal; simpl; unfold mult; simpl. pose proof (vT_pos T HT). pose proof (Rabs_pos_lt v V0).
      set (x := vnorm T v) in *. assert (Hx : 0 < x) by lra. clearbody x. field. repeat split; lra.
  - assert (B' : vnorm T v < tol) by lra.
    unfold dvDcoll. fold (vnorm T v). destruct (Rlt_dec tol (vnorm T v)); [contradiction|].
    apply (is_derive_ext_loc (fun _ => sqrt 2 * T * nu)); [|apply @is_derive_const].
    assert (L : locally v (fun w => vnorm T w < tol)).
    { apply (CN (fun y => y < tol)). now apply (open_lt tol). }
    eapply filter_imp; [|exact L]. intros w Hw. simpl. symmetry. apply Dcoll_small. lra.
Qed.
