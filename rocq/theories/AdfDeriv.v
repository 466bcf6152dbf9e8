(** The derivatives which the advection field takes of a polar spline are its partial derivatives; the overload for values. *)
From Coquelicot Require Import Coquelicot.
From Verif Require Import Lib DerivModel LagDerivSpec QuadProofs MathModel MathSpec MappingModel MappingSpec MappingProofs MappingComb PspModel PspSpec PspBasis PspMain PspCor PspJac PspTheorems PpfSpec AdfModel AdfSpec AdfProofs AdfMain.
Open Scope R_scope.

Lemma polar_slopes c1 br bt tr tt dm x0 y0 e coef f r th : polar_setup c1 br bt tr tt dm x0 y0 -> polar_make c1 br bt dm = Ok e ->
  length coef = polar_nbasis c1 br bt ->
  (forall r th, b_rmin br <= r <= b_rmax br -> b_rmin bt <= th <= b_rmax bt -> derivative c1 br bt e coef 0 0 r th = Ok (f r th)) ->
  inside_cell br tr r -> inside_cell bt tt th ->
  exists dr dt, slopes (polar_potential c1 br bt e coef) r th dr dt /\
    derivable_pt_lim (fun t => f t th) r dr /\ derivable_pt_lim (fun t => f r t) th dt.
Proof.
  intros PS HM HL HF IR IT. destruct PS as [SR CL ST Hdt M D R0 HC1 R1].
  destruct (polar_general c1 br bt tr tt dm x0 y0 SR CL ST Hdt M D R0 HC1 R1) as [e' [He' G]]. assert (e' = e) by congruence. subst e'.
  destruct (G coef HL) as [L [_ [_ [_ EV]]]]. set (al := polar_coefficient c1 (b_cells bt) L (ctrl_x bt dm) (ctrl_y bt dm) coef) in *. clearbody al. clear G.
  pose proof (dom_of br tr r SR IR) as Hr. pose proof (dom_of bt tt th ST IT) as Hth.
  assert (TF : forall pr pt, tensor_spline br bt al pr pt = Rsum (b_deg bt + 1) (fun j => Rsum (b_deg br + 1) (fun i => al (fst pr + i)%nat (fst pt + j)%nat * snd pr i) * snd pt j)).
  { intros pr pt. unfold tensor_spline. rewrite Rsum_swap. apply Rsum_ext. intros j Hj. rewrite <- Rsum_scal_r. reflexivity. }
  destruct IR as [c [Hc Hx]]. destruct IT as [d [Hd Hy]].
  destruct (EV 1%nat 0%nat r th Hr Hth) as [[cr vr] [[ct vt] [Er [Et [Vr [Vt E1]]]]]]. cbn [fst snd] in *.
  destruct (EV 0%nat 1%nat r th Hr Hth) as [[cr' vr'] [[ct' vt'] [Er' [Et' [Vr' [Vt' E2]]]]]]. cbn [fst snd] in *.
  pose proof (cell_unique br tr 1 r c cr vr SR Hc Hx Vr). subst cr. pose proof (cell_unique bt tt 1 th d ct' vt' ST Hd Hy Vt'). subst ct'.
  exists (tensor_spline br bt al (c, vr) (ct, vt)), (tensor_spline br bt al (cr', vr') (d, vt')). split; [split; cbn [polar_potential ph_r ph_t]; assumption|]. split.
  - rewrite tensor_factor. cbn [fst snd].
    apply (spline_derivative br tr (fun i => Rsum (b_deg bt + 1) (fun j => al i (ct + j)%nat * vt j)) (fun t => f t th) r c vr SR Hc Hx); auto.
    intros y c' v Hy' Ey. pose proof (HF y th Hy' Hth) as H. destruct (EV 0%nat 0%nat y th Hy' Hth) as [pr [pt [Ar [At [_ [_ E3]]]]]]. unfold derivative in H.
    assert (pr = (c', v)) by congruence. assert (pt = (ct, vt)) by congruence. subst pr pt. rewrite tensor_factor in E3. cbn [fst snd] in E3. congruence.
  - rewrite TF. cbn [fst snd].
    apply (spline_derivative bt tt (fun j => Rsum (b_deg br + 1) (fun i => al (cr' + i)%nat j * vr' i)) (fun t => f r t) th d vt' ST Hd Hy); auto.
    intros y c' v Hy' Ey. pose proof (HF r y Hr Hy') as H. destruct (EV 0%nat 0%nat r y Hr Hy') as [pr [pt [Ar [At [_ [_ E3]]]]]]. unfold derivative in H.
    assert (pt = (c', v)) by congruence. assert (pr = (cr', vr')) by congruence. subst pr pt. rewrite TF in E3. cbn [fst snd] in E3. congruence.
Qed.
Lemma values_overload m F G eps build ev phi grid A : 0 < eps -> well_typed 2 m -> smooth_function F G ->
  (forall coef, build phi = Ok coef -> forall r th, In (r, th) grid -> derivatives_of m F (ev coef) r th) ->
  advection_field_xy_of_values m eps build ev phi grid = Ok A -> forall k r th, nth_error grid k = Some (r, th) ->
  eps < r -> jacobian_ok 2 m (c2 r th) -> invertible_at 2 m (c2 r th) -> nth_error A k = Some (rotated (G (m_apply m (c2 r th)))).
Proof.
  intros He WT SF HD HA k r th Hk Hr JO IN. unfold advection_field_xy_of_values in HA. destruct (build phi) as [coef| | |] eqn:B; try discriminate. cbn [bind] in HA.
  apply (proj1 (exact_field m F G (ev coef) eps grid A He WT SF HA k r th Hk) Hr JO IN). apply (HD coef eq_refl). apply nth_error_In in Hk. exact Hk.
Qed.
