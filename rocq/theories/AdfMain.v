(** Consequences: both fields are the same vector, exactness, mappings, polar splines. *)
From Verif Require Import Lib DerivModel QuadProofs FemMain MathModel MathSpec MappingModel MappingSpec MappingVec MappingProofs MappingComb MappingCzarny DiffOpSpec DiffOpChain PspModel PspSpec PspPole PpfSpec AdfModel AdfSpec AdfProofs.
Open Scope R_scope.

Lemma same_vector m eps ph grid A A' c r th k : advection_field_xy m eps ph grid = Ok A -> advection_field_rtheta m ph grid = Ok (A', c) ->
  nth_error grid k = Some (r, th) -> eps < r -> invertible_at 2 m (c2 r th) -> m_jac m (c2 r th) = det_n 2 (m_J m (c2 r th)) ->
  exists ax ay ar at_, nth_error A k = Some (ax, ay) /\ nth_error A' k = Some (ar, at_) /\
    let J := m_J m (c2 r th) in ax = J 0%nat 0%nat * ar + J 0%nat 1%nat * at_ /\ ay = J 1%nat 0%nat * ar + J 1%nat 1%nat * at_.
Proof.
  intros H H' E Hr HI HJ. destruct (field_xy m eps ph grid A H) as [_ N]. destruct (field_rt m ph grid A' c H') as [[_ N'] _].
  destruct (proj1 (N k r th E) Hr HI) as ([gx gy] & (dr & dt & S & C1 & C2) & _ & Nk).
  destruct (N' k r th E HI HJ) as (dr' & dt' & a & b & S' & Nk' & DN & Ea & Eb).
  destruct S as [S1 S2], S' as [S1' S2']. assert (Q1 : dr' = dr) by congruence. assert (Q2 : dt' = dt) by congruence. rewrite Q1 in *. rewrite Q2 in *. clear Q1 Q2 dr' dt'.
  cbn [rotated fst snd] in *. exists (- gy), gx, a, b. split; [exact Nk|]. split; [exact Nk'|]. cbv zeta.
  assert (DJ : m_jac m (c2 r th) = m_J m (c2 r th) 0%nat 0%nat * m_J m (c2 r th) 1%nat 1%nat - m_J m (c2 r th) 0%nat 1%nat * m_J m (c2 r th) 1%nat 0%nat).
  { rewrite HJ. unfold det_n, determinant2. ring. }
  set (D := m_jac m (c2 r th)) in *. set (J := m_J m (c2 r th)) in *.
  split; apply (Rmult_eq_reg_l D); auto.
  - transitivity (J 0%nat 0%nat * (D * a) + J 0%nat 1%nat * (D * b)); [rewrite Ea, Eb, C1, C2, DJ; ring|ring].
  - transitivity (J 1%nat 0%nat * (D * a) + J 1%nat 1%nat * (D * b)); [rewrite Ea, Eb, C1, C2, DJ; ring|ring].
Qed.
Lemma same_centre m eps ph grid grid' A A' c th k : 0 < eps -> directions m -> advection_field_xy m eps ph grid = Ok A -> advection_field_rtheta m ph grid' = Ok (A', c) ->
  nth_error grid k = Some (0, th) -> invertible_at 2 m (c2 eps th) -> nth_error A k = Some c.
Proof.
  intros He HD H H' E HI. destruct (field_xy m eps ph grid A H) as [_ N]. destruct (field_rt m ph grid' A' c H') as [_ C].
  destruct (C HD) as (g & P1 & P2 & ->). destruct (proj2 (N k 0 th E) ltac:(lra) He HD HI) as (g0 & ge & Q1 & Q2 & _ & ->).
  rewrite (pole_unique m ph g g0 HD P1 P2 Q1 Q2). f_equal. unfold rotated, between. destruct g0, ge. cbn [fst snd]. f_equal; field; lra.
Qed.

(** ** The true gradient *)
Lemma upd_c2_0 r th t : forall i, (i < 2)%nat -> upd (c2 r th) 0 t i = c2 t th i.
Proof. intros i Hi. unfold upd, c2. destruct i as [|[|]]; [reflexivity|reflexivity|lia]. Qed.
Lemma upd_c2_1 r th t : forall i, (i < 2)%nat -> upd (c2 r th) 1 t i = c2 r t i.
Proof. intros i Hi. unfold upd, c2. destruct i as [|[|]]; [reflexivity|reflexivity|lia]. Qed.
Lemma sf_at F G q : smooth_function F G -> exists D, (D 0%nat, D 1%nat) = G q /\ differentiable_at 2 F q D.
Proof. intros [_ H]. destruct (H q) as (D & E & HD). exists D. split; [exact E|]. exact HD. Qed.
Lemma sf_depends F G : smooth_function F G -> depends_on 2 F.
Proof. intros [H _] y y' E. exact (proj1 (H y y' E)). Qed.
Lemma true_gradient m F G ph r th : well_typed 2 m -> jacobian_ok 2 m (c2 r th) -> smooth_function F G ->
  derivatives_of m F ph r th -> gradient_at m ph r th (G (m_apply m (c2 r th))).
Proof.
  intros HW (HP & _ & _) HF (dr & dt & S & D1 & D2). exists dr, dt. split; [exact S|].
  destruct (sf_at F G (m_apply m (c2 r th)) HF) as (D & EG & HD).
  pose proof (pullback_gradient 2 m (c2 r th) F D (c2 dr dt) HW HP (sf_depends F G HF) HD) as PB.
  assert (PR : partials_of 2 (fun q => F (m_apply m q)) (c2 r th) (c2 dr dt)).
  { intros l Hl. assert (l = 0 \/ l = 1)%nat as [-> | ->] by lia.
    - cbn [c2]. apply (derivable_pt_lim_ext' (fun t => F (m_apply m (c2 t th)))); [|exact D1].
      intros t. symmetry. apply (sf_depends F G HF). apply HW. intros i Hi. apply (upd_c2_0 r th t i Hi).
    - cbn [c2]. apply (derivable_pt_lim_ext' (fun t => F (m_apply m (c2 r t)))); [|exact D2].
      intros t. symmetry. apply (sf_depends F G HF). apply HW. intros i Hi. apply (upd_c2_1 r th t i Hi). }
  specialize (PB PR). pose proof (PB 0%nat ltac:(lia)) as B0. pose proof (PB 1%nat ltac:(lia)) as B1. cbn in B0, B1.
  unfold cartesian_gradient. rewrite <- EG. cbn [fst snd]. split; [rewrite B0|rewrite B1]; ring.
Qed.
Lemma true_pole m F G ph th : well_typed 2 m -> jacobian_ok 2 m (c2 0 th) -> smooth_function F G ->
  derivatives_of m F ph 0 th -> pole_slope m ph (G (m_apply m (c2 0 th))) th.
Proof.
  intros HW HJ HF HD. destruct (true_gradient m F G ph 0 th HW HJ HF HD) as (dr & dt & [S1 S2] & C1 & _).
  destruct HJ as (_ & _ & HC). exists (m_J m (c2 0 th) 0%nat 0%nat), (m_J m (c2 0 th) 1%nat 0%nat), dr.
  split; [apply HC; lia|]. split; [apply HC; lia|]. split; [exact S1|]. cbv zeta in C1. lra.
Qed.
Lemma exact_field m F G ph eps grid A : 0 < eps -> well_typed 2 m -> smooth_function F G ->
  advection_field_xy m eps ph grid = Ok A -> forall k r th, nth_error grid k = Some (r, th) ->
  (eps < r -> jacobian_ok 2 m (c2 r th) -> invertible_at 2 m (c2 r th) -> derivatives_of m F ph r th ->
     nth_error A k = Some (rotated (G (m_apply m (c2 r th))))) /\
  (r <= eps -> one_pole m -> directions m -> jacobian_ok 2 m (c2 0 (PI / 4)) -> jacobian_ok 2 m (c2 0 (- PI / 4 + 2 * PI)) ->
     derivatives_of m F ph 0 (PI / 4) -> derivatives_of m F ph 0 (- PI / 4 + 2 * PI) ->
     jacobian_ok 2 m (c2 eps th) -> invertible_at 2 m (c2 eps th) -> derivatives_of m F ph eps th ->
     nth_error A k = Some (rotated (between (r / eps) (G (m_apply m (c2 0 0))) (G (m_apply m (c2 eps th)))))).
Proof.
  intros He HW HF H k r th E. destruct (field_xy m eps ph grid A H) as [_ N]. destruct (N k r th E) as [N1 N2]. split.
  - intros Hr HJ HI HD. destruct (N1 Hr HI) as (g & _ & U & ->). rewrite <- (U _ (true_gradient m F G ph r th HW HJ HF HD)). reflexivity.
  - intros Hr HP HDir J1 J2 D1 D2 HJ HI HD. destruct (N2 Hr He HDir HI) as (g0 & ge & P1 & P2 & Ge & ->).
    pose proof (true_pole m F G ph _ HW J1 HF D1) as Q1. pose proof (true_pole m F G ph _ HW J2 HF D2) as Q2.
    rewrite (proj2 (sf_typed F G HF _ _ (HP (PI / 4) 0))) in Q1. rewrite (proj2 (sf_typed F G HF _ _ (HP (- PI / 4 + 2 * PI) 0))) in Q2.
    rewrite (pole_unique m ph g0 _ HDir P1 P2 Q1 Q2).
    destruct Ge as (dr & dt & [S1 S2] & C). destruct (true_gradient m F G ph eps th HW HJ HF HD) as (dr' & dt' & [S1' S2'] & C').
    assert (dr' = dr) by congruence. assert (dt' = dt) by congruence. subst. rewrite (gradient_unique m eps th dr dt ge _ HI C C'). reflexivity.
Qed.
Lemma Rabs_def2_le x a : Rabs x <= a -> - a <= x <= a.
Proof. intros H. pose proof (Rle_abs x). pose proof (Rle_abs (- x)) as N. rewrite Rabs_Ropp in N. lra. Qed.
Lemma between_close s u v w d : 0 <= s <= 1 -> Rabs (fst u - fst w) <= d -> Rabs (snd u - snd w) <= d -> Rabs (fst v - fst w) <= d -> Rabs (snd v - snd w) <= d ->
  Rabs (fst (between s u v) - fst w) <= d /\ Rabs (snd (between s u v) - snd w) <= d.
Proof.
  assert (X : forall a b c, 0 <= s <= 1 -> Rabs (a - c) <= d -> Rabs (b - c) <= d -> Rabs ((1 - s) * a + s * b - c) <= d).
  { intros a b c Hs Ha Hb. apply Rabs_le. apply Rabs_def2_le in Ha. apply Rabs_def2_le in Hb. assert (A1 : (1 - s) * (a - c) <= (1 - s) * d) by (apply Rmult_le_compat_l; lra). assert (A2 : s * (b - c) <= s * d) by (apply Rmult_le_compat_l; lra). assert (B1 : (1 - s) * - d <= (1 - s) * (a - c)) by (apply Rmult_le_compat_l; lra). assert (B2 : s * - d <= s * (b - c)) by (apply Rmult_le_compat_l; lra). lra. }
  intros Hs A B C D. cbn [between fst snd]. split; apply X; assumption.
Qed.

(** ** Mappings *)
Lemma cos_th2 : cos (- PI / 4 + 2 * PI) = cos (PI / 4).
Proof. rewrite cos_plus, cos_2PI, sin_2PI. replace (- PI / 4) with (- (PI / 4)) by field. rewrite cos_neg. ring. Qed.
Lemma sin_th2 : sin (- PI / 4 + 2 * PI) = - sin (PI / 4).
Proof. rewrite sin_plus, cos_2PI, sin_2PI. replace (- PI / 4) with (- (PI / 4)) by field. rewrite sin_neg. ring. Qed.
Lemma quarter_pos : 0 < cos (PI / 4) /\ 0 < sin (PI / 4).
Proof. rewrite cos_PI4, sin_PI4. assert (0 < sqrt 2) by (apply sqrt_lt_R0; lra). assert (0 < 1 / sqrt 2) by (apply Rdiv_lt_0_compat; lra). lra. Qed.
Lemma circ_directions ox oy : directions (circular ox oy).
Proof.
  do 4 eexists. split; [reflexivity|]. split; [reflexivity|]. split; [reflexivity|]. split; [reflexivity|]. cbn [c2].
  rewrite cos_th2, sin_th2. destruct quarter_pos as [C S]. pose proof (Rmult_lt_0_compat _ _ C S). lra.
Qed.
Lemma circ_pole ox oy : one_pole (circular ox oy).
Proof. intros th th' i Hi. cbn. unfold circ_apply. cbn. assert (i = 0 \/ i = 1)%nat as [-> | ->] by lia; cbn; ring. Qed.
Lemma cz_directions c : 0 < cz_eps c -> cz_eps c * cz_eps c < 3 -> 0 < cz_e c -> directions (czarny c).
Proof.
  intros H1 H2 H3. do 4 eexists. split; [reflexivity|]. split; [reflexivity|]. split; [reflexivity|]. split; [reflexivity|]. cbn [c2].
  rewrite cos_th2, sin_th2. destruct quarter_pos as [C S]. set (co := cos (PI / 4)) in *. set (si := sin (PI / 4)) in *.
  set (xi := sqrt (1 / (1 - cz_eps c * cz_eps c * (1 / 4)))).
  assert (X : 0 < xi). { apply sqrt_lt_R0. apply Rdiv_lt_0_compat; lra. }
  replace (cz_eps c * (cz_eps c + 2 * 0 * co) + 1) with (cz_eps c * cz_eps c + 1) by ring.
  set (q := sqrt (cz_eps c * cz_eps c + 1)).
  assert (EE : 0 < cz_eps c * cz_eps c) by (apply Rmult_lt_0_compat; lra).
  assert (Q0 : 0 < q) by (apply sqrt_lt_R0; lra).
  assert (Q2 : q < 2). { replace 2 with (sqrt 4) by (replace 4 with (2 * 2) by ring; apply sqrt_square; lra). apply sqrt_lt_1; lra. }
  intros Z. assert (P : 0 < 2 * (co / q) * (cz_e c * si * xi / (2 - q))).
  { apply Rmult_lt_0_compat; [apply Rmult_lt_0_compat; [lra|apply Rdiv_lt_0_compat; lra]|]. apply Rdiv_lt_0_compat; [|lra]. apply Rmult_lt_0_compat; [|lra]. apply Rmult_lt_0_compat; lra. }
  assert (E : 2 * (co / q) * (cz_e c * si * xi / (2 - q)) = 0); [|lra]. rewrite <- Z. field. lra.
Qed.
Lemma cz_pole c : one_pole (czarny c).
Proof. intros th th' i Hi. pose proof (cz_opoint c th i Hi) as A. pose proof (cz_opoint c th' i Hi) as B. cbn [czarny m_apply] in *. congruence. Qed.

(** ** Incompressibility *)
Lemma incompressible m ph fr ft a b r th h : 
  (forall r th, ph_r ph r th = Ok (fr r th) /\ ph_t ph r th = Ok (ft r th)) ->
  derivable_pt_lim (fun t => ft t th) r h -> derivable_pt_lim (fun t => fr r t) th h ->
  (exists d, 0 < d /\ forall r' th', Rabs (r' - r) < d -> Rabs (th' - th) < d ->
     invertible_at 2 m (c2 r' th') /\ m_jac m (c2 r' th') = det_n 2 (m_J m (c2 r' th')) /\
     exists c, advection_field_rtheta m ph [(r', th')] = Ok ([(a r' th', b r' th')], c)) ->
  exists u v, derivable_pt_lim (fun t => m_jac m (c2 t th) * a t th) r u /\ derivable_pt_lim (fun t => m_jac m (c2 r t) * b r t) th v /\ u + v = 0.
Proof.
  intros HP Hr Ht (d & Hd & H). 
  assert (X : forall r' th', Rabs (r' - r) < d -> Rabs (th' - th) < d -> m_jac m (c2 r' th') * a r' th' = - ft r' th' /\ m_jac m (c2 r' th') * b r' th' = fr r' th').
  { intros r' th' A B. destruct (H r' th' A B) as (HI & HJ & c & E). destruct (field_rt m ph _ _ _ E) as [[_ N] _].
    destruct (N 0%nat r' th' eq_refl HI HJ) as (dr & dt & a' & b' & [S1 S2] & Nk & _ & Ea & Eb). cbn in Nk. injection Nk as <- <-.
    destruct (HP r' th') as [P1 P2]. assert (dr = fr r' th') by congruence. assert (dt = ft r' th') by congruence. subst. split; assumption. }
  exists (- h), h. split; [|split; [|ring]].
  - apply (derivable_pt_lim_opp (fun t => ft t th)) in Hr. intros e He. destruct (Hr e He) as [dl Hdl].
    assert (M : 0 < Rmin dl d) by (apply Rmin_glb_lt; [apply cond_pos|exact Hd]). exists (mkposreal _ M). intros y Hy Ly. cbn in Ly.
    assert (L1 : Rabs y < dl) by (eapply Rlt_le_trans; [exact Ly|apply Rmin_l]). assert (L2 : Rabs y < d) by (eapply Rlt_le_trans; [exact Ly|apply Rmin_r]).
    specialize (Hdl y Hy L1). unfold opp_fct in Hdl.
    rewrite (proj1 (X (r + y) th ltac:(replace (r + y - r) with y by ring; exact L2) ltac:(replace (th - th) with 0 by ring; rewrite Rabs_R0; exact Hd))).
    rewrite (proj1 (X r th ltac:(replace (r - r) with 0 by ring; rewrite Rabs_R0; exact Hd) ltac:(replace (th - th) with 0 by ring; rewrite Rabs_R0; exact Hd))). exact Hdl.
  - intros e He. destruct (Ht e He) as [dl Hdl].
    assert (M : 0 < Rmin dl d) by (apply Rmin_glb_lt; [apply cond_pos|exact Hd]). exists (mkposreal _ M). intros y Hy Ly. cbn in Ly.
    assert (L1 : Rabs y < dl) by (eapply Rlt_le_trans; [exact Ly|apply Rmin_l]). assert (L2 : Rabs y < d) by (eapply Rlt_le_trans; [exact Ly|apply Rmin_r]).
    specialize (Hdl y Hy L1).
    rewrite (proj2 (X r (th + y) ltac:(replace (r - r) with 0 by ring; rewrite Rabs_R0; exact Hd) ltac:(replace (th + y - th) with y by ring; exact L2))).
    rewrite (proj2 (X r th ltac:(replace (r - r) with 0 by ring; rewrite Rabs_R0; exact Hd) ltac:(replace (th - th) with 0 by ring; rewrite Rabs_R0; exact Hd))). exact Hdl.
Qed.
