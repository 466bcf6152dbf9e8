(** The Jacobian matrix of the discrete mapping is the matrix of its partial derivatives (C76). *)
From Coquelicot Require Import Coquelicot.
From Verif Require Import Lib LagDerivSpec DerivModel QuadModel QuadProofs FemModel FemSolve FemMain FemAsm MathModel RestrictProofs MappingModel MappingCyl
  OnionEval PspModel PspSpec PspBernstein PspProofs PspBasis PspMain PspCor PspTheorems PspPole.
From Coq Require Import ZifyBool.
Open Scope R_scope.

Lemma cell_unique b t n x c c' v : bspline_space b t -> (c < b_cells b)%nat -> t (b_deg b + c)%nat < x < t (b_deg b + c + 1)%nat ->
  basis_values b t n x c' v -> c' = c.
Proof.
  intros SB Hc Hx [Hc' [V _]]. destruct (lt_eq_lt_dec c' c) as [[L|L]|L]; [|exact L|]; exfalso.
  - pose proof (bs_mono b t SB (b_deg b + c' + 1)%nat (b_deg b + c)%nat ltac:(lia)). lra.
  - pose proof (bs_mono b t SB (b_deg b + c + 1)%nat (b_deg b + c')%nat ltac:(lia)). lra.
Qed.
Lemma deriv_sum n (f : nat -> R -> R) (l : nat -> R) x : (forall i, (i < n)%nat -> derivable_pt_lim (f i) x (l i)) ->
  derivable_pt_lim (fun y => Rsum n (fun i => f i y)) x (Rsum n l).
Proof.
  induction n as [|n IH]; intros H; cbn [Rsum]; [apply derivable_pt_lim_const|].
  apply (derivable_pt_lim_plus (fun y => Rsum n (fun i => f i y)) (f n)); auto.
Qed.
(** a function which is a spline with coefficients al has the derivative with the derived basis values *)
Lemma spline_derivative b t (al : nat -> R) (f : R -> R) x c v1 : bspline_space b t -> (c < b_cells b)%nat ->
  t (b_deg b + c)%nat < x < t (b_deg b + c + 1)%nat ->
  (forall y c' v, b_rmin b <= y <= b_rmax b -> b_eval b 0 y = Ok (c', v) -> f y = Rsum (b_deg b + 1) (fun j => al (c' + j)%nat * v j)) ->
  b_eval b 1 x = Ok (c, v1) -> basis_values b t 1 x c v1 ->
  derivable_pt_lim f x (Rsum (b_deg b + 1) (fun j => al (c + j)%nat * v1 j)).
Proof.
  intros SB Hc Hx Hf E1 V1.
  assert (DR : forall y, t (b_deg b + c)%nat < y < t (b_deg b + c + 1)%nat -> b_rmin b <= y <= b_rmax b).
  { intros y Hy. rewrite <- (bs_first b t SB), <- (bs_last b t SB).
    pose proof (bs_mono b t SB (b_deg b) (b_deg b + c)%nat ltac:(lia)). pose proof (bs_mono b t SB (b_deg b + c + 1)%nat (b_deg b + b_cells b)%nat ltac:(lia)). lra. }
  assert (G : derivable_pt_lim (fun y => Rsum (b_deg b + 1) (fun j => al (c + j)%nat * cdb t (b_deg b + c) (b_deg b) j y)) x (Rsum (b_deg b + 1) (fun j => al (c + j)%nat * v1 j))).
  { apply (deriv_sum (b_deg b + 1) (fun j y => al (c + j)%nat * cdb t (b_deg b + c) (b_deg b) j y) (fun j => al (c + j)%nat * v1 j)). intros j Hj. apply derivable_pt_lim_scal.
    destruct V1 as [_ [_ V1]]. destruct (V1 j ltac:(lia)) as [g [[F [A [B C]]] EG]]. rewrite EG, <- C. apply (derivable_pt_lim_ext' (F 0%nat)); [exact A|]. apply B. lia. }
  apply is_derive_Reals. apply is_derive_Reals in G.
  apply (is_derive_ext_loc (fun y => Rsum (b_deg b + 1) (fun j => al (c + j)%nat * cdb t (b_deg b + c) (b_deg b) j y))); [|exact G].
  assert (P : 0 < Rmin (x - t (b_deg b + c)%nat) (t (b_deg b + c + 1)%nat - x)) by (apply Rmin_glb_lt; lra).
  exists (mkposreal _ P). intros y Hy. change (Rabs (y - x) < Rmin (x - t (b_deg b + c)%nat) (t (b_deg b + c + 1)%nat - x)) in Hy.
  apply Rabs_lt_between in Hy. pose proof (Rmin_l (x - t (b_deg b + c)%nat) (t (b_deg b + c + 1)%nat - x)). pose proof (Rmin_r (x - t (b_deg b + c)%nat) (t (b_deg b + c + 1)%nat - x)).
  assert (Hy' : t (b_deg b + c)%nat < y < t (b_deg b + c + 1)%nat) by lra.
  destruct (basis_at b t 0 y SB (DR y Hy')) as [c' [v [E [V _]]]]. rewrite (Hf y c' v (DR y Hy') E).
  pose proof (cell_unique b t 0 y c c' v SB Hc Hy' V). subst c'. apply Rsum_ext. intros j Hj. f_equal. symmetry. apply (basis_value_0 b t y c v j V). lia.
Qed.

Section Mapping.
  Context (br bt : bspace) (tr tt : nat -> R) (m : dmap) (SR : bspline_space br tr) (ST : bspline_space bt tt) (M : polar_mapping br bt m).
  Lemma dom_of b t x : bspline_space b t -> inside_cell b t x -> b_rmin b <= x <= b_rmax b.
  Proof.
    intros SB [c [Hc Hx]]. rewrite <- (bs_first b t SB), <- (bs_last b t SB).
    pose proof (bs_mono b t SB (b_deg b) (b_deg b + c)%nat ltac:(lia)). pose proof (bs_mono b t SB (b_deg b + c + 1)%nat (b_deg b + b_cells b)%nat ltac:(lia)). lra.
  Qed.
  Lemma ev_dr xs f r th : length xs = (nbasis_r br * b_size bt)%nat -> inside_cell br tr r -> b_rmin bt <= th <= b_rmax bt ->
    (forall r', b_rmin br <= r' <= b_rmax br -> dm_ev m 0 0 xs r' th = Ok (f r')) ->
    exists v, dm_ev m 1 0 xs r th = Ok v /\ derivable_pt_lim f r v.
  Proof.
    intros HL IR Hth HF. pose proof (dom_of br tr r SR IR) as Hr. destruct IR as [c [Hc Hx]].
    destruct (basis_at br tr 1 r SR Hr) as [cr [vr [Er [Vr _]]]]. destruct (basis_at bt tt 0 th ST Hth) as [ct [vt [Et [Vt Hct]]]].
    pose proof (cell_unique br tr 1 r c cr vr SR Hc Hx Vr). subst cr.
    eexists. split; [exact (pm_ev br bt m M 1%nat 0%nat xs r th (c, vr) (ct, vt) HL Hr Hth Er Et)|]. rewrite tensor_factor. cbn [fst snd].
    apply (spline_derivative br tr (fun i => Rsum (b_deg bt + 1) (fun j => field2 bt xs i (ct + j)%nat * vt j)) f r c vr SR Hc Hx); auto.
    intros y c' v Hy Ey. pose proof (HF y Hy) as H.
    rewrite (pm_ev br bt m M 0%nat 0%nat xs y th (c', v) (ct, vt) HL Hy Hth Ey Et) in H. rewrite tensor_factor in H. cbn [fst snd] in H. congruence.
  Qed.
  Lemma ev_dt xs f r th : length xs = (nbasis_r br * b_size bt)%nat -> b_rmin br <= r <= b_rmax br -> inside_cell bt tt th ->
    (forall th', b_rmin bt <= th' <= b_rmax bt -> dm_ev m 0 0 xs r th' = Ok (f th')) ->
    exists v, dm_ev m 0 1 xs r th = Ok v /\ derivable_pt_lim f th v.
  Proof.
    intros HL Hr IT HF. pose proof (dom_of bt tt th ST IT) as Hth. destruct IT as [c [Hc Hx]].
    destruct (basis_at br tr 0 r SR Hr) as [cr [vr [Er [Vr _]]]]. destruct (basis_at bt tt 1 th ST Hth) as [ct [vt [Et [Vt Hct]]]].
    pose proof (cell_unique bt tt 1 th c ct vt ST Hc Hx Vt). subst ct.
    eexists. split; [exact (pm_ev br bt m M 0%nat 1%nat xs r th (cr, vr) (c, vt) HL Hr Hth Er Et)|].
    assert (TF : forall pt, tensor_spline br bt (field2 bt xs) (cr, vr) pt
      = Rsum (b_deg bt + 1) (fun j => Rsum (b_deg br + 1) (fun i => field2 bt xs (cr + i)%nat (fst pt + j)%nat * vr i) * snd pt j)).
    { intros pt. unfold tensor_spline. rewrite Rsum_swap. apply Rsum_ext. intros j Hj. rewrite <- Rsum_scal_r. reflexivity. }
    rewrite TF. cbn [fst snd].
    apply (spline_derivative bt tt (fun j => Rsum (b_deg br + 1) (fun i => field2 bt xs (cr + i)%nat j * vr i)) f th c vt ST Hc Hx); auto.
    intros y c' v Hy Ey. pose proof (HF y Hy) as H.
    rewrite (pm_ev br bt m M 0%nat 0%nat xs r y (cr, vr) (c', v) HL Hr Hy Er Ey) in H. rewrite TF in H. cbn [fst snd] in H. congruence.
  Qed.
  Theorem jacobian_is_derivative X Y r th : (forall r th, b_rmin br <= r <= b_rmax br -> b_rmin bt <= th <= b_rmax bt -> dm_apply m r th = Ok (X r th, Y r th)) ->
    inside_cell br tr r -> inside_cell bt tt th ->
    exists J, dm_jacobian_matrix m r th = Ok J /\
      derivable_pt_lim (fun r => X r th) r (J 0%nat 0%nat) /\ derivable_pt_lim (fun th => X r th) th (J 0%nat 1%nat) /\
      derivable_pt_lim (fun r => Y r th) r (J 1%nat 0%nat) /\ derivable_pt_lim (fun th => Y r th) th (J 1%nat 1%nat).
  Proof.
    intros HA IR IT. pose proof (dom_of br tr r SR IR) as Hr. pose proof (dom_of bt tt th ST IT) as Hth.
    assert (HX : forall r th, b_rmin br <= r <= b_rmax br -> b_rmin bt <= th <= b_rmax bt -> dm_ev m 0 0 (dm_x m) r th = Ok (X r th) /\ dm_ev m 0 0 (dm_y m) r th = Ok (Y r th)).
    { intros r' th' H1 H2. specialize (HA r' th' H1 H2). unfold dm_apply in HA. destruct (dm_ev m 0 0 (dm_x m) r' th'); try discriminate. cbn [bind] in HA.
      destruct (dm_ev m 0 0 (dm_y m) r' th'); try discriminate. cbn [bind] in HA. split; congruence. }
    pose proof (pm_len_x _ _ _ M) as LX. pose proof (pm_len_y _ _ _ M) as LY.
    destruct (ev_dr (dm_x m) (fun r => X r th) r th LX IR Hth) as [xr [E1 D1]]; [intros r' H'; apply HX; auto|].
    destruct (ev_dt (dm_x m) (fun th => X r th) r th LX Hr IT) as [xt [E2 D2]]; [intros r' H'; apply HX; auto|].
    destruct (ev_dr (dm_y m) (fun r => Y r th) r th LY IR Hth) as [yr [E3 D3]]; [intros r' H'; apply HX; auto|].
    destruct (ev_dt (dm_y m) (fun th => Y r th) r th LY Hr IT) as [yt [E4 D4]]; [intros r' H'; apply HX; auto|].
    unfold dm_jacobian_matrix. rewrite E1. cbn [bind]. rewrite E2. cbn [bind]. rewrite E3. cbn [bind]. rewrite E4. cbn [bind].
    eexists. split; [reflexivity|]. auto.
  Qed.
End Mapping.
