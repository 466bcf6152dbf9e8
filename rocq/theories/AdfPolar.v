(** The O-point value for a C1 polar spline; non-vacuity examples. *)
From Coquelicot Require Import Coquelicot.
From Verif Require Import Lib DerivModel LagDerivSpec QuadProofs MathModel MathSpec MappingModel MappingSpec MappingProofs MappingComb MappingCzarny DiffOpSpec PspModel PspSpec PspBasis PspMain PspCor PspPole PspFinal PspTheorems PspExamples PpfSpec AdfModel AdfSpec AdfProofs AdfMain.
Open Scope R_scope.

Lemma polar_centre br bt tr tt dm x0 y0 e coef m : polar_setup 2 br bt tr tt dm x0 y0 -> polar_make 2 br bt dm = Ok e ->
  length coef = polar_nbasis 2 br bt -> same_centre_directions m dm -> directions m ->
  b_rmin bt <= PI / 4 -> - PI / 4 + 2 * PI <= b_rmax bt ->
  exists a b c K, 0 <= K /\
    (forall r th, 0 <= r < tr (b_deg br + 1)%nat -> b_rmin bt <= th <= b_rmax bt ->
      exists f x y, derivative 2 br bt e coef 0 0 r th = Ok f /\ dm_apply dm r th = Ok (x, y) /\ Rabs (f - affine a b c x y) <= K * (r * r)) /\
    (forall grid A v, advection_field_rtheta m (polar_potential 2 br bt e coef) grid = Ok (A, v) -> v = (- c, b)) /\
    (forall eps grid A k th, 0 < eps -> advection_field_xy m eps (polar_potential 2 br bt e coef) grid = Ok A ->
       nth_error grid k = Some (0, th) -> invertible_at 2 m (c2 eps th) -> nth_error A k = Some (- c, b)).
Proof.
  intros PS HM HL HS HD B1 B2. destruct (pole_c1 br bt tr tt dm x0 y0 e coef PS HM HL) as (a & b & c & K & HK & _ & _ & HN & HG).
  pose proof PI_RGT_0 as PP.
  assert (P : forall th, b_rmin bt <= th <= b_rmax bt -> pole_slope m (polar_potential 2 br bt e coef) (b, c) th).
  { intros th Hth. destruct (HG th Hth) as (g & xr & yr & E1 & E2 & E3 & E4). destruct (HS th) as [J0 J1].
    exists xr, yr, g. rewrite J0, J1. cbn [dm_jacobian_component]. split; [exact E2|]. split; [exact E3|]. split; [exact E1|exact E4]. }
  assert (P1 := P (PI / 4) ltac:(lra)). assert (P2 := P (- PI / 4 + 2 * PI) ltac:(lra)).
  exists a, b, c, K. split; [exact HK|]. split; [exact HN|]. split.
  - intros grid A v H. destruct (field_rt m _ grid A v H) as [_ C]. destruct (C HD) as (g & Q1 & Q2 & ->).
    rewrite (pole_unique m _ g (b, c) HD Q1 Q2 P1 P2). reflexivity.
  - intros eps grid A k th He H E HI. destruct (field_xy m eps _ grid A H) as [_ N].
    destruct (proj2 (N k 0 th E) ltac:(lra) He HD HI) as (g0 & ge & Q1 & Q2 & _ & ->).
    rewrite (pole_unique m _ g0 (b, c) HD Q1 Q2 P1 P2). f_equal. unfold rotated, between. cbn [fst snd]. f_equal; field; lra.
Qed.

(** ** Examples *)
(** phi = x^2 + y on the disc *)
Definition F0 (q : nat -> R) : R := q 0%nat * q 0%nat + q 1%nat.
Definition G0 (q : nat -> R) : R * R := (2 * q 0%nat, 1).
Definition ph0 : potential :=
  {| ph_r := fun r th => Ok (2 * (r * cos th) * cos th + sin th);
     ph_t := fun r th => Ok (2 * (r * cos th) * (- r * sin th) + r * cos th) |}.
Lemma F0_smooth : smooth_function F0 G0.
Proof.
  constructor.
  - intros q q' E. unfold F0, G0. rewrite (E 0%nat), (E 1%nat) by lia. split; reflexivity.
  - intros q. exists (fun i => match i with O => 2 * q 0%nat | _ => 1 end). split; [reflexivity|].
    intros eps He. exists eps. split; [exact He|]. intros y Hy. unfold F0. cbn.
    replace (y 0%nat * y 0%nat + y 1%nat - (q 0%nat * q 0%nat + q 1%nat) - (0 + 2 * q 0%nat * (y 0%nat - q 0%nat) + 1 * (y 1%nat - q 1%nat)))
      with ((y 0%nat - q 0%nat) * (y 0%nat - q 0%nat)) by ring.
    rewrite Rabs_mult. pose proof (Hy 0%nat ltac:(lia)). pose proof (Rabs_pos (y 0%nat - q 0%nat)). pose proof (Rabs_pos (y 1%nat - q 1%nat)).
    apply Rle_trans with (eps * Rabs (y 0%nat - q 0%nat)).
    + apply Rmult_le_compat_r; lra.
    + apply Rmult_le_compat_l; lra.
Qed.
Lemma ph0_derivatives r th : derivatives_of (circular 0 0) F0 ph0 r th.
Proof.
  do 2 eexists. split; [split; reflexivity|]. unfold F0. cbn. unfold circ_apply. cbn. split.
  - apply is_derive_Reals. auto_derive; auto; ring.
  - apply is_derive_Reals. auto_derive; auto; ring.
Qed.
Lemma grid_example : exists A, advection_field_xy (circular 0 0) default_epsilon ph0 [(0, 1); (/ 2, PI)] = Ok A /\
  nth_error A 0 = Some (- 1, 0) /\ nth_error A 1 = Some (- 1, - 1).
Proof.
  assert (He : 0 < default_epsilon). { unfold default_epsilon. apply Rinv_0_lt_compat. apply pow_lt. lra. }
  assert (Hs : default_epsilon < / 2). { unfold default_epsilon. apply Rinv_lt_contravar; [apply Rmult_lt_0_compat; [lra|apply pow_lt; lra]|]. apply Rlt_le_trans with (10 ^ 1); [lra|]. apply Rle_pow; [lra|lia]. }
  pose proof (circ_directions 0 0) as HD.
  assert (TE : tiny <= default_epsilon).
  { unfold default_epsilon, tiny. apply Rinv_le_contravar; [apply pow_lt; lra|]. apply Rle_pow; [lra|lia]. }
  assert (INV : forall r th, default_epsilon <= r -> invertible_at 2 (circular 0 0) (c2 r th)).
  { intros r th Hr. apply circ_invertible. cbn [c2]. rewrite Rabs_right; lra. }
  assert (JOK : forall p, jacobian_ok 2 (circular 0 0) p) by (intros p; apply circ_jacobian).
  assert (WT := circ_typed 0 0).
  destruct (field_xy_total (circular 0 0) default_epsilon ph0 [(0, 1); (/ 2, PI)] He) as [A HA].
  { intros r th Hi. split; [do 2 eexists; split; reflexivity|]. split.
    - intros Hr. apply INV. lra.
    - intros Hr. split; [exact HD|]. split; [eexists; reflexivity|]. split; [eexists; reflexivity|]. split; [apply INV; lra|do 2 eexists; split; reflexivity]. }
  exists A. split; [exact HA|]. split.
  - rewrite (proj2 (exact_field _ _ _ _ _ _ _ He WT F0_smooth HA 0%nat 0 1 eq_refl)); auto using ph0_derivatives, circ_pole; try lra; [|apply INV; lra].
    unfold rotated, between, G0. cbn. unfold circ_apply. cbn. f_equal. f_equal; unfold Rdiv; ring.
  - rewrite (proj1 (exact_field _ _ _ _ _ _ _ He WT F0_smooth HA 1%nat (/ 2) PI eq_refl)); auto using ph0_derivatives.
    + unfold rotated, G0. cbn. unfold circ_apply. cbn. rewrite cos_PI. f_equal. f_equal; field.
    + apply INV. lra.
Qed.
(** ** The spline disc *)
Definition disc_map : mapping :=
  {| m_apply := fun p => p; m_jac := fun _ => 1; m_J := fun _ _ _ => 0;
     m_Jc := fun i j p => dm_jacobian_component (disc 4) i j (p 0%nat) (p 1%nat);
     m_has_inv := false; m_invJ := fun _ => Ub; m_invJc := fun _ _ _ => Ub |}.
Lemma disc_slope f c u : (c < 4)%nat -> 0 < u < 1 ->
  dm_ev (disc 4) 1 0 (field_of 4 f) 0 (knots_t (2 + c) + u * (PI / 2)) = Ok (2 * (f c * ((1 - u) * (1 - u) / 2) + f (c + 1)%nat * (/ 2 + u - u * u) + f (c + 2)%nat * (u * u / 2))).
Proof.
  intros Hc Hu. pose proof PI_RGT_0 as PP. set (th := knots_t (2 + c) + u * (PI / 2)).
  assert (KN : forall i, knots_t (2 + i) = INR i * (PI / 2)) by (intros i; unfold knots_t; rewrite plus_INR; replace (INR 2) with 2 by reflexivity; ring).
  assert (U2 : 0 < u * (PI / 2) < PI / 2). { assert (0 < u * (PI / 2)) by (apply Rmult_lt_0_compat; lra). assert (0 < (1 - u) * (PI / 2)) by (apply Rmult_lt_0_compat; lra). lra. }
  assert (Hth : b_rmin disc_t <= th <= b_rmax disc_t).
  { replace (b_rmin disc_t) with 0 by (cbn [disc_t cdb_space b_rmin]; unfold knots_t; cbn; ring).
    replace (b_rmax disc_t) with (4 * (PI / 2)) by (cbn [disc_t cdb_space b_rmax]; unfold knots_t; cbn; ring). unfold th. rewrite KN.
    assert (0 <= INR c <= 3) by (split; [apply pos_INR|replace 3 with (INR 3) by (cbn; ring); apply le_INR; lia]).
    assert (0 <= INR c * (PI / 2)) by (apply Rmult_le_pos; lra). assert (INR c * (PI / 2) <= 3 * (PI / 2)) by (apply Rmult_le_compat_r; lra). lra. }
  assert (Hr' : b_rmin (disc_r 4) <= 0 <= b_rmax (disc_r 4)).
  { replace (b_rmin (disc_r 4)) with 0 by reflexivity. replace (b_rmax (disc_r 4)) with 4 by (cbn [disc_r cdb_space b_rmax]; unfold knots_r; cbn; ring). lra. }
  destruct (basis_at (disc_r 4) (knots_r 4) 1 0 (disc_r_ok 4 ltac:(lia)) Hr') as [cr [vr [Er [Vr _]]]].
  destruct (basis_at disc_t knots_t 0 th disc_t_ok Hth) as [ct [vt [Et [Vt Hct]]]].
  assert (cr = 0%nat).
  { apply (first_cell (disc_r 4) (knots_r 4) 1 0 cr vr (disc_r_ok 4 ltac:(lia)) Vr). replace (knots_r 4 (b_deg (disc_r 4) + 1)) with 1 by reflexivity. lra. }
  subst cr. cbn [disc dm_ev]. rewrite Er, Et. cbn [bind]. f_equal.
  assert (ct = c).
  { destruct Vt as [_ [[V1 V2] _]]. change (b_deg disc_t) with 2%nat in *. unfold th in V1, V2. replace (2 + ct + 1)%nat with (2 + (ct + 1))%nat in V2 by lia. rewrite !KN in V1, V2.
    assert (A : INR ct < INR c + 1) by (apply Rmult_lt_reg_r with (PI / 2); lra).
    assert (B : INR c < INR (ct + 1)) by (apply Rmult_lt_reg_r with (PI / 2); lra).
    replace (INR c + 1) with (INR (c + 1)) in A by (rewrite plus_INR; reflexivity). apply INR_lt in A, B. lia. }
  subst ct. destruct (quad_t c th) as [Q0 [Q1 Q2]]. cbv zeta in *.
  replace ((th - knots_t (2 + c)) / (PI / 2)) with u in * by (unfold th; field; lra).
  assert (GT : forall j, (j <= 2)%nat -> vt j = cdb knots_t (2 + c) 2 j th) by (intros j Hj; exact (basis_value_0 disc_t knots_t th c vt j Vt Hj)).
  assert (W : forall j l, (j <= 2)%nat -> derivable_pt_lim (cdb (knots_r 4) 2 2 j) 0 l -> vr j = l).
  { intros j l Hj Hl. destruct Vr as (_ & _ & VV). destruct (VV j Hj) as (g & G & ->). change (b_deg (disc_r 4)) with 2%nat in G. cbn [Nat.add] in G.
    destruct G as (F & F0' & F1 & F2). specialize (F1 0%nat 0 ltac:(lia)). rewrite F2 in F1.
    assert (Hg : derivable_pt_lim (cdb (knots_r 4) 2 2 j) 0 (g 0)) by (apply (derivable_pt_lim_ext' (F 0%nat)); [exact F0'|exact F1]). exact (uniqueness_limite _ _ _ _ Hg Hl). }
  assert (W1 : vr 1%nat = 2).
  { apply W; [lia|]. apply (derivable_pt_lim_ext' (fun r => 2 * r - 3 / 2 * (r * r))); [intros t; symmetry; apply quad_r|]. apply is_derive_Reals. auto_derive; auto; ring. }
  assert (W2 : vr 2%nat = 0).
  { apply W; [lia|]. apply (derivable_pt_lim_ext' (fun r => r * r / 2)); [intros t; symmetry; apply quad_r|]. apply is_derive_Reals. auto_derive; auto; field. }
  unfold tensor_spline. change (b_deg (disc_r 4)) with 2%nat. change (b_deg disc_t) with 2%nat. cbn [Rsum Nat.add fst snd].
  rewrite !field_value by lia. rewrite !Nat.add_0_r. rewrite !GT, W1, W2, Q0, Q1, Q2 by lia. cbn [INR]. field.
Qed.
Lemma disc_directions : same_centre_directions disc_map (disc 4) /\ directions disc_map.
Proof.
  split; [intros th; split; reflexivity|]. 
  assert (E1 : PI / 4 = knots_t (2 + 0) + / 2 * (PI / 2)) by (unfold knots_t; cbn; field).
  assert (E2 : - PI / 4 + 2 * PI = knots_t (2 + 3) + / 2 * (PI / 2)) by (unfold knots_t; cbn; field).
  unfold directions. cbn [disc_map m_Jc c2 dm_jacobian_component]. rewrite E1, E2.
  change (dm_x (disc 4)) with (field_of 4 cx). change (dm_y (disc 4)) with (field_of 4 cy).
  rewrite !disc_slope by (try lia; lra). do 4 eexists. split; [reflexivity|]. split; [reflexivity|]. split; [reflexivity|]. split; [reflexivity|].
  unfold cx, cy. cbn [Nat.add Nat.modulo Nat.divmod Nat.sub fst snd]. lra.
Qed.
Lemma disc_range : b_rmin disc_t <= PI / 4 /\ - PI / 4 + 2 * PI <= b_rmax disc_t.
Proof.
  pose proof PI_RGT_0. replace (b_rmin disc_t) with 0 by (cbn [disc_t cdb_space b_rmin]; unfold knots_t; cbn; ring).
  replace (b_rmax disc_t) with (4 * (PI / 2)) by (cbn [disc_t cdb_space b_rmax]; unfold knots_t; cbn; ring). lra.
Qed.
(** ** The vortex direction *)
Lemma docs_direction : ~ (forall m ph eps grid A k r th gx gy, 0 < eps -> advection_field_xy m eps ph grid = Ok A -> nth_error grid k = Some (r, th) ->
  eps < r -> invertible_at 2 m (c2 r th) -> gradient_at m ph r th (gx, gy) ->
  let Ex := - gx in let Ey := - gy in nth_error A k = Some (- Ey, Ex)).
Proof.
  intros H. destruct grid_example as (A & HA & _ & N1).
  assert (He : 0 < default_epsilon). { unfold default_epsilon. apply Rinv_0_lt_compat. apply pow_lt. lra. }
  assert (Hs : default_epsilon < / 2). { unfold default_epsilon. apply Rinv_lt_contravar; [apply Rmult_lt_0_compat; [lra|apply pow_lt; lra]|]. apply Rlt_le_trans with (10 ^ 1); [lra|]. apply Rle_pow; [lra|lia]. }
  assert (TE : tiny <= / 2) by (apply tiny_lt; lra).
  pose proof (true_gradient (circular 0 0) F0 G0 ph0 (/ 2) PI (circ_typed 0 0) (circ_jacobian 0 0 _) F0_smooth (ph0_derivatives _ _)) as G.
  destruct (G0 (m_apply (circular 0 0) (c2 (/ 2) PI))) as [gx gy] eqn:EG.
  specialize (H (circular 0 0) ph0 default_epsilon _ A 1%nat (/ 2) PI gx gy He HA eq_refl Hs).
  rewrite N1 in H. assert (X : Some (-1, -1) = Some (- - gy, - gx)).
  { apply H; [|exact G]. apply circ_invertible. cbn [c2]. rewrite Rabs_right; lra. }
  unfold G0 in EG. cbn in EG. unfold circ_apply in EG. cbn in EG. rewrite cos_PI in EG. injection EG. injection X. intros. lra.
Qed.
Lemma incompressible_example : exists fr ft a b h d, (forall r th, ph_r ph0 r th = Ok (fr r th) /\ ph_t ph0 r th = Ok (ft r th)) /\
  derivable_pt_lim (fun t => ft t 0) 1 h /\ derivable_pt_lim (fun t => fr 1 t) 0 h /\ 0 < d /\
  forall r' th', Rabs (r' - 1) < d -> Rabs (th' - 0) < d ->
     invertible_at 2 (circular 0 0) (c2 r' th') /\ m_jac (circular 0 0) (c2 r' th') = det_n 2 (m_J (circular 0 0) (c2 r' th')) /\
     exists c, advection_field_rtheta (circular 0 0) ph0 [(r', th')] = Ok ([(a r' th', b r' th')], c).
Proof.
  pose (J r th := m_J (circular 0 0) (c2 r th)).
  exists (fun r th => 2 * (r * cos th) * cos th + sin th), (fun r th => 2 * (r * cos th) * (- r * sin th) + r * cos th),
    (fun r th => match contravariant_field (circular 0 0) r th (2 * (r * cos th) * cos th + sin th, 2 * (r * cos th) * (- r * sin th) + r * cos th) with Ok v => fst v | _ => 0 end),
    (fun r th => match contravariant_field (circular 0 0) r th (2 * (r * cos th) * cos th + sin th, 2 * (r * cos th) * (- r * sin th) + r * cos th) with Ok v => snd v | _ => 0 end),
    1, (/ 2).
  split; [intros; split; reflexivity|]. split; [|split; [|split; [lra|]]].
  - apply is_derive_Reals. auto_derive; auto. rewrite sin_0, cos_0. ring.
  - apply is_derive_Reals. auto_derive; auto. rewrite sin_0, cos_0. ring.
  - intros r th Hr Hth. assert (R1 : / 2 < r) by (apply Rabs_def2 in Hr; lra).
    assert (HI : invertible_at 2 (circular 0 0) (c2 r th)). { apply circ_invertible. cbn [c2]. rewrite Rabs_right by lra. apply tiny_lt. lra. }
    split; [exact HI|]. split.
    { destruct (circ_jacobian 0 0 (c2 r th)) as (_ & D & _). exact D. }
    destruct (field_rt_total (circular 0 0) ph0 [(r, th)] (circ_directions 0 0)) as (A & c & E); try (eexists; reflexivity).
    { intros r' th' [E|[]]. injection E as <- <-. split; [do 2 eexists; split; reflexivity|exact HI]. }
    exists c. rewrite E. unfold advection_field_rtheta in E. cbn [map_res ph0 ph_r ph_t bind combine fst snd] in E.
    destruct (contravariant_field (circular 0 0) r th _) as [v| | |]; cbn [bind] in E; try discriminate.
    destruct (centre_gradient _ _); cbn [bind] in E; try discriminate. assert (X : A = [v]) by congruence. rewrite X. destruct v. reflexivity.
Qed.
