From Verif Require Import PolarSpec PolarProofs PolarMain RestrictProofs MappingProofs MappingCzarny MappingComb AdvProofs TimeProofs.
From Coq Require Import Lra Lia.
Open Scope R_scope.

Lemma to_of_crd c i : (i < 2)%nat -> to_crd (of_crd c) i = c i.
Proof. intros H. destruct i as [|[|]]; try lia; reflexivity. Qed.
Lemma circ_to_pc_eq ox oy r t : circ_to_pc ox oy (r, t) = (r * cos t + ox, r * sin t + oy).
Proof. reflexivity. Qed.
Lemma circ_turn ox oy r t t' : congruent (2 * PI) t t' -> circ_to_pc ox oy (r, t) = circ_to_pc ox oy (r, t').
Proof.
  intros [k ->]. rewrite !circ_to_pc_eq. replace (t' + IZR k * (2 * PI)) with (t' + 2 * IZR k * PI) by ring.
  now rewrite cos_shift_Z, sin_shift_Z.
Qed.
Lemma of_crd_ext c d : same_coord 2 c d -> of_crd c = of_crd d.
Proof. intros H. unfold of_crd. rewrite !H by lia. reflexivity. Qed.
Lemma of_to_crd p : of_crd (to_crd p) = p.
Proof. destruct p; reflexivity. Qed.

(** pseudo-Cartesian plane *)
Lemma circular_chart su ox oy : ps_to_pc su = circ_to_pc ox oy -> ps_of_pc su = circ_of_pc ox oy ->
  ps_tlen su = 2 * PI -> polar_chart su (fun _ => True) (fun q => 0 < fst q).
Proof.
  intros E1 E2 E3. pose proof PI_RGT_0. split; auto; rewrite ?E1, ?E2.
  - intros p. destruct (cart_circ_range ox oy (to_crd p)) as [H1 _]. exact H1.
  - intros p _. unfold circ_to_pc, circ_of_pc. rewrite <- (of_to_crd p) at 2. apply of_crd_ext.
    intros i Hi. rewrite <- (circ_right_inverse ox oy (to_crd p) i Hi).
    apply (circ_typed ox oy); auto. intros j Hj. now apply to_of_crd.
  - intros [r t] Hr. cbn [fst snd] in *. destruct (wrap_spec 0 (2 * PI) t) as [W1 W2]; [lra|].
    set (w := wrap 0 (2 * PI) t) in *. assert (W1' : 0 <= w < 2 * PI) by lra. assert (Hc : congruent (2 * PI) t w) by (destruct W2 as [k Hk]; exists (- k)%Z; rewrite opp_IZR; lra).
    rewrite (circ_turn _ _ _ _ _ Hc).
    assert (E : circ_of_pc ox oy (circ_to_pc ox oy (r, w)) = (r, w)).
    { unfold circ_to_pc, circ_of_pc. rewrite <- (of_to_crd (r, w)) at 2. apply of_crd_ext. intros i Hi.
      rewrite <- (circ_left_inverse ox oy (to_crd (r, w)) Hr W1' i Hi).
      apply (cart_circ_typed ox oy); auto. intros j Hj. now apply to_of_crd. }
    rewrite E. cbn [fst snd]. split; auto.
  - intros; now apply circ_turn.
  - intros t. rewrite !circ_to_pc_eq. f_equal; ring.
Qed.

(** the physical plane of a Czarny mapping *)
Lemma cz_turn c r t t' : congruent (2 * PI) t t' -> cz_to_pc c (r, t) = cz_to_pc c (r, t').
Proof.
  intros [k ->]. replace (t' + IZR k * (2 * PI)) with (t' + 2 * IZR k * PI) by ring.
  unfold cz_to_pc, czarny, to_crd. cbn [m_apply]. unfold cz_apply, of_crd. cbn zeta. cbn [c2 fst snd].
  now rewrite cos_shift_Z, sin_shift_Z.
Qed.
Lemma cz_apply_typed c p q : same_coord 2 p q -> same_coord 2 (m_apply (czarny c) p) (m_apply (czarny c) q).
Proof. intros H i Hi. cbn [czarny m_apply]. unfold cz_apply. rewrite !H by lia. reflexivity. Qed.
Lemma cart_cz_typed c p q : same_coord 2 p q -> same_coord 2 (cart_cz_apply c p) (cart_cz_apply c q).
Proof. intros H i Hi. unfold cart_cz_apply. rewrite !H by lia. reflexivity. Qed.
Definition cz_dom (c : czarny_par) (p : R * R) : Prop := -1 < cz_eps c * (fst p - cz_ox c) <= 1.
Definition cz_lgc (c : czarny_par) (q : R * R) : Prop := 0 < fst q /\ cz_admissible c (to_crd q).
Lemma czarny_chart su c : ps_to_pc su = cz_to_pc c -> ps_of_pc su = cz_of_pc c -> ps_tlen su = 2 * PI ->
  0 < cz_eps c -> cz_eps c * cz_eps c < 4 -> 0 < cz_e c -> polar_chart su (cz_dom c) (cz_lgc c).
Proof.
  intros E1 E2 E3 H0 H4 He. pose proof PI_RGT_0. split; auto; rewrite ?E1, ?E2.
  - intros p. unfold cz_of_pc, of_crd. cbn [fst]. rewrite cart_cz_ang. cbn zeta. cbn [c2]. apply sqrt_pos.
  - intros p Hp. unfold cz_to_pc, cz_of_pc. rewrite <- (of_to_crd p) at 2. apply of_crd_ext.
    intros i Hi. rewrite <- (cz_right_inverse c (to_crd p) H0 H4 He Hp i Hi).
    apply cz_apply_typed; auto. intros j Hj. now apply to_of_crd.
  - intros [r t] [Hr Ha]. cbn [fst snd] in *. destruct (wrap_spec 0 (2 * PI) t) as [W1 W2]; [lra|].
    set (w := wrap 0 (2 * PI) t) in *. assert (W1' : 0 <= w < 2 * PI) by lra. assert (Hc : congruent (2 * PI) t w) by (destruct W2 as [k Hk]; exists (- k)%Z; rewrite opp_IZR; lra).
    rewrite (cz_turn _ _ _ _ Hc).
    assert (E : cz_of_pc c (cz_to_pc c (r, w)) = (r, w)).
    { unfold cz_to_pc, cz_of_pc. rewrite <- (of_to_crd (r, w)) at 2. apply of_crd_ext. intros i Hi.
      assert (Ha' : cz_admissible c (to_crd (r, w))).
      { destruct Ha as (A1 & A2 & A3 & A4). unfold cz_admissible. split; [auto|split; [auto|split; [auto|]]].
        unfold to_crd in *. cbn [c2 fst snd] in *. destruct W2 as [k ->].
        replace (t + IZR k * (2 * PI)) with (t + 2 * IZR k * PI) by ring. rewrite cos_shift_Z. exact A4. }
      rewrite <- (cz_left_inverse c (to_crd (r, w)) Ha' Hr W1' i Hi).
      apply cart_cz_typed; auto. intros j Hj. now apply to_of_crd. }
    rewrite E. cbn [fst snd]. split; auto.
  - intros; now apply cz_turn.
  - intros t. unfold cz_to_pc. apply of_crd_ext. intros i Hi.
    exact (eq_trans (cz_opoint c t i Hi) (eq_sym (cz_opoint c 0 i Hi))).
Qed.

(** ** Velocities *)
Section Velocity.
Context {C : Type} (ai : interpolator2 C) (su : polar_setup).
Lemma velocity_same c1 c2 : ps_same su = true ->
  velocity_is ai su c1 c2 (fun y => (i2_eval ai c1 y, i2_eval ai c2 y)).
Proof. intros H y Hy. unfold foot_velocity. cbn zeta. rewrite H. reflexivity. Qed.
Lemma velocity_circular c1 c2 ox oy eps : ps_invJ su = pc_invJ eps o_point_circ (circular ox oy) ->
  tiny <= eps -> 0 <= ps_rmax su ->
  velocity_is ai su c1 c2 (fun y => (i2_eval ai c1 y, i2_eval ai c2 y)).
Proof.
  intros E He Hm y Hy. unfold foot_velocity. cbn zeta. destruct (ps_same su); auto. rewrite E. unfold pc_invJ.
  destruct (comb_circ_invJ ox oy 0 0 eps (to_crd (Rmin (fst y) (ps_rmax su), snd y)) He) as (K & -> & HK).
  { right. unfold to_crd. cbn [MappingModel.c2 fst]. apply Rmin_glb; auto. }
  cbn [bind]. f_equal. unfold of_crd, mat_vec, to_crd. cbn [Rsum MappingModel.c2 fst snd].
  rewrite (HK 0%nat 0%nat), (HK 0%nat 1%nat), (HK 1%nat 0%nat), (HK 1%nat 1%nat) by lia. simpl. f_equal; ring.
Qed.
(** Czarny: the physical velocity is the Jacobian of the composed map times the velocity *)
Lemma velocity_czarny c1 c2 c eps : ps_same su = false -> ps_invJ su = pc_invJ eps (o_point_cz c) (czarny c) ->
  0 < cz_eps c < 1 -> 0 < cz_e c -> tiny <= eps <= 1 -> 0 <= ps_rmax su <= 1 ->
  exists B, velocity_is ai su c1 c2 B /\
  forall y, let v := to_crd (i2_eval ai c1 y, i2_eval ai c2 y) in let q := to_crd (Rmin (fst y) (ps_rmax su), snd y) in
    (eps <= fst y -> eps <= ps_rmax su ->
       exists J, partials 2 (comb_apply (czarny c) (cart_circ 0 0)) (m_apply (circular 0 0) q) J /\
         same_coord 2 (mat_vec 2 J (to_crd (B y))) v) /\
    (fst y = 0 -> exists J, partials 2 (comb_apply (czarny c) (cart_circ 0 0)) (MappingModel.c2 0 0) J /\
         same_coord 2 (mat_vec 2 J (to_crd (B y))) v).
Proof.
  intros Es E H0 He Heps Hm.
  set (B := fun y => match foot_velocity ai su c1 c2 y with Ok k => k | _ => (0, 0) end).
  assert (P : 0 < tiny) by apply tiny_pos.
  assert (A : forall q, 0 <= q 0%nat <= 1 -> cz_admissible c q) by (intros; apply cz_admissible_disc; auto).
  assert (V : forall y, 0 <= fst y -> exists K, comb_invJ 2 eps (o_point_cz c) (czarny c) (circular 0 0)
                (to_crd (Rmin (fst y) (ps_rmax su), snd y)) = Ok K /\
                foot_velocity ai su c1 c2 y = Ok (of_crd (mat_vec 2 K (to_crd (i2_eval ai c1 y, i2_eval ai c2 y))))).
  { intros y Hy. set (q := to_crd (Rmin (fst y) (ps_rmax su), snd y)).
    assert (Hq : 0 <= q 0%nat <= 1).
    { unfold q, to_crd. cbn [MappingModel.c2 fst]. split; [apply Rmin_glb; lra|]. apply Rle_trans with (ps_rmax su); [apply Rmin_r|lra]. }
    destruct (comb_cz_invJ c eps q) as (_ & C2 & C3); [lra|apply A; cbn; lra|].
    assert (exists K, comb_invJ 2 eps (o_point_cz c) (czarny c) (circular 0 0) q = Ok K) as [K EK].
    { destruct (Rle_lt_dec eps (q 0%nat)); [destruct C2 as (K & J & HK & _)|destruct C3 as (K & Ke & HK & _)]; eauto. lra. }
    exists K. split; auto. unfold foot_velocity. cbn zeta. rewrite Es, E. unfold pc_invJ. fold q. rewrite EK. reflexivity. }
  assert (inv : forall K J w, inverse_of 2 K J -> same_coord 2 (mat_vec 2 J (to_crd (of_crd (mat_vec 2 K (to_crd w))))) (to_crd w)).
  { intros K J w [_ HI] i Hi. unfold mat_vec at 1. cbn [Rsum].
    rewrite !to_of_crd by lia. unfold mat_vec. cbn [Rsum].
    pose proof (HI i 0%nat Hi ltac:(lia)) as I0. pose proof (HI i 1%nat Hi ltac:(lia)) as I1.
    unfold mmul in I0, I1. cbn [Rsum] in I0, I1.
    transitivity ((0 + J i 0%nat * K 0%nat 0%nat + J i 1%nat * K 1%nat 0%nat) * to_crd w 0%nat +
        (0 + J i 0%nat * K 0%nat 1%nat + J i 1%nat * K 1%nat 1%nat) * to_crd w 1%nat); [ring|].
    rewrite I0, I1. destruct i as [|[|]]; try lia; simpl; ring. }
  exists B. split.
  { intros y Hy. destruct (V y Hy) as (K & _ & HK). unfold B. now rewrite HK. }
  intros y v q. split.
  - intros Hy Hrm. destruct (V y) as (K & EK & HK); [lra|]. fold q in EK.
    assert (Hq : eps <= q 0%nat <= 1).
    { unfold q, to_crd. cbn [MappingModel.c2 fst]. split; [apply Rmin_glb; lra|]. apply Rle_trans with (ps_rmax su); [apply Rmin_r|lra]. }
    destruct (comb_cz_invJ c eps q) as (_ & C2 & _); [lra|apply A; cbn; lra|].
    destruct C2 as (K' & J & EK' & HJ & HI); [lra|apply A; lra|]. assert (K' = K) by congruence. subst K'.
    exists J. split; auto. unfold B. rewrite HK. apply inv; auto.
  - intros Hy. destruct (V y) as (K & EK & HK); [lra|]. fold q in EK.
    assert (Hq : q 0%nat = 0).
    { unfold q, to_crd. cbn [MappingModel.c2 fst]. rewrite Hy. apply Rmin_left; lra. }
    destruct (comb_cz_invJ c eps q) as (C1 & _ & _); [lra|apply A; cbn; lra|].
    destruct C1 as (K' & EK' & HO); [auto|]. assert (K' = K) by congruence. subst K'.
    destruct (opoint_cz_inverse c) as (J & HJ & HI); [lra|nra|lra|].
    exists J. split; auto. unfold B. rewrite HK. apply inv.
    destruct HI as [I1 I2]. split; intros i j Hi Hj.
    + rewrite <- (I1 i j Hi Hj). unfold mmul. apply Rsum_ext. intros. now rewrite HO.
    + rewrite <- (I2 i j Hi Hj). unfold mmul. apply Rsum_ext. intros. now rewrite HO.
Qed.
End Velocity.
