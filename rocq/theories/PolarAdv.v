From Verif Require Import PolarSpec PolarProofs PolarMain PolarCharts RestrictProofs MappingProofs AdvProofs TimeProofs.
From Coq Require Import Lra Lia Bool.
Open Scope R_scope.

Lemma grid2_ext nr nt f g : (forall ir it, (ir < nr)%nat -> (it < nt)%nat -> f ir it = g ir it) -> grid2 nr nt f = grid2 nr nt g.
Proof.
  intros H. unfold grid2. apply map_ext_in. intros ir Hi. apply map_ext_in. intros it Ht.
  apply in_seq in Hi. apply in_seq in Ht. apply H; lia.
Qed.
Lemma foot_from_ext {C} (ai : interpolator2 C) su fuel m adv adv' dt ib y :
  (forall ir it, (ir < ps_nr su)%nat -> (it < ps_nt su)%nat -> adv ib ir it = adv' ib ir it) ->
  foot_from ai su fuel m adv dt ib y = foot_from ai su fuel m adv' dt ib y.
Proof.
  intros H. unfold foot_from, coefs_x, coefs_y.
  rewrite (grid2_ext _ _ (fun ir it => fst (adv ib ir it)) (fun ir it => fst (adv' ib ir it))) by (intros; now rewrite H).
  rewrite (grid2_ext _ _ (fun ir it => snd (adv ib ir it)) (fun ir it => snd (adv' ib ir it))) by (intros; now rewrite H).
  reflexivity.
Qed.

Section Adv.
Context {C : Type} (ai : interpolator2 C) {D : Type} (fi : interpolator2 D) (su : polar_setup) (fuel : nat).
Hypothesis Hlen : 0 < ps_tlen su.
Hypothesis Hfuel : (10 <= fuel)%nat.
Hypothesis Hrad : forall p, 0 <= fst (ps_of_pc su p).
Hypothesis Hr : forall ir, (ir < ps_nr su)%nat -> 0 <= ps_r su ir.
Variable nb : nat.
Notation inside ib ir it := ((ib < nb)%nat /\ (ir < ps_nr su)%nat /\ (it < ps_nt su)%nat).

(** the result does not depend on what the memory holds outside the values of the fields, nor on the schedule *)
Lemma advect_ext m sc sc' feet0 feet0' f f' adv adv' dt B :
  good_schedule nb (ps_nr su) (ps_nt su) sc -> good_schedule nb (ps_nr su) (ps_nt su) sc' ->
  (forall ib, (ib < nb)%nat -> velocity_is ai su (coefs_x ai su adv ib) (coefs_y ai su adv ib) (B ib)) ->
  (forall ib ir it, inside ib ir it -> f ib ir it = f' ib ir it /\ adv ib ir it = adv' ib ir it) ->
  exists g g', advect_xy ai su fuel fi m sc nb feet0 f adv dt = Ok g /\
    advect_xy ai su fuel fi m sc' nb feet0' f' adv' dt = Ok g' /\
    (forall ib ir it, inside ib ir it -> g ib ir it = g' ib ir it).
Proof.
  intros S1 S2 HB HE.
  assert (HB' : forall ib, (ib < nb)%nat -> velocity_is ai su (coefs_x ai su adv' ib) (coefs_y ai su adv' ib) (B ib)).
  { intros ib Hb. unfold coefs_x, coefs_y.
    rewrite (grid2_ext _ _ (fun ir it => fst (adv' ib ir it)) (fun ir it => fst (adv ib ir it)))
      by (intros; now rewrite (proj2 (HE ib ir it ltac:(auto)))).
    rewrite (grid2_ext _ _ (fun ir it => snd (adv' ib ir it)) (fun ir it => snd (adv ib ir it)))
      by (intros; now rewrite (proj2 (HE ib ir it ltac:(auto)))).
    apply HB; auto. }
  destruct (advect_ok ai su fuel Hlen Hfuel Hrad nb adv B Hr HB fi m sc feet0 f dt S1) as (g & ft & E & V & W).
  destruct (advect_ok ai su fuel Hlen Hfuel Hrad nb adv' B Hr HB' fi m sc' feet0' f' dt S2) as (g' & ft' & E' & V' & W').
  exists g, g'. split; auto. split; auto. intros ib ir it (H1 & H2 & H3). rewrite W, W'.
  destruct (Nat.ltb_spec ib nb); [|lia]. destruct (Nat.ltb_spec ir (ps_nr su)); [|lia].
  destruct (Nat.ltb_spec it (ps_nt su)); [|lia]. cbn [andb].
  assert (F : ft ib ir it = ft' ib ir it).
  { pose proof (V ib ir it H1 H2 H3) as A. pose proof (V' ib ir it H1 H2 H3) as A'.
    rewrite <- (foot_from_ext ai su fuel m adv adv') in A'; [congruence|]. intros. apply HE; auto. }
  rewrite F. unfold interpolant2. rewrite (grid2_ext _ _ (f ib) (f' ib)); auto. intros. apply HE; auto.
Qed.

(** a constant field in the pseudo-physical plane: exact translation *)
Lemma advect_translation m sc feet0 f adv dt (A : nat -> R * R) (g : nat -> R * R -> R) :
  good_schedule nb (ps_nr su) (ps_nt su) sc ->
  (forall ib, (ib < nb)%nat -> velocity_is ai su (coefs_x ai su adv ib) (coefs_y ai su adv ib) (fun _ => A ib)) ->
  let foot ib ir it := logical su (ksub (ps_to_pc su (ps_r su ir, ps_t su (own_angle su ir it))) (kscal dt (A ib))) in
  (forall ib ir it, inside ib ir it -> f ib ir it = g ib (ps_to_pc su (ps_r su ir, ps_t su it))) ->
  (forall ib ir it, inside ib ir it -> exact2_at fi su (fun y => g ib (ps_to_pc su y)) (foot ib ir it)) ->
  exists h, advect_xy ai su fuel fi m sc nb feet0 f adv dt = Ok h /\
    forall ib ir it, inside ib ir it -> h ib ir it = g ib (ps_to_pc su (foot ib ir it)).
Proof.
  intros S1 HB foot Hf Hx.
  destruct (advect_ok ai su fuel Hlen Hfuel Hrad nb adv (fun ib _ => A ib) Hr HB fi m sc feet0 f dt S1) as (h & ft & E & V & W).
  exists h. split; auto. intros ib ir it (H1 & H2 & H3). rewrite W.
  destruct (Nat.ltb_spec ib nb); [|lia]. destruct (Nat.ltb_spec ir (ps_nr su)); [|lia].
  destruct (Nat.ltb_spec it (ps_nt su)); [|lia]. cbn [andb].
  assert (F : ft ib ir it = foot ib ir it).
  { pose proof (V ib ir it H1 H2 H3) as Q. unfold foot_from in Q.
    rewrite (stepper_constant ai su fuel Hlen Hfuel Hrad _ _ (fun _ => A ib) (HB ib H1) m _ dt (A ib)) in Q; auto.
    - unfold foot. congruence.
    - cbn [fst]. auto. }
  rewrite F, <- (Hx ib ir it) by auto. unfold interpolant2. f_equal. f_equal. apply grid2_ext. intros; apply Hf; auto.
Qed.

(** nothing moves in a step of length zero *)
Lemma advect_zero m sc feet0 f adv B :
  good_schedule nb (ps_nr su) (ps_nt su) sc ->
  (forall ib, (ib < nb)%nat -> velocity_is ai su (coefs_x ai su adv ib) (coefs_y ai su adv ib) (B ib)) ->
  exists h, advect_xy ai su fuel fi m sc nb feet0 f adv 0 = Ok h /\
    forall ib ir it, inside ib ir it ->
      h ib ir it = interpolant2 fi su (f ib) (logical su (ps_to_pc su (ps_r su ir, ps_t su (own_angle su ir it)))).
Proof.
  intros S1 HB.
  destruct (advect_ok ai su fuel Hlen Hfuel Hrad nb adv B Hr HB fi m sc feet0 f 0 S1) as (h & ft & E & V & W).
  exists h. split; auto. intros ib ir it (H1 & H2 & H3). rewrite W.
  destruct (Nat.ltb_spec ib nb); [|lia]. destruct (Nat.ltb_spec ir (ps_nr su)); [|lia].
  destruct (Nat.ltb_spec it (ps_nt su)); [|lia]. cbn [andb]. f_equal.
  pose proof (V ib ir it H1 H2 H3) as Q. unfold foot_from in Q.
  rewrite (stepper_zero ai su fuel Hlen Hfuel Hrad _ _ _ (HB ib H1) m) in Q; [|cbn [fst]; auto]. congruence.
Qed.

(** one value at the O-point *)
Lemma advect_centre m sc feet0 f adv dt B :
  good_schedule nb (ps_nr su) (ps_nt su) sc ->
  (forall ib, (ib < nb)%nat -> velocity_is ai su (coefs_x ai su adv ib) (coefs_y ai su adv ib) (B ib)) ->
  Rabs (ps_r su 0) < tiny ->
  exists h, advect_xy ai su fuel fi m sc nb feet0 f adv dt = Ok h /\
    forall ib it it', (ib < nb)%nat -> (0 < ps_nr su)%nat -> (it < ps_nt su)%nat -> (it' < ps_nt su)%nat ->
      h ib 0%nat it = h ib 0%nat it'.
Proof.
  intros S1 HB H0.
  destruct (advect_ok ai su fuel Hlen Hfuel Hrad nb adv B Hr HB fi m sc feet0 f dt S1) as (h & ft & E & V & W).
  exists h. split; auto. intros ib it it' H1 H2 H3 H4. rewrite !W.
  destruct (Nat.ltb_spec ib nb); [|lia]. destruct (Nat.ltb_spec 0 (ps_nr su)); [|lia].
  destruct (Nat.ltb_spec it (ps_nt su)); [|lia]. destruct (Nat.ltb_spec it' (ps_nt su)); [|lia]. cbn [andb]. f_equal.
  pose proof (V ib 0%nat it H1 H2 H3) as Q. pose proof (V ib 0%nat it' H1 H2 H4) as Q'.
  unfold own_angle in Q, Q'. cbn [Nat.eqb] in Q, Q'. destruct (Rlt_dec (Rabs (ps_r su 0)) tiny); [congruence|lra].
Qed.

(** ** Fields in curvilinear components *)
Variable J : (nat -> R) -> nat -> nat -> R.
Notation cartesian a := (fun ib ir it => of_crd (mat_vec 2 (J (to_crd (ps_r su ir, ps_t su it))) (to_crd (a ib ir it)))).
(** the field with the value [centre ib] at the O-point *)
Notation with_centre a centre := (fun ib ir it => if (ir =? 0)%nat then centre ib else cartesian a ib ir it).
Lemma rtheta_centre_ok m sc sc' feet0 feet0' xy0 f a centre dt B :
  good_schedule nb (ps_nr su) (ps_nt su) sc -> good_schedule nb (ps_nr su) (ps_nt su) sc' ->
  let adv := with_centre a (fun _ : nat => centre) in
  (forall ib, (ib < nb)%nat -> velocity_is ai su (coefs_x ai su adv ib) (coefs_y ai su adv ib) (B ib)) ->
  if Rlt_dec (ps_r su 0) (/ 10 ^ 13)
  then exists g g', advect_rtheta_centre ai su fuel fi J m sc nb feet0 xy0 f a centre dt = Ok g /\
         advect_xy ai su fuel fi m sc' nb feet0' f adv dt = Ok g' /\
         forall ib ir it, inside ib ir it -> g ib ir it = g' ib ir it
  else advect_rtheta_centre ai su fuel fi J m sc nb feet0 xy0 f a centre dt = AssertFail.
Proof.
  intros S1 S2 adv HB. unfold advect_rtheta_centre, Rltb. destruct (Rlt_dec _ _); [|reflexivity]. cbn [check bind]. cbn zeta.
  match goal with |- context [advect_xy _ _ _ _ _ sc _ _ _ ?x _] =>
    destruct (advect_ext m sc' sc feet0' feet0 f f adv x dt B S2 S1 HB) as (g & g' & E & E' & H) end.
  - intros ib ir it Hi. split; auto. unfold adv, to_xy. destruct (Nat.eqb_spec ir 0); auto.
    destruct (Nat.leb_spec 1 ir); auto. lia.
  - exists g', g. split; auto. split; auto. intros; symmetry; auto.
Qed.
Lemma rtheta_ok m sc sc' feet0 feet0' xy0 f a0 a dt B :
  good_schedule nb (ps_nr su) (ps_nt su) sc -> good_schedule nb (ps_nr su) (ps_nt su) sc' ->
  let average ib := (/ INR (ps_nt su) * Rsum (ps_nt su) (fun it => fst (cartesian a ib 1%nat it)),
                     / INR (ps_nt su) * Rsum (ps_nt su) (fun it => snd (cartesian a ib 1%nat it))) in
  let adv := if Rlt_dec (ps_r su 0) (/ 10 ^ 13) then with_centre a average else cartesian a in
  (forall ib, (ib < nb)%nat -> velocity_is ai su (coefs_x ai su adv ib) (coefs_y ai su adv ib) (B ib)) ->
  (ps_r su 0 < / 10 ^ 13 /\ (a0 <= 1)%nat /\ (2 <= ps_nr su)%nat) \/ (/ 10 ^ 13 <= ps_r su 0 /\ a0 = 0%nat) ->
  exists g g', advect_rtheta ai su fuel fi J m sc nb feet0 xy0 f a0 a dt = Ok g /\
    advect_xy ai su fuel fi m sc' nb feet0' f adv dt = Ok g' /\
    forall ib ir it, inside ib ir it -> g ib ir it = g' ib ir it.
Proof.
  intros S1 S2 average adv HB Hc.
  assert (X : forall x, (forall ib ir it, inside ib ir it -> adv ib ir it = x ib ir it) ->
    exists g g', advect_xy ai su fuel fi m sc nb feet0 f x dt = Ok g /\
    advect_xy ai su fuel fi m sc' nb feet0' f adv dt = Ok g' /\
    forall ib ir it, inside ib ir it -> g ib ir it = g' ib ir it).
  { intros x Hx. destruct (advect_ext m sc' sc feet0' feet0 f f adv x dt B S2 S1 HB) as (g & g' & E & E' & H).
    - intros; split; auto.
    - exists g', g. split; auto. split; auto. intros; symmetry; auto. }
  unfold advect_rtheta, Rltb. unfold adv in *. clear adv. destruct (Rlt_dec (ps_r su 0) (/ 10 ^ 13)) as [Hl|Hl].
  - destruct Hc as [(_ & Ha & Hn)|[H _]]; [|lra]. cbn [orb check bind]. cbn zeta.
    destruct (Nat.leb_spec a0 1); [|lia]. destruct (Nat.leb_spec 2 (ps_nr su)); [|lia]. apply X.
    intros ib ir it Hi. unfold to_xy. destruct (Nat.eqb_spec ir 0); [reflexivity|].
    destruct (Nat.leb_spec 1 ir); [reflexivity|lia].
  - destruct Hc as [[H _]|[_ ->]]; [lra|]. cbn [orb check bind Nat.eqb Nat.leb]. cbn zeta. apply X.
    intros ib ir it Hi. reflexivity.
Qed.
Lemma rtheta_assert m sc feet0 xy0 f a0 a dt : / 10 ^ 13 <= ps_r su 0 -> a0 <> 0%nat ->
  advect_rtheta ai su fuel fi J m sc nb feet0 xy0 f a0 a dt = AssertFail.
Proof.
  clear. intros H H0. unfold advect_rtheta, Rltb. destruct (Rlt_dec _ _); [lra|]. destruct (Nat.eqb_spec a0 0); [lia|]. reflexivity.
Qed.
End Adv.

(** the order of accuracy of the feet *)
Lemma Rabs_triang_sub a b : Rabs (a - b) <= Rabs a + Rabs b.
Proof. unfold Rminus. rewrite <- (Rabs_Ropp b). apply Rabs_triang. Qed.
Section Order.
Context {C : Type} (ai : interpolator2 C) (su : polar_setup) (fuel : nat).
Hypothesis Hfuel : (10 <= fuel)%nat.
Variables (dom lgc : R * R -> Prop).
Hypothesis Ch : polar_chart su dom lgc.
Variables (c1 c2' : C) (B : R * R -> R * R).
Hypothesis HB : velocity_is ai su c1 c2' B.

Lemma textbook_order m H x Y : explicit m -> 0 < H -> H <= 1 -> smooth_at 2 (backward su B) x ->
  solves_ode 2 (backward su B) x H Y ->
  exists K, 0 <= K /\ forall dt, Rabs dt <= H ->
    vle 2 (fun i => textbook m (backward su B) x dt i - Y dt i) (K * Rabs dt ^ (order_of m + 1)).
Proof.
  intros Hm H0 H1 (A & B' & T & HT) HY. destruct m; cbn [textbook order_of]; try contradiction.
  - exact (order_euler 2 H H0 H1 _ x A B' T HT Y HY).
  - exact (order_rk2 2 H H0 H1 _ x A B' T HT Y HY).
  - exact (order_rk3 2 H H0 H1 _ x A B' T HT Y HY).
  - exact (order_rk4 2 H H0 H1 _ x A B' T HT Y HY).
Qed.
Lemma norm_inf_vle p : norm_inf_coord p < tiny -> vle 2 (to_crd p) tiny.
Proof.
  intros H i Hi. unfold norm_inf_coord in H. pose proof (Rmax_r (Rmax 0 (Rabs (fst p))) (Rabs (snd p))).
  pose proof (Rmax_l (Rmax 0 (Rabs (fst p))) (Rabs (snd p))). pose proof (Rmax_r 0 (Rabs (fst p))).
  destruct i as [|[|]]; try lia; unfold to_crd; cbn [c2]; lra.
Qed.
Lemma foot_order m H y Y : explicit m -> 0 <= fst y -> B y = B (logical su (ps_to_pc su y)) ->
  0 < H -> H <= 1 -> smooth_at 2 (backward su B) (to_crd (ps_to_pc su y)) ->
  solves_ode 2 (backward su B) (to_crd (ps_to_pc su y)) H Y ->
  exists K, 0 <= K /\ forall dt, Rabs dt <= H ->
    dom (of_crd (textbook m (backward su B) (to_crd (ps_to_pc su y)) dt)) ->
    exists z, stepper_res (foot_velocity ai su c1 c2') (foot_step su fuel) m y dt = Ok z /\
      vle 2 (fun i => to_crd (ps_to_pc su z) i - Y dt i) (K * Rabs dt ^ (order_of m + 1) + tiny).
Proof.
  intros Hm Hy Hb H0 H1 HS HY. destruct (textbook_order m H _ Y Hm H0 H1 HS HY) as (K & HK & HE).
  exists K. split; auto. intros dt Hdt Hd.
  rewrite (runge_kutta ai su fuel (chart_len _ _ _ Ch) Hfuel (ch_radius _ _ _ Ch) _ _ _ HB m y dt Hm Hy Hb).
  eexists. split; [reflexivity|]. intros i Hi.
  set (x := textbook m _ _ dt) in *. pose proof (norm_inf_vle _ (logical_close _ _ _ Ch _ Hd) i Hi) as A.
  specialize (HE dt Hdt i Hi). cbn beta in HE. fold x in HE.
  assert (E : to_crd (ksub (of_crd x) (ps_to_pc su (logical su (of_crd x)))) i = x i - to_crd (ps_to_pc su (logical su (of_crd x))) i).
  { destruct i as [|[|]]; try lia; reflexivity. }
  rewrite E in A. cbn beta.
  replace (to_crd (ps_to_pc su (logical su (of_crd x))) i - Y dt i) with
    ((x i - Y dt i) - (x i - to_crd (ps_to_pc su (logical su (of_crd x))) i)) by ring.
  eapply Rle_trans; [apply Rabs_triang_sub|]. lra.
Qed.
End Order.

(** ** Final forms *)
Lemma feet_all {C} (ai : interpolator2 C) su fuel nb adv B m order border border' dt feet0 :
  0 < ps_tlen su -> (10 <= fuel)%nat -> (forall p, 0 <= fst (ps_of_pc su p)) ->
  (forall ir, (ir < ps_nr su)%nat -> 0 <= ps_r su ir) ->
  (forall ib, (ib < nb)%nat -> velocity_is ai su (coefs_x ai su adv ib) (coefs_y ai su adv ib) (B ib)) ->
  all_triples nb (ps_nr su) (ps_nt su) order -> all_lines nb border -> all_lines nb border' ->
  exists feet, find_feet ai su fuel m order border border' adv dt feet0 = Ok feet /\
    forall ib ir it, (ib < nb)%nat -> (ir < ps_nr su)%nat -> (it < ps_nt su)%nat ->
      let z := feet ib ir it in
      foot_from ai su fuel m adv dt ib (ps_r su ir, ps_t su (own_angle su ir it)) = Ok z /\
      0 <= fst z /\ (z = (0, 0) \/ ps_tmin su <= snd z < ps_tmin su + ps_tlen su) /\
      (ir = 0%nat -> Rabs (ps_r su 0) < tiny -> z = feet ib 0%nat 0%nat).
Proof.
  intros Hl Hf Hr H0 HB Ho Hb Hb'.
  destruct (find_feet_ok ai su fuel Hl Hf Hr nb adv B H0 HB m order border border' dt feet0 Ho Hb Hb') as (feet & E & V).
  exists feet. split; auto. intros ib ir it H1 H2 H3 z. pose proof (V ib ir it H1 H2 H3) as Q. split; auto.
  destruct (foot_range ai su fuel Hl Hf Hr nb adv B HB m dt ib (ps_r su ir, ps_t su (own_angle su ir it)) H1) as (z' & E' & R1 & R2).
  { cbn [fst]; auto. }
  assert (z' = z) by (unfold z; congruence). subst z'. split; auto. split; auto.
  intros -> Hc. assert (Ht : (0 < ps_nt su)%nat) by lia. pose proof (V ib 0%nat 0%nat H1 H2 Ht) as Q'.
  unfold own_angle in Q, Q'. cbn [Nat.eqb] in Q, Q'. destruct (Rlt_dec _ _); [|lra]. unfold z. congruence.
Qed.

Section Charted.
Context {C : Type} (ai : interpolator2 C) {D : Type} (fi : interpolator2 D) (su : polar_setup) (fuel : nat).
Variables (dom lgc : R * R -> Prop).
Variable nb : nat.
Notation inside ib ir it := ((ib < nb)%nat /\ (ir < ps_nr su)%nat /\ (it < ps_nt su)%nat).
Lemma translation_all m sc feet0 f adv dt (A : nat -> R * R) (g : nat -> R * R -> R) :
  (10 <= fuel)%nat -> polar_chart su dom lgc ->
  (forall ir, (ir < ps_nr su)%nat -> 0 <= ps_r su ir) ->
  good_schedule nb (ps_nr su) (ps_nt su) sc ->
  (forall ib, (ib < nb)%nat -> velocity_is ai su (coefs_x ai su adv ib) (coefs_y ai su adv ib) (fun _ => A ib)) ->
  let x ir it := ps_to_pc su (ps_r su ir, ps_t su (own_angle su ir it)) in
  let moved ib ir it := ksub (x ir it) (kscal dt (A ib)) in
  (forall ib ir it, inside ib ir it ->
     f ib ir it = g ib (ps_to_pc su (ps_r su ir, ps_t su it)) /\ dom (moved ib ir it) /\
     exact2_at fi su (fun y => g ib (ps_to_pc su y)) (logical su (moved ib ir it))) ->
  exists h, advect_xy ai su fuel fi m sc nb feet0 f adv dt = Ok h /\
    forall ib ir it, inside ib ir it ->
      h ib ir it = if Rlt_dec (norm_inf_coord (ksub (moved ib ir it) (ps_to_pc su (0, 0)))) tiny
                   then g ib (ps_to_pc su (0, 0)) else g ib (moved ib ir it).
Proof.
  intros Hf Ch H0 HS HB x moved Hx.
  destruct (advect_translation ai fi su fuel (chart_len _ _ _ Ch) Hf (ch_radius _ _ _ Ch) H0 nb m sc feet0 f adv dt A g HS HB) as (h & E & V).
  - intros. apply Hx; auto.
  - intros. apply Hx; auto.
  - exists h. split; auto. intros ib ir it Hi. rewrite V by auto. fold (x ir it). fold (moved ib ir it).
    destruct (Rlt_dec _ _) as [Hn|Hn].
    + unfold logical. destruct (Rlt_dec _ _); [auto|contradiction].
    + rewrite (logical_apart _ _ _ Ch); auto; [apply Hx; auto|lra].
Qed.
Lemma zero_all m sc feet0 f adv B :
  (10 <= fuel)%nat -> polar_chart su dom lgc ->
  (forall ir, (ir < ps_nr su)%nat -> 0 <= ps_r su ir) ->
  good_schedule nb (ps_nr su) (ps_nt su) sc ->
  (forall ib, (ib < nb)%nat -> velocity_is ai su (coefs_x ai su adv ib) (coefs_y ai su adv ib) (B ib)) ->
  exists h, advect_xy ai su fuel fi m sc nb feet0 f adv 0 = Ok h /\
    forall ib ir it, inside ib ir it ->
      (ps_r su ir = 0 -> h ib ir it = interpolant2 fi su (f ib) (0, 0)) /\
      (lgc (ps_r su ir, ps_t su it) -> ps_tmin su <= ps_t su it < ps_tmin su + 2 * PI ->
       (ir = 0%nat -> tiny <= ps_r su 0) ->
       tiny <= norm_inf_coord (ksub (ps_to_pc su (ps_r su ir, ps_t su it)) (ps_to_pc su (0, 0))) ->
       interpolant2 fi su (f ib) (ps_r su ir, ps_t su it) = f ib ir it -> h ib ir it = f ib ir it).
Proof.
  intros Hf Ch H0 HS HB.
  destruct (advect_zero ai fi su fuel (chart_len _ _ _ Ch) Hf (ch_radius _ _ _ Ch) H0 nb m sc feet0 f adv B HS HB) as (h & E & V).
  exists h. split; auto. intros ib ir it Hi. rewrite V by auto. split.
  - intros ->. now rewrite (logical_centre _ _ _ Ch).
  - intros Hl Ht Hn Hd Hv.
    assert (Ea : own_angle su ir it = it).
    { unfold own_angle. destruct (Nat.eqb_spec ir 0); auto. destruct (Rlt_dec _ _) as [K|]; auto.
      pose proof (Hn e). pose proof tiny_pos. rewrite Rabs_pos_eq in K; lra. }
    rewrite Ea, (logical_self _ _ _ Ch); auto.
Qed.
End Charted.
