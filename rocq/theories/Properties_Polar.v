(** C58, C59: advection on a poloidal plane. *)
From Verif Require Import PolarSpec PolarProofs PolarMain PolarCharts PolarAdv RestrictProofs MappingProofs MappingCzarny MappingComb TimeProofs AdvProofs.
From Coq Require Import Lra Lia.
Open Scope R_scope.

(** ** C58: the foot finder *)
(** For every time stepper, field and schedule the operator terminates without failure.  The foot of a grid
    point depends only on that point (of the first angle on the ring of the O-point) and on the values of
    the field in its batch; its radius is non-negative, its angle in the angular domain (or it is the
    O-point (0, 0)); the feet of the ring of the O-point are one value. *)
Theorem C58_feet : forall {C} (ai : interpolator2 C) su fuel nb adv B m order border border' dt feet0,
  0 < ps_tlen su -> (10 <= fuel)%nat -> (forall p, 0 <= fst (ps_of_pc su p)) ->
  (forall ir, (ir < ps_nr su)%nat -> 0 <= ps_r su ir) ->
  (forall ib, (ib < nb)%nat -> velocity_is ai su (coefs_x ai su adv ib) (coefs_y ai su adv ib) (B ib)) ->
  all_triples nb (ps_nr su) (ps_nt su) order -> all_lines nb border -> all_lines nb border' ->
  exists feet, find_feet ai su fuel m order border border' adv dt feet0 = Ok feet /\
    forall ib ir it, (ib < nb)%nat -> (ir < ps_nr su)%nat -> (it < ps_nt su)%nat ->
      let z := feet ib ir it in
      foot_from ai su fuel m adv dt ib (ps_r su ir, ps_t su (own_angle su ir it)) = Ok z /\
      0 <= fst z /\ (z = (0, 0) \/ ps_tmin su <= snd z < ps_tmin su + ps_tlen su) /\
      (ir = 0%nat -> Rabs (ps_r su 0) < tiny -> z = feet ib 0%nat 0%nat).
Proof. exact @feet_all. Qed.
Print Assumptions C58_feet.

(** With an explicit method the foot is the image in logical coordinates of one textbook Runge-Kutta step
    of the characteristic equation x' = - B in the pseudo-physical plane.  (B takes the same value on the
    representatives of the starting point.) *)
Theorem C58_runge_kutta : forall {C} (ai : interpolator2 C) su fuel c1 c2 B m y dt,
  0 < ps_tlen su -> (10 <= fuel)%nat -> (forall p, 0 <= fst (ps_of_pc su p)) ->
  velocity_is ai su c1 c2 B -> explicit m -> 0 <= fst y -> B y = B (logical su (ps_to_pc su y)) ->
  stepper_res (foot_velocity ai su c1 c2) (foot_step su fuel) m y dt =
    Ok (logical su (of_crd (textbook m (backward su B) (to_crd (ps_to_pc su y)) dt))).
Proof. exact (fun C ai su fuel c1 c2 B m y dt Hl Hf Hr HB => runge_kutta ai su fuel Hl Hf Hr c1 c2 B HB m y dt). Qed.
Print Assumptions C58_runge_kutta.

(** Order of accuracy: the distance between the foot and the exact solution of the characteristic equation
    is O(dt^(p+1)), up to the 1e-15 within which feet are moved to the O-point. *)
Theorem C58_order : forall {C} (ai : interpolator2 C) su fuel dom lgc c1 c2 B m H y Y,
  (10 <= fuel)%nat -> polar_chart su dom lgc -> velocity_is ai su c1 c2 B ->
  explicit m -> 0 <= fst y -> B y = B (logical su (ps_to_pc su y)) -> 0 < H -> H <= 1 ->
  smooth_at 2 (backward su B) (to_crd (ps_to_pc su y)) ->
  solves_ode 2 (backward su B) (to_crd (ps_to_pc su y)) H Y ->
  exists K, 0 <= K /\ forall dt, Rabs dt <= H ->
    dom (of_crd (textbook m (backward su B) (to_crd (ps_to_pc su y)) dt)) ->
    exists z, stepper_res (foot_velocity ai su c1 c2) (foot_step su fuel) m y dt = Ok z /\
      vle 2 (fun i => to_crd (ps_to_pc su z) i - Y dt i) (K * Rabs dt ^ (order_of m + 1) + tiny).
Proof.
  exact (fun C ai su fuel dom lgc c1 c2 B m H y Y Hf Ch HB => foot_order ai su fuel Hf dom lgc Ch c1 c2 B HB m H y Y).
Qed.
Print Assumptions C58_order.

(** Crank-Nicolson: the result is the image of an iterate of the fixed-point iteration of the implicit
    trapezoidal rule, between the first and the max_counter-th; before the last one only after the
    convergence test. *)
Theorem C58_crank_nicolson : forall {C} (ai : interpolator2 C) su fuel c1 c2 B y dt mc eps,
  0 < ps_tlen su -> (10 <= fuel)%nat -> (forall p, 0 <= fst (ps_of_pc su p)) ->
  velocity_is ai su c1 c2 B -> 0 <= fst y -> B y = B (logical su (ps_to_pc su y)) ->
  let foot c := match c with O => y
                | S _ => logical su (of_crd (cn_iterate (backward su B) (to_crd (ps_to_pc su y)) dt c)) end in
  exists c, stepper_res (foot_velocity ai su c1 c2) (foot_step su fuel) (CrankNicolson mc eps) y dt = Ok (foot c) /\
    (1 <= Z.of_nat c <= Z.max 1 mc)%Z /\
    ((Z.of_nat c < mc)%Z -> quot_ge (norm_inf_coord (ksub (foot (c - 1)%nat) (foot c)))
                              (norm_inf_coord (foot (c - 1)%nat)) eps = false).
Proof.
  exact (fun C ai su fuel c1 c2 B y dt mc eps Hl Hf Hr HB => crank_nicolson_foot ai su fuel Hl Hf Hr c1 c2 B HB y dt mc eps).
Qed.
Print Assumptions C58_crank_nicolson.

(** The coordinate systems of the library are polar charts of the plane. *)
Theorem C58_charts :
  (forall su ox oy, ps_to_pc su = circ_to_pc ox oy -> ps_of_pc su = circ_of_pc ox oy -> ps_tlen su = 2 * PI ->
     polar_chart su (fun _ => True) (fun q => 0 < fst q)) /\
  (forall su c, ps_to_pc su = cz_to_pc c -> ps_of_pc su = cz_of_pc c -> ps_tlen su = 2 * PI ->
     0 < cz_eps c -> cz_eps c * cz_eps c < 4 -> 0 < cz_e c ->
     polar_chart su (fun p => -1 < cz_eps c * (fst p - cz_ox c) <= 1) (fun q => 0 < fst q /\ cz_admissible c (to_crd q))).
Proof. exact (conj circular_chart czarny_chart). Qed.
Print Assumptions C58_charts.

(** The velocity is total.  On the physical plane, and on the pseudo-Cartesian plane of the circular
    mapping, it is the interpolated field itself; on the pseudo-Cartesian plane of a Czarny mapping it is
    the vector whose image by the derivative of the map between the planes is the interpolated field (at
    the O-point too). *)
Theorem C58_velocity : forall {C} (ai : interpolator2 C) su c1 c2,
  let field y := (i2_eval ai c1 y, i2_eval ai c2 y) in
  (ps_same su = true -> velocity_is ai su c1 c2 field) /\
  (forall ox oy eps, ps_invJ su = pc_invJ eps o_point_circ (circular ox oy) -> tiny <= eps -> 0 <= ps_rmax su ->
     velocity_is ai su c1 c2 field) /\
  (forall c eps, ps_same su = false -> ps_invJ su = pc_invJ eps (o_point_cz c) (czarny c) ->
     0 < cz_eps c < 1 -> 0 < cz_e c -> tiny <= eps <= 1 -> 0 <= ps_rmax su <= 1 ->
     exists B, velocity_is ai su c1 c2 B /\
     forall y, let q := to_crd (Rmin (fst y) (ps_rmax su), snd y) in
       let map := comb_apply (czarny c) (cart_circ 0 0) in
       (eps <= fst y -> eps <= ps_rmax su ->
          exists J, partials 2 map (m_apply (circular 0 0) q) J /\
            same_coord 2 (mat_vec 2 J (to_crd (B y))) (to_crd (field y))) /\
       (fst y = 0 -> exists J, partials 2 map (MappingModel.c2 0 0) J /\
            same_coord 2 (mat_vec 2 J (to_crd (B y))) (to_crd (field y)))).
Proof.
  exact (fun C ai su c1 c2 => conj (velocity_same ai su c1 c2) (conj (velocity_circular ai su c1 c2) (velocity_czarny ai su c1 c2))).
Qed.
Print Assumptions C58_velocity.

(** ** C59: the advection *)
(** The new value at a point is the value at its foot of the interpolant of the old values of its batch;
    points outside the batched grid keep theirs. *)
Theorem C59_values : forall {C D} (ai : interpolator2 C) (fi : interpolator2 D) su fuel nb adv B m sc feet0 f dt,
  0 < ps_tlen su -> (10 <= fuel)%nat -> (forall p, 0 <= fst (ps_of_pc su p)) ->
  (forall ir, (ir < ps_nr su)%nat -> 0 <= ps_r su ir) ->
  (forall ib, (ib < nb)%nat -> velocity_is ai su (coefs_x ai su adv ib) (coefs_y ai su adv ib) (B ib)) ->
  good_schedule nb (ps_nr su) (ps_nt su) sc ->
  exists g feet, advect_xy ai su fuel fi m sc nb feet0 f adv dt = Ok g /\
    (forall ib ir it, (ib < nb)%nat -> (ir < ps_nr su)%nat -> (it < ps_nt su)%nat ->
      foot_from ai su fuel m adv dt ib (ps_r su ir, ps_t su (own_angle su ir it)) = Ok (feet ib ir it)) /\
    (forall ib ir it, g ib ir it = if ((ib <? nb) && (ir <? ps_nr su) && (it <? ps_nt su))%nat
                                   then interpolant2 fi su (f ib) (feet ib ir it) else f ib ir it).
Proof.
  exact (fun C D ai fi su fuel nb adv B m sc feet0 f dt Hl Hf Hr H0 HB => advect_ok ai su fuel Hl Hf Hr nb adv B H0 HB fi m sc feet0 f dt).
Qed.
Print Assumptions C59_values.

(** The result depends only on the values of the fields on the grid: not on the schedule, not on the
    contents of the allocations. *)
Theorem C59_deterministic : forall {C D} (ai : interpolator2 C) (fi : interpolator2 D) su fuel nb m sc sc' feet0 feet0' f f' adv adv' dt B,
  0 < ps_tlen su -> (10 <= fuel)%nat -> (forall p, 0 <= fst (ps_of_pc su p)) ->
  (forall ir, (ir < ps_nr su)%nat -> 0 <= ps_r su ir) ->
  good_schedule nb (ps_nr su) (ps_nt su) sc -> good_schedule nb (ps_nr su) (ps_nt su) sc' ->
  (forall ib, (ib < nb)%nat -> velocity_is ai su (coefs_x ai su adv ib) (coefs_y ai su adv ib) (B ib)) ->
  (forall ib ir it, (ib < nb)%nat /\ (ir < ps_nr su)%nat /\ (it < ps_nt su)%nat -> f ib ir it = f' ib ir it /\ adv ib ir it = adv' ib ir it) ->
  exists g g', advect_xy ai su fuel fi m sc nb feet0 f adv dt = Ok g /\
    advect_xy ai su fuel fi m sc' nb feet0' f' adv' dt = Ok g' /\
    (forall ib ir it, (ib < nb)%nat /\ (ir < ps_nr su)%nat /\ (it < ps_nt su)%nat -> g ib ir it = g' ib ir it).
Proof.
  exact (fun C D ai fi su fuel nb m sc sc' feet0 feet0' f f' adv adv' dt B Hl Hf Hr H0 =>
    advect_ext ai fi su fuel Hl Hf Hr H0 nb m sc sc' feet0 feet0' f f' adv adv' dt B).
Qed.
Print Assumptions C59_deterministic.

(** Translation: with a field that is constant in the plane, every method transports the function exactly
    by dt A (where the interpolation is exact for the function).  A foot within 1e-15 of the O-point is
    moved there. *)
Theorem C59_translation : forall {C D} (ai : interpolator2 C) (fi : interpolator2 D) su fuel dom lgc nb m sc feet0 f adv dt
    (A : nat -> R * R) (g : nat -> R * R -> R),
  (10 <= fuel)%nat -> polar_chart su dom lgc ->
  (forall ir, (ir < ps_nr su)%nat -> 0 <= ps_r su ir) ->
  good_schedule nb (ps_nr su) (ps_nt su) sc ->
  (forall ib, (ib < nb)%nat -> velocity_is ai su (coefs_x ai su adv ib) (coefs_y ai su adv ib) (fun _ => A ib)) ->
  let x ir it := ps_to_pc su (ps_r su ir, ps_t su (own_angle su ir it)) in
  let moved ib ir it := ksub (x ir it) (kscal dt (A ib)) in
  (forall ib ir it, (ib < nb)%nat /\ (ir < ps_nr su)%nat /\ (it < ps_nt su)%nat ->
     f ib ir it = g ib (ps_to_pc su (ps_r su ir, ps_t su it)) /\ dom (moved ib ir it) /\
     exact2_at fi su (fun y => g ib (ps_to_pc su y)) (logical su (moved ib ir it))) ->
  exists h, advect_xy ai su fuel fi m sc nb feet0 f adv dt = Ok h /\
    forall ib ir it, (ib < nb)%nat /\ (ir < ps_nr su)%nat /\ (it < ps_nt su)%nat ->
      h ib ir it = if Rlt_dec (norm_inf_coord (ksub (moved ib ir it) (ps_to_pc su (0, 0)))) tiny
                   then g ib (ps_to_pc su (0, 0)) else g ib (moved ib ir it).
Proof. exact (fun C D ai fi su fuel dom lgc nb => translation_all ai fi su fuel dom lgc nb). Qed.
Print Assumptions C59_translation.

(** A step of length zero leaves every value where the interpolation reproduces the nodal values
    (points further than 1e-15 from the O-point; the O-point takes the value of the interpolant there). *)
Theorem C59_zero_step : forall {C D} (ai : interpolator2 C) (fi : interpolator2 D) su fuel dom lgc nb m sc feet0 f adv B,
  (10 <= fuel)%nat -> polar_chart su dom lgc ->
  (forall ir, (ir < ps_nr su)%nat -> 0 <= ps_r su ir) ->
  good_schedule nb (ps_nr su) (ps_nt su) sc ->
  (forall ib, (ib < nb)%nat -> velocity_is ai su (coefs_x ai su adv ib) (coefs_y ai su adv ib) (B ib)) ->
  exists h, advect_xy ai su fuel fi m sc nb feet0 f adv 0 = Ok h /\
    forall ib ir it, (ib < nb)%nat /\ (ir < ps_nr su)%nat /\ (it < ps_nt su)%nat ->
      (ps_r su ir = 0 -> h ib ir it = interpolant2 fi su (f ib) (0, 0)) /\
      (lgc (ps_r su ir, ps_t su it) -> ps_tmin su <= ps_t su it < ps_tmin su + 2 * PI ->
       (ir = 0%nat -> tiny <= ps_r su 0) ->
       tiny <= norm_inf_coord (ksub (ps_to_pc su (ps_r su ir, ps_t su it)) (ps_to_pc su (0, 0))) ->
       interpolant2 fi su (f ib) (ps_r su ir, ps_t su it) = f ib ir it -> h ib ir it = f ib ir it).
Proof. exact (fun C D ai fi su fuel dom lgc nb => zero_all ai fi su fuel dom lgc nb). Qed.
Print Assumptions C59_zero_step.

(** The function stays single-valued at the O-point. *)
Theorem C59_one_centre_value : forall {C D} (ai : interpolator2 C) (fi : interpolator2 D) su fuel nb m sc feet0 f adv dt B,
  0 < ps_tlen su -> (10 <= fuel)%nat -> (forall p, 0 <= fst (ps_of_pc su p)) ->
  (forall ir, (ir < ps_nr su)%nat -> 0 <= ps_r su ir) ->
  good_schedule nb (ps_nr su) (ps_nt su) sc ->
  (forall ib, (ib < nb)%nat -> velocity_is ai su (coefs_x ai su adv ib) (coefs_y ai su adv ib) (B ib)) ->
  Rabs (ps_r su 0) < tiny ->
  exists h, advect_xy ai su fuel fi m sc nb feet0 f adv dt = Ok h /\
    forall ib it it', (ib < nb)%nat -> (0 < ps_nr su)%nat -> (it < ps_nt su)%nat -> (it' < ps_nt su)%nat ->
      h ib 0%nat it = h ib 0%nat it'.
Proof.
  exact (fun C D ai fi su fuel nb m sc feet0 f adv dt B Hl Hf Hr H0 => advect_centre ai fi su fuel Hl Hf Hr H0 nb m sc feet0 f adv dt B).
Qed.
Print Assumptions C59_one_centre_value.

(** Fields in curvilinear components: the result is the one of the Cartesian operator for the field J a,
    with the given vector at the O-point; the row of the O-point of [a] is never used; an assertion stops
    the operator when the first ring is not the O-point. *)
Theorem C59_curvilinear_with_centre : forall {C D} (ai : interpolator2 C) (fi : interpolator2 D) su fuel nb J m sc sc' feet0 feet0' xy0 f a centre dt B,
  0 < ps_tlen su -> (10 <= fuel)%nat -> (forall p, 0 <= fst (ps_of_pc su p)) ->
  (forall ir, (ir < ps_nr su)%nat -> 0 <= ps_r su ir) ->
  good_schedule nb (ps_nr su) (ps_nt su) sc -> good_schedule nb (ps_nr su) (ps_nt su) sc' ->
  let adv (ib ir it : nat) := if (ir =? 0)%nat then centre
                   else of_crd (mat_vec 2 (J (to_crd (ps_r su ir, ps_t su it))) (to_crd (a ib ir it))) in
  (forall ib, (ib < nb)%nat -> velocity_is ai su (coefs_x ai su adv ib) (coefs_y ai su adv ib) (B ib)) ->
  if Rlt_dec (ps_r su 0) (/ 10 ^ 13)
  then exists g g', advect_rtheta_centre ai su fuel fi J m sc nb feet0 xy0 f a centre dt = Ok g /\
         advect_xy ai su fuel fi m sc' nb feet0' f adv dt = Ok g' /\
         forall ib ir it, (ib < nb)%nat /\ (ir < ps_nr su)%nat /\ (it < ps_nt su)%nat -> g ib ir it = g' ib ir it
  else advect_rtheta_centre ai su fuel fi J m sc nb feet0 xy0 f a centre dt = AssertFail.
Proof.
  exact (fun C D ai fi su fuel nb J m sc sc' feet0 feet0' xy0 f a centre dt B Hl Hf Hr H0 =>
    rtheta_centre_ok ai fi su fuel Hl Hf Hr H0 nb J m sc sc' feet0 feet0' xy0 f a centre dt B).
Qed.
Print Assumptions C59_curvilinear_with_centre.

(** Without a given vector, the O-point takes the average of the Cartesian field on the first ring; without
    an O-point the field is J a everywhere and has to be given on the whole grid. *)
Theorem C59_curvilinear : forall {C D} (ai : interpolator2 C) (fi : interpolator2 D) su fuel nb J m sc sc' feet0 feet0' xy0 f a0 a dt B,
  0 < ps_tlen su -> (10 <= fuel)%nat -> (forall p, 0 <= fst (ps_of_pc su p)) ->
  (forall ir, (ir < ps_nr su)%nat -> 0 <= ps_r su ir) ->
  good_schedule nb (ps_nr su) (ps_nt su) sc -> good_schedule nb (ps_nr su) (ps_nt su) sc' ->
  let cartesian (ib ir it : nat) := of_crd (mat_vec 2 (J (to_crd (ps_r su ir, ps_t su it))) (to_crd (a ib ir it))) in
  let average ib := (/ INR (ps_nt su) * Rsum (ps_nt su) (fun it => fst (cartesian ib 1%nat it)),
                     / INR (ps_nt su) * Rsum (ps_nt su) (fun it => snd (cartesian ib 1%nat it))) in
  let adv := if Rlt_dec (ps_r su 0) (/ 10 ^ 13)
             then (fun ib ir it => if (ir =? 0)%nat then average ib else cartesian ib ir it) else cartesian in
  (forall ib, (ib < nb)%nat -> velocity_is ai su (coefs_x ai su adv ib) (coefs_y ai su adv ib) (B ib)) ->
  ((ps_r su 0 < / 10 ^ 13 /\ (a0 <= 1)%nat /\ (2 <= ps_nr su)%nat) \/ (/ 10 ^ 13 <= ps_r su 0 /\ a0 = 0%nat) ->
   exists g g', advect_rtheta ai su fuel fi J m sc nb feet0 xy0 f a0 a dt = Ok g /\
    advect_xy ai su fuel fi m sc' nb feet0' f adv dt = Ok g' /\
    forall ib ir it, (ib < nb)%nat /\ (ir < ps_nr su)%nat /\ (it < ps_nt su)%nat -> g ib ir it = g' ib ir it) /\
  (/ 10 ^ 13 <= ps_r su 0 -> a0 <> 0%nat -> advect_rtheta ai su fuel fi J m sc nb feet0 xy0 f a0 a dt = AssertFail).
Proof.
  exact (fun C D ai fi su fuel nb J m sc sc' feet0 feet0' xy0 f a0 a dt B Hl Hf Hr H0 S1 S2 =>
    fun HB =>
    conj (rtheta_ok ai fi su fuel Hl Hf Hr H0 nb J m sc sc' feet0 feet0' xy0 f a0 a dt B S1 S2 HB)
      (rtheta_assert ai fi su fuel nb J m sc feet0 xy0 f a0 a dt)).
Qed.
Print Assumptions C59_curvilinear.

(** ** A case: circular mapping, two by two points, an interpolation exact for affine functions of (x, y) *)
Definition ex_su : polar_setup :=
  {| ps_to_pc := circ_to_pc 0 0; ps_of_pc := circ_of_pc 0 0; ps_same := true; ps_invJ := fun _ => AssertFail;
     ps_rmax := 1; ps_tmin := 0; ps_tlen := 2 * PI; ps_nr := 2; ps_nt := 2;
     ps_r := INR; ps_t := fun it => INR it * (PI / 2) |}.
Definition ex_itp : interpolator2 (R * (R * R)) :=
  {| i2_build := fun l => (nth 0 (nth 0 l []) 0, (nth 0 (nth 1 l []) 0, nth 1 (nth 1 l []) 0));
     i2_eval := fun c y => fst c + fst y * ((fst (snd c) - fst c) * cos (snd y) + (snd (snd c) - fst c) * sin (snd y)) |}.
Definition ex_sc : schedule :=
  let all := [(0, 1, 1); (0, 0, 1); (0, 1, 0); (0, 0, 0)]%nat in
  {| sc_init := all; sc_feet := rev all; sc_unify := [0%nat]; sc_check := [0%nat] |}.
Lemma ex_good : good_schedule 1 (ps_nr ex_su) (ps_nt ex_su) ex_sc.
Proof.
  assert (L : all_lines 1 [0%nat]) by (intros i; cbn; split; lia).
  assert (A : all_triples 1 2 2 [(0, 1, 1); (0, 0, 1); (0, 1, 0); (0, 0, 0)]%nat).
  { intros ib ir it. cbn. split.
    - intros [H|[H|[H|[H|[]]]]]; injection H; lia.
    - intros (H1 & H2 & H3). destruct ib; [|lia]. destruct ir as [|[|]]; destruct it as [|[|]]; try lia; auto. }
  split; [exact A|]. split; [|split; exact L]. intros ib ir it. cbn [ex_sc sc_feet]. rewrite <- in_rev. apply A.
Qed.
Lemma ex_chart : polar_chart ex_su (fun _ => True) (fun q => 0 < fst q).
Proof. apply (circular_chart ex_su 0 0); reflexivity. Qed.
Lemma ex_radii : forall ir, (ir < ps_nr ex_su)%nat -> 0 <= ps_r ex_su ir.
Proof. intros ir _. cbn [ex_su ps_r]. apply pos_INR. Qed.
(** affine functions are exact everywhere *)
Lemma ex_affine a b c y : exact2_at ex_itp ex_su (fun y => a + b * fst (ps_to_pc ex_su y) + c * snd (ps_to_pc ex_su y)) y.
Proof.
  unfold exact2_at, interpolant2. destruct y as [r t]. cbn [ex_su ps_to_pc ps_nr ps_nt ps_r ps_t].
  cbn [ex_itp i2_eval i2_build grid2 seq map nth fst snd]. rewrite !circ_to_pc_eq. cbn [fst snd INR].
  rewrite !Rmult_0_l, !Rmult_1_l, !Rplus_0_r, cos_0, sin_0, cos_PI2, sin_PI2. ring.
Qed.
(** the field (1, 2) moves x + 3 y by (dt, 2 dt); the last point's foot is not on the grid *)
Example C59_translation_ex : forall m dt feet0,
  exists h, advect_xy ex_itp ex_su 10 ex_itp m ex_sc 1 feet0
      (fun _ ir it => 0 + 1 * fst (ps_to_pc ex_su (ps_r ex_su ir, ps_t ex_su it)) + 3 * snd (ps_to_pc ex_su (ps_r ex_su ir, ps_t ex_su it)))
      (fun _ _ _ => (1, 2)) dt = Ok h /\
    (tiny <= 1 - dt -> h 0%nat 1%nat 0%nat = (1 - dt) + 3 * (0 - dt * 2)).
Proof.
  intros m dt feet0.
  destruct (C59_translation ex_itp ex_itp ex_su 10 (fun _ => True) (fun q => 0 < fst q) 1 m ex_sc feet0
    (fun _ ir it => 0 + 1 * fst (ps_to_pc ex_su (ps_r ex_su ir, ps_t ex_su it)) + 3 * snd (ps_to_pc ex_su (ps_r ex_su ir, ps_t ex_su it)))
    (fun _ _ _ => (1, 2)) dt (fun _ => (1, 2)) (fun _ p => 0 + 1 * fst p + 3 * snd p)) as (h & E & V).
  - lia.
  - exact ex_chart.
  - exact ex_radii.
  - exact ex_good.
  - intros ib _ y _. unfold foot_velocity. cbn [ex_su ps_same]. f_equal.
    cbn. f_equal; ring.
  - intros ib ir it _. split; [reflexivity|]. split; [trivial|]. apply ex_affine.
  - exists h. split; auto. intros Hd. rewrite V by (cbn; lia). cbn [own_angle Nat.eqb].
    cbn [ex_su ps_to_pc ps_r ps_t]. rewrite !circ_to_pc_eq. cbn [INR]. rewrite !Rmult_0_l, !Rmult_1_l, cos_0, sin_0.
    destruct (Rlt_dec _ _) as [Hn|Hn].
    + exfalso. unfold norm_inf_coord, ksub, kscal in Hn. cbn [fst snd] in Hn.
      match type of Hn with Rmax (Rmax 0 (Rabs ?a)) ?b < _ =>
        pose proof (Rmax_l (Rmax 0 (Rabs a)) b); pose proof (Rmax_r 0 (Rabs a)); pose proof (Rle_abs a) end. lra.
    + unfold ksub, kscal. cbn [fst snd]. ring.
Qed.
Example C59_zero_ex : forall m feet0 v,
  let f (ib ir it : nat) := if (ir =? 0)%nat then 5 else v it in
  let adv (_ ir it : nat) := (INR ir, INR it) in
  exists h, advect_xy ex_itp ex_su 10 ex_itp m ex_sc 1 feet0 f adv 0 = Ok h /\ h 0%nat 1%nat 1%nat = v 1%nat /\ h 0%nat 0%nat 1%nat = 5.
Proof.
  intros m feet0 v f adv. pose proof PI_RGT_0.
  destruct (C59_zero_step ex_itp ex_itp ex_su 10 (fun _ => True) (fun q => 0 < fst q) 1 m ex_sc feet0 f adv
    (fun ib y => (i2_eval ex_itp (coefs_x ex_itp ex_su adv ib) y, i2_eval ex_itp (coefs_y ex_itp ex_su adv ib) y))) as (h & E & V).
  - lia.
  - exact ex_chart.
  - exact ex_radii.
  - exact ex_good.
  - intros ib _. apply velocity_same. reflexivity.
  - exists h. split; auto. split.
    + apply (V 0%nat 1%nat 1%nat); cbn [ex_su ps_nr ps_nt ps_r ps_t ps_tmin ps_to_pc fst snd INR]; [lia|lra|lra|lia| |].
      * rewrite !circ_to_pc_eq, !Rmult_1_l, cos_PI2, sin_PI2. unfold norm_inf_coord, ksub. cbn [fst snd].
        eapply Rle_trans; [|apply Rmax_r]. rewrite sin_0. replace (1 + 0 - (0 * 0 + 0)) with 1 by ring. rewrite Rabs_R1.
        apply tiny_lt. lra.
      * unfold interpolant2. cbn [ex_itp ex_su i2_eval i2_build grid2 seq map nth fst snd ps_nr ps_nt f Nat.eqb].
        rewrite !Rmult_1_l, cos_PI2, sin_PI2. ring.
    + destruct (V 0%nat 0%nat 1%nat) as [V0 _]; [cbn; lia|]. rewrite V0 by reflexivity.
      unfold interpolant2. cbn. ring.
Qed.

(** the field is a rotation: the feet of RK4 are at distance O(dt^5) of the point turned by the angle - dt *)
Definition ex_rot : (R * (R * R)) * (R * (R * R)) := ((0, (0, -1)), (0, (1, 0))).
Definition ex_B (y : R * R) : R * R := (- (fst y * sin (snd y)), fst y * cos (snd y)).
Lemma ex_rot_velocity : velocity_is ex_itp ex_su (fst ex_rot) (snd ex_rot) ex_B.
Proof. intros y _. unfold foot_velocity, ex_B. cbn [ex_su ps_same]. f_equal. cbn. f_equal; ring. Qed.
Lemma Rabs_mult_self x : Rabs x * Rabs x = x * x.
Proof. rewrite <- Rabs_mult. apply Rabs_pos_eq. nra. Qed.
Lemma ex_rot_far x : tiny <= Rabs (x 0%nat) \/ tiny <= Rabs (x 1%nat) ->
  backward ex_su ex_B x 0%nat = x 1%nat /\ backward ex_su ex_B x 1%nat = - x 0%nat.
Proof.
  intros H. assert (E : ps_to_pc ex_su (logical ex_su (of_crd x)) = of_crd x).
  { apply (logical_apart _ _ _ ex_chart); [trivial|]. cbn [ex_su ps_to_pc]. rewrite circ_to_pc_eq.
    unfold norm_inf_coord, ksub, of_crd. cbn [fst snd]. replace (x 0%nat - (0 * cos 0 + 0)) with (x 0%nat) by ring.
    replace (x 1%nat - (0 * sin 0 + 0)) with (x 1%nat) by ring.
    pose proof (Rmax_r (Rmax 0 (Rabs (x 0%nat))) (Rabs (x 1%nat))). pose proof (Rmax_l (Rmax 0 (Rabs (x 0%nat))) (Rabs (x 1%nat))).
    pose proof (Rmax_r 0 (Rabs (x 0%nat))). destruct H; lra. }
  unfold backward, ex_B. cbn [MappingModel.c2 fst snd]. destruct (logical ex_su (of_crd x)) as [r t].
  cbn [ex_su ps_to_pc] in E. rewrite circ_to_pc_eq in E. unfold of_crd in E. injection E as E0 E1. cbn [fst snd]. lra.
Qed.
Lemma ex_rot_near x : Rabs (x 0%nat) < tiny -> Rabs (x 1%nat) < tiny ->
  backward ex_su ex_B x 0%nat = 0 /\ backward ex_su ex_B x 1%nat = 0.
Proof.
  intros H0 H1. unfold backward, logical. destruct (Rlt_dec _ _) as [_|Hn].
  - cbn. rewrite !Rmult_0_l. lra.
  - exfalso. apply Hn. cbn [ex_su ps_to_pc]. rewrite circ_to_pc_eq.
    unfold norm_inf_coord, ksub, of_crd. cbn [fst snd]. replace (x 0%nat - (0 * cos 0 + 0)) with (x 0%nat) by ring.
    replace (x 1%nat - (0 * sin 0 + 0)) with (x 1%nat) by ring. pose proof tiny_pos. repeat apply Rmax_lub_lt; auto.
Qed.
Lemma ex_start : to_crd (ps_to_pc ex_su (1, 0)) 0%nat = 1 /\ to_crd (ps_to_pc ex_su (1, 0)) 1%nat = 0.
Proof. cbn [ex_su ps_to_pc]. rewrite circ_to_pc_eq, cos_0, sin_0. cbn. lra. Qed.
Lemma ex_smooth : smooth_at 2 (backward ex_su ex_B) (to_crd (ps_to_pc ex_su (1, 0))).
Proof.
  exists (fun u => MappingModel.c2 (u 1%nat) (- u 0%nat)), (fun _ _ _ => 0), (fun _ _ _ _ => 0).
  destruct ex_start as [X0 X1]. set (x := to_crd _) in *.
  split; [|split; [|split]].
  - split; [intros a b u v i Hi; destruct i as [|[|]]; try lia; cbn [MappingModel.c2]; unfold vadd, vscal; ring|].
    exists 1. split; [lra|]. intros u m Hu i Hi. rewrite Rmult_1_l.
    destruct i as [|[|]]; try lia; cbn [MappingModel.c2]; rewrite ?Rabs_Ropp; apply Hu; lia.
  - split; [intros; ring|]. split; [reflexivity|]. exists 0. split; [lra|]. intros. intros i Hi. rewrite Rabs_R0. lra.
  - split; [intros; ring|]. split; [split; reflexivity|]. exists 0. split; [lra|]. intros. intros i Hi. rewrite Rabs_R0. lra.
  - intros M. exists 16. split; [lra|]. intros u m Hu Hm.
    assert (T : tiny <= 1 / 2) by (apply tiny_lt; lra). pose proof tiny_pos as T0.
    destruct (ex_rot_far x) as [F0 F1]; [left; rewrite X0, Rabs_R1; lra|].
    assert (P4 : 0 <= m ^ 4) by (apply pow_le; lra).
    destruct (Rle_lt_dec tiny (Rabs (x 0%nat + u 0%nat))) as [H0|H0];
      [|destruct (Rle_lt_dec tiny (Rabs (x 1%nat + u 1%nat))) as [H1|H1]].
    1,2: destruct (ex_rot_far (vadd x u)) as [G0 G1]; [unfold vadd; auto|];
      intros i Hi; (replace (backward ex_su ex_B (vadd x u) i - _) with 0; [rewrite Rabs_R0; lra|]);
      destruct i as [|[|]]; try lia; cbn [MappingModel.c2]; rewrite ?G0, ?G1, ?F0, ?F1; unfold vadd; ring.
    destruct (ex_rot_near (vadd x u)) as [G0 G1]; [unfold vadd; auto..|].
    assert (m2 : 1 / 2 <= m).
    { pose proof (Hu 0%nat ltac:(lia)) as A. rewrite X0 in H0. pose proof (Rabs_triang (1 + u 0%nat) (- u 0%nat)) as Q.
      replace (1 + u 0%nat + - u 0%nat) with 1 in Q by ring. rewrite Rabs_R1, Rabs_Ropp in Q. lra. }
    assert (M4 : 1 / 16 <= m ^ 4).
    { replace (1 / 16) with ((1 / 2) ^ 4) by field. apply pow_incr. lra. }
    intros i Hi. destruct i as [|[|]]; try lia; cbn [MappingModel.c2].
    + rewrite G0, F0. replace (0 - (x 1%nat + u 1%nat + 0 + 0)) with (- (x 1%nat + u 1%nat)) by ring. rewrite Rabs_Ropp. lra.
    + rewrite G1, F1. replace (0 - (- x 0%nat + - u 0%nat + 0 + 0)) with (x 0%nat + u 0%nat) by ring. lra.
Qed.
Example C58_order_ex : forall m, explicit m ->
  exists K, 0 <= K /\ forall dt, Rabs dt <= 1 ->
    exists z, stepper_res (foot_velocity ex_itp ex_su (fst ex_rot) (snd ex_rot)) (foot_step ex_su 10) m (1, 0) dt = Ok z /\
      vle 2 (fun i => to_crd (ps_to_pc ex_su z) i - MappingModel.c2 (cos dt) (- sin dt) i) (K * Rabs dt ^ (order_of m + 1) + tiny).
Proof.
  intros m Hm. destruct ex_start as [X0 X1].
  destruct (C58_order ex_itp ex_su 10 (fun _ => True) (fun q => 0 < fst q) (fst ex_rot) (snd ex_rot) ex_B m 1 (1, 0)
    (fun t => MappingModel.c2 (cos t) (- sin t))) as (K & HK & HE); auto; try lra.
  - exact ex_chart.
  - exact ex_rot_velocity.
  - cbn [fst]. lra.
  - rewrite (logical_self _ _ _ ex_chart); [reflexivity|cbn [fst]; lra|cbn [ex_su ps_tmin snd]; pose proof PI_RGT_0; lra|].
    cbn [ex_su ps_to_pc]. rewrite !circ_to_pc_eq, cos_0, sin_0. unfold norm_inf_coord, ksub. cbn [fst snd].
    eapply Rle_trans; [|apply Rmax_l]. eapply Rle_trans; [|apply Rmax_r].
    replace (1 * 1 + 0 - (0 * 1 + 0)) with 1 by ring. rewrite Rabs_R1. apply tiny_lt. lra.
  - exact ex_smooth.
  - split.
    + intros i Hi. destruct i as [|[|]]; try lia; cbn [MappingModel.c2]; rewrite ?X0, ?X1, ?cos_0, ?sin_0; lra.
    + intros t i _ Hi. destruct (ex_rot_far (MappingModel.c2 (cos t) (- sin t))) as [F0 F1].
      { cbn [MappingModel.c2]. rewrite Rabs_Ropp. assert (T : tiny <= 1 / 2) by (apply tiny_lt; lra).
        destruct (Rle_lt_dec tiny (Rabs (cos t))); auto. right. pose proof (sin2_cos2 t) as Q. unfold Rsqr in Q.
        destruct (Rle_lt_dec tiny (Rabs (sin t))); auto. exfalso. pose proof tiny_pos.
        assert (sin t * sin t < 1 / 4) by (rewrite <- Rabs_mult_self; pose proof (Rabs_pos (sin t)); nra).
        assert (cos t * cos t < 1 / 4) by (rewrite <- Rabs_mult_self; pose proof (Rabs_pos (cos t)); nra). lra. }
      destruct i as [|[|]]; try lia; [rewrite F0|rewrite F1]; cbn [MappingModel.c2].
      * apply derivable_pt_lim_cos.
      * apply (derivable_pt_lim_opp sin). apply derivable_pt_lim_sin.
  - exists K. split; auto.
Qed.
