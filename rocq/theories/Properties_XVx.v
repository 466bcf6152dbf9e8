(** C29-C32, C50, C52: sources, sinks, inter-species collisions, moments and initial conditions of
    the (x, v) geometry. *)
From Verif Require Import XVxModel XVxSpec XVxProofs QuadSpec.
From Coq Require Import FunctionalExtensionality.
Open Scope R_scope.

(** C29: exact relaxation towards the target. *)
Theorem C29_convex : forall mask ftarget amplitude (f : nat -> nat -> nat -> R) dt isp ix iv,
  0 <= amplitude * mask ix * dt ->
  exists l, 0 < l <= 1 /\ krook_constant mask ftarget amplitude f dt isp ix iv =
                         (1 - l) * ftarget iv + l * f isp ix iv.
Proof. exact krook_convex. Qed.
Print Assumptions C29_convex.

Theorem C29_fixed : forall mask ftarget amplitude (f : nat -> nat -> nat -> R) dt isp ix iv,
  f isp ix iv = ftarget iv -> krook_constant mask ftarget amplitude f dt isp ix iv = ftarget iv.
Proof. exact krook_fixed. Qed.
Print Assumptions C29_fixed.

Theorem C29_compose : forall mask ftarget amplitude (f : nat -> nat -> nat -> R) s t isp ix iv,
  krook_constant mask ftarget amplitude (krook_constant mask ftarget amplitude f s) t isp ix iv =
  krook_constant mask ftarget amplitude f (s + t) isp ix iv.
Proof. exact krook_compose. Qed.
Print Assumptions C29_compose.

Theorem C29_untouched : forall mask ftarget amplitude (f : nat -> nat -> nat -> R) dt isp ix iv,
  mask ix = 0 -> krook_constant mask ftarget amplitude f dt isp ix iv = f isp ix iv.
Proof. exact krook_untouched. Qed.
Print Assumptions C29_untouched.

(** the step is the flow of df/dt = - amplitude mask (f - target) *)
Theorem C29_ode : forall mask ftarget amplitude (f : nat -> nat -> nat -> R) isp ix iv t,
  krook_constant mask ftarget amplitude f 0 isp ix iv = f isp ix iv /\
  derivable_pt_lim (fun t => krook_constant mask ftarget amplitude f t isp ix iv) t
    (- amplitude * mask ix * (krook_constant mask ftarget amplitude f t isp ix iv - ftarget iv)).
Proof.
  exact (fun mask ftarget amplitude f isp ix iv t =>
    conj (krook_start mask ftarget amplitude f isp ix iv) (krook_ode mask ftarget amplitude f isp ix iv t)).
Qed.
Print Assumptions C29_ode.

(** the density relaxes towards the density of the target in the same way *)
Theorem C29_density : forall mask ftarget amplitude nv q f dt isp ix,
  dens nv q (krook_constant mask ftarget amplitude f dt) isp ix =
  Rsum nv (fun iv => q iv * ftarget iv) +
  (dens nv q f isp ix - Rsum nv (fun iv => q iv * ftarget iv)) * exp (- amplitude * mask ix * dt).
Proof. exact krook_density. Qed.
Print Assumptions C29_density.

(** with the mask and the Maxwellian target the constructor builds, non negative distribution
    functions stay non negative *)
Theorem C29_positive : forall type per pts fr n extent stiffness mask density temperature amplitude v f dt,
  valid_mesh per pts fr n -> rhs_mask type per pts fr n extent stiffness = Ok mask ->
  0 <= amplitude -> 0 <= dt -> 0 <= density -> 0 < temperature ->
  (forall isp ix iv, 0 <= f isp ix iv) ->
  forall isp ix iv,
    0 <= krook_constant mask (fun iv => maxwellian density temperature 0 (v iv)) amplitude f dt isp ix iv.
Proof. exact krook_positive. Qed.
Print Assumptions C29_positive.

(** a source relaxes the central part of the domain, a sink its ends *)
Theorem C29_source_sink : forall per pts fr n extent stiffness ms mk,
  valid_mesh per pts fr n -> extent <> 0 ->
  rhs_mask Source per pts fr n extent stiffness = Ok ms -> rhs_mask Sink per pts fr n extent stiffness = Ok mk ->
  exists a b, let Lx := coordinate pts fr (if per then n else n - 1) - coordinate pts fr 0 in
    a = coordinate pts fr 0 + extent * Lx /\ b = coordinate pts fr 0 + (1 - extent) * Lx /\
    (forall i, a <= coordinate pts fr i <= b ->
       0.5 * tanh ((b - a) / stiffness) <= ms i /\ mk i <= 1 - 0.5 * tanh ((b - a) / stiffness)) /\
    (forall i, coordinate pts fr i <= a \/ b <= coordinate pts fr i -> ms i < 0.5 < mk i).
Proof. exact rhs_mask_shape. Qed.
Print Assumptions C29_source_sink.

Example C29_nonvacuous :
  krook_constant (fun _ => 1) (fun _ => 2) 3 (fun _ _ _ => 6) 5 0 0 0 = 2 + 4 * exp (- 15) /\
  exists mask, rhs_mask Sink false [0; 1; 2; 4] 0 4 (/ 4) 1 = Ok mask.
Proof.
  split; [unfold krook_constant; replace (- (3) * 1 * 5) with (- 15) by ring; ring|].
  apply (mask_errors false [0; 1; 2; 4] 0 4 (/ 4) 1 Inverted false).
  - split; [|split; [lia|simpl; lia]]. intros i j H. simpl in H.
    destruct i as [|[|[|[|i]]]]; destruct j as [|[|[|[|j]]]]; simpl; lra || lia.
  - split; lra.
Qed.

(** C30: the amplitudes are computed without error for any electron/ion pair ... *)
Theorem C30_amplitudes : forall s e qi nv q amplitude density f ix,
  two_species s e qi ->
  exists a, get_amplitudes s 2 nv q amplitude density f ix (repeat 0 2) = Ok a /\
    nth (1 - e) a 0 = amplitude /\
    nth e a 0 = amplitude * (dens nv q f (1 - e) ix - density) / (dens nv q f e ix - density).
Proof. exact amplitudes_ok. Qed.
Print Assumptions C30_amplitudes.

(** ... a locally neutral plasma (equal ion and electron densities) stays exactly neutral, whatever
    the target, the mask and dt (the two inequalities exclude a division by zero in the first and
    in the second stage) ... *)
Theorem C30_neutral_partial : forall s e qi nv q amplitude density mask ftarget amps,
  two_species s e qi ->
  (forall f ix, get_amplitudes s 2 nv q amplitude density f ix (repeat 0 2) = Ok (amps f ix)) ->
  forall f dt ix,
  dens nv q f (1 - e) ix = dens nv q f e ix ->
  dens nv q f e ix <> density ->
  dens nv q f e ix - dt / 2 * amplitude * mask ix * (dens nv q f e ix - Rsum nv (fun iv => q iv * ftarget iv))
     <> density ->
  dens nv q (krook_adaptive mask ftarget amps f dt) (1 - e) ix =
  dens nv q (krook_adaptive mask ftarget amps f dt) e ix.
Proof. exact adaptive_neutral. Qed.
Print Assumptions C30_neutral_partial.

(** ... the derivative evaluated at the beginning of the step conserves n_ion - n_electron ... *)
Theorem C30_first_order_partial : forall s e qi nv q amplitude density mask ftarget amps,
  two_species s e qi ->
  (forall f ix, get_amplitudes s 2 nv q amplitude density f ix (repeat 0 2) = Ok (amps f ix)) ->
  forall f ix,
  Rsum nv (fun iv => q iv * ftarget iv) = density -> dens nv q f e ix <> density ->
  dens nv q (adaptive_derivative mask ftarget (amps f) f) (1 - e) ix -
  dens nv q (adaptive_derivative mask ftarget (amps f) f) e ix = 0.
Proof. exact adaptive_first_order. Qed.
Print Assumptions C30_first_order_partial.

(** ... and the exact change of n_ion - n_electron by one step *)
Theorem C30_defect : forall s e qi nv q amplitude density mask ftarget amps,
  two_species s e qi ->
  (forall f ix, get_amplitudes s 2 nv q amplitude density f ix (repeat 0 2) = Ok (amps f ix)) ->
  forall f dt ix, Rsum nv (fun iv => q iv * ftarget iv) = density ->
  let I := dens nv q f (1 - e) ix - density in
  let E := dens nv q f e ix - density in
  let h := dt / 2 * amplitude * mask ix in
  E <> 0 -> E - h * I <> 0 ->
  (dens nv q (krook_adaptive mask ftarget amps f dt) (1 - e) ix -
   dens nv q (krook_adaptive mask ftarget amps f dt) e ix) -
  (dens nv q f (1 - e) ix - dens nv q f e ix) = 2 * h * h * I * (I - E) / (E - h * I).
Proof. exact adaptive_defect. Qed.
Print Assumptions C30_defect.

(** The full property fails: where the plasma is not already neutral the charge changes ... *)
Theorem C30_nonneutral_refuted :
  exists s nv q amplitude density mask ftarget amps f dt ix,
    two_species s 1 1 /\
    (forall f ix, get_amplitudes s 2 nv q amplitude density f ix (repeat 0 2) = Ok (amps f ix)) /\
    Rsum nv (fun iv => q iv * ftarget iv) = density /\ 0 < dt /\
    dens nv q (krook_adaptive mask ftarget amps f dt) 0 ix -
    dens nv q (krook_adaptive mask ftarget amps f dt) 1 ix = 1 + 1 / 2 /\
    dens nv q f 0 ix - dens nv q f 1 ix = 1.
Proof. exact adaptive_nonneutral. Qed.
Print Assumptions C30_nonneutral_refuted.

(** ... and for an ion of charge 2 even a neutral plasma (2 n_ion = n_electron) becomes charged. *)
Theorem C30_multicharge_refuted :
  exists s nv q amplitude density mask ftarget amps f dt ix,
    two_species s 1 2 /\
    (forall f ix, get_amplitudes s 2 nv q amplitude density f ix (repeat 0 2) = Ok (amps f ix)) /\
    Rsum nv (fun iv => q iv * ftarget iv) = density /\ 0 < dt /\
    2 * dens nv q f 0 ix - dens nv q f 1 ix = 0 /\
    2 * dens nv q (krook_adaptive mask ftarget amps f dt) 0 ix -
    dens nv q (krook_adaptive mask ftarget amps f dt) 1 ix <> 0.
Proof. exact adaptive_multicharge. Qed.
Print Assumptions C30_multicharge_refuted.

(** a neutral plasma of density 3 relaxing to 1 *)
Example C30_nonvacuous : exists s amps,
  two_species s 1 1 /\
  (forall f ix, get_amplitudes s 2 1 (fun _ => 1) 1 1 f ix (repeat 0 2) = Ok (amps f ix)) /\
  let r := krook_adaptive (fun _ => 1) (fun _ => 1) amps (flat 3 3) (1 / 2) in
  dens 1 (fun _ => 1) r 0 0 = 2 /\ dens 1 (fun _ => 1) r 1 0 = 2.
Proof.
  exists (mk_species [1; -1] [1; 1] 1). exists (amps_of (mk_species [1; -1] [1; 1] 1) 1 (fun _ => 1) 1 1).
  split; [apply two_example; lra|]. split; [apply (amps_of_ok _ 1 1), two_example; lra|].
  destruct (adaptive_example 1 3 3 (1 / 2)) as [A B]; [lra|lra|lra|].
  cbv zeta in A, B |- *. rewrite A in B |- *. lra.
Qed.

(** C31: which parameters are accepted *)
Theorem C31_errors : forall per pts fr n extent stiffness type normalised,
  valid_mesh per pts fr n ->
  (mask_tanh per pts fr n extent stiffness type normalised = Throw <-> ~ good_parameters extent stiffness) /\
  (good_parameters extent stiffness -> exists m, mask_tanh per pts fr n extent stiffness type normalised = Ok m).
Proof. exact mask_errors. Qed.
Print Assumptions C31_errors.

Theorem C31_range : forall per pts fr n extent stiffness type m,
  valid_mesh per pts fr n -> mask_tanh per pts fr n extent stiffness type false = Ok m ->
  forall i, 0 <= m i <= 1.
Proof. exact mask_is_mask. Qed.
Print Assumptions C31_range.

(** the two masks are complementary (extent = 0 excepted, see below) *)
Theorem C31_complementary_partial : forall per pts fr n extent stiffness mn mi,
  valid_mesh per pts fr n -> extent <> 0 ->
  mask_tanh per pts fr n extent stiffness Normal false = Ok mn ->
  mask_tanh per pts fr n extent stiffness Inverted false = Ok mi ->
  forall i, mn i + mi i = 1.
Proof. exact mask_sum. Qed.
Print Assumptions C31_complementary_partial.

(** the normalised mask has integral one for the trapezoid rule and is positive *)
Theorem C31_unit_integral_partial : forall per pts fr n extent stiffness type,
  valid_mesh per pts fr n -> 0 < stiffness -> 0 < extent ->
  (match type with Normal => extent < 1 / 2 | Inverted => extent <= 1 / 2 end) ->
  exists c m, trapezoid_coefficients per pts fr n (repeat 0 n) = Ok c /\
    mask_tanh per pts fr n extent stiffness type true = Ok m /\
    Rsum n (fun i => nth i c 0 * m i) = 1 /\ (forall i, (i < n)%nat -> 0 < m i).
Proof. exact mask_normalised. Qed.
Print Assumptions C31_unit_integral_partial.

(** the mask covers the central part of the domain, between extent and 1 - extent of its length *)
Theorem C31_shape : forall per pts fr n extent stiffness m,
  valid_mesh per pts fr n -> extent <> 0 -> mask_tanh per pts fr n extent stiffness Normal false = Ok m ->
  exists a b, let Lx := coordinate pts fr (if per then n else n - 1) - coordinate pts fr 0 in
    a = coordinate pts fr 0 + extent * Lx /\ b = coordinate pts fr 0 + (1 - extent) * Lx /\ a <= b /\
    (forall i, a <= coordinate pts fr i <= b -> 0.5 * tanh ((b - a) / stiffness) <= m i) /\
    (forall i, coordinate pts fr i <= a \/ b <= coordinate pts fr i -> m i < 0.5) /\
    (forall i j, coordinate pts fr i + coordinate pts fr j = a + b -> m i = m j).
Proof. exact mask_shape. Qed.
Print Assumptions C31_shape.

(** extent = 0 is accepted but both masks are then zero: they do not sum to one, and the normalised
    one has no unit integral *)
Theorem C31_extent_zero_refuted : forall per pts fr n stiffness type normalised, 0 < stiffness ->
  mask_tanh per pts fr n 0 stiffness type normalised = Ok (fun _ => 0).
Proof. exact mask_extent_zero. Qed.
Print Assumptions C31_extent_zero_refuted.

(** extent = 1/2 is accepted but the normal mask is then zero and cannot be normalised *)
Theorem C31_extent_half_refuted : forall per pts fr n stiffness, valid_mesh per pts fr n -> 0 < stiffness ->
  mask_tanh per pts fr n (1 / 2) stiffness Normal false = Ok (fun _ => 0) /\
  exists m, mask_tanh per pts fr n (1 / 2) stiffness Normal true = Ok m /\
    forall c, Rsum n (fun i => nth i c 0 * m i) <> 1.
Proof. exact mask_extent_half. Qed.
Print Assumptions C31_extent_half_refuted.

Example C31_nonvacuous :
  valid_mesh false [0; 1; 2; 4] 0 4 /\ valid_mesh true [0; 1; 2; 4] 0 3 /\ good_parameters (/ 4) 1 /\
  mask_tanh false [0; 1; 2; 4] 0 4 (/ 4) 0 Normal true = Throw.
Proof.
  assert (I : increasing [0; 1; 2; 4]).
  { intros i j H. simpl in H. destruct i as [|[|[|[|i]]]]; destruct j as [|[|[|[|j]]]]; simpl; lra || lia. }
  split; [split; [exact I|split; [lia|simpl; lia]]|]. split; [split; [exact I|split; [lia|simpl; lia]]|].
  split; [split; lra|]. unfold mask_tanh. destruct (Rle_dec 0 0); [reflexivity|lra].
Qed.

(** C32: momentum (sqrt(m) weighted, the normalisation of the code) and energy exchanges cancel *)
Theorem C32_exchange : forall me mi nu ne Ve Vi Te Ti, 0 < me -> 0 < mi ->
  let '(Re, Ri, Qe, Qi) := exchange me mi nu ne Ve Vi Te Ti in
  sqrt me * Re + sqrt mi * Ri = 0 /\ Qe + Ve * Re + (Qi + Vi * Ri) = 0.
Proof. exact exchange_conserves. Qed.
Print Assumptions C32_exchange.

(** they oppose the velocity difference and the temperature difference *)
Theorem C32_relaxation : forall me mi nu ne Ve Vi Te Ti, 0 < me -> 0 < mi -> 0 <= nu -> 0 <= ne ->
  let '(Re, Ri, Qe, Qi) := exchange me mi nu ne Ve Vi Te Ti in
  Re * (Ve - sqrt (me / mi) * Vi) <= 0 /\ (Qe + Ve * Re) * (Te - Ti) <= 0.
Proof. exact exchange_relaxes. Qed.
Print Assumptions C32_relaxation.

(** the electron-ion and ion-electron collision frequencies satisfy m_i n_i nu_ie = m_e n_e nu_ei *)
Theorem C32_frequencies : forall qe qi me mi Lx nustar0 ne ni Te Ti,
  qe <> 0 -> qi <> 0 -> 0 < me -> 0 < mi -> Lx <> 0 -> 0 < ne -> 0 < ni -> 0 < Te -> 0 < Ti ->
  let nus_e := sqrt (me / me) * qe ^ 4 / Lx * nustar0 in
  let nus_i := sqrt (me / mi) * qi ^ 4 / Lx * nustar0 in
  let '(ce, ci) := collfreq_ab qe qi me mi nus_e nus_i ne ni Te Ti in
  mi * ni * ci = me * ne * ce.
Proof. exact frequencies_reciprocal. Qed.
Print Assumptions C32_frequencies.

(** discrete moments of the collision term, for every velocity grid and quadrature *)
Theorem C32_moments : forall nv q v Rab Qab n V T k, T <> 0 -> n <> 0 ->
  Rsum nv (fun i => q i * ((v i - V) ^ k * inter_df Rab Qab n V T (v i))) =
  (Qab / T * maxwell_moment nv q v n V T (k + 2) - Qab * maxwell_moment nv q v n V T k
   + Rab * maxwell_moment nv q v n V T (k + 1)) / (n * T).
Proof. exact inter_df_moments. Qed.
Print Assumptions C32_moments.

(** so the collision term conserves the density of each species, the total momentum and the total
    energy when the grid integrates the two Maxwellians as the whole line does *)
Theorem C32_conservation : forall qe qi me mi nus_e nus_i nv q v fe fi,
  0 < me -> 0 < mi ->
  let '(ne, Ve, Te) := coll_moments nv q v fe in
  let '(ni, Vi, Ti) := coll_moments nv q v fi in
  ne <> 0 -> ni <> 0 -> Te <> 0 -> Ti <> 0 ->
  exact_moments nv q v ne Ve Te -> exact_moments nv q v ni Vi Ti ->
  let '(de, di) := inter_derivative qe qi me mi nus_e nus_i nv q v fe fi in
  Rsum nv (fun i => q i * de i) = 0 /\ Rsum nv (fun i => q i * di i) = 0 /\
  sqrt me * Rsum nv (fun i => q i * (v i * de i)) + sqrt mi * Rsum nv (fun i => q i * (v i * di i)) = 0 /\
  Rsum nv (fun i => q i * (v i * v i / 2 * de i)) + Rsum nv (fun i => q i * (v i * v i / 2 * di i)) = 0.
Proof. exact inter_conserves. Qed.
Print Assumptions C32_conservation.

(** no collision term at equilibrium, on any grid *)
Theorem C32_equilibrium : forall qe qi me mi nus_e nus_i nv q v fe fi,
  let '(ne, Ve, Te) := coll_moments nv q v fe in
  let '(ni, Vi, Ti) := coll_moments nv q v fi in
  Te = Ti -> Ve = sqrt (me / mi) * Vi ->
  let '(de, di) := inter_derivative qe qi me mi nus_e nus_i nv q v fe fi in
  forall iv, de iv = 0 /\ di iv = 0.
Proof. exact inter_equilibrium. Qed.
Print Assumptions C32_equilibrium.

(** the constructors refuse anything but two species and a zero collisionality *)
Theorem C32_constructor_checks : forall s nsp Lx nustar0,
  (nsp <> 2%nat \/ nustar0 = 0) -> collisions_new s nsp Lx nustar0 = Throw.
Proof. exact collisions_new_checks. Qed.
Print Assumptions C32_constructor_checks.

(** a grid of three velocities integrates a Maxwellian exactly, and the moments the code computes
    are those of the Maxwellian *)
Example C32_nonvacuous : forall n V T, 0 < n -> 0 < T ->
  let q := weight3 V T in let v := grid3 V T in
  exact_moments 3 q v n V T /\ coll_moments 3 q v (fun i => maxwellian n T V (v i)) = (n, V, T).
Proof.
  intros n V T Hn HT q v. split; [now apply grid3_exact|].
  apply exact_coll_moments; [lra|now apply grid3_exact].
Qed.

(** C50: the kinetic source adds a fixed profile: steps add up, every velocity moment grows by the
    moment of the shape, and the total over space by amplitude dt times the integral of the shape *)
Theorem C50_additive : forall ext shape amplitude f s t isp ix iv,
  kinetic_source ext shape amplitude (kinetic_source ext shape amplitude f s) t isp ix iv =
  kinetic_source ext shape amplitude f (s + t) isp ix iv.
Proof. exact kinetic_additive. Qed.
Print Assumptions C50_additive.

Theorem C50_moments : forall ext shape amplitude f dt nv q isp ix (w : nat -> R),
  Rsum nv (fun iv => q iv * (w iv * kinetic_source ext shape amplitude f dt isp ix iv)) =
  Rsum nv (fun iv => q iv * (w iv * f isp ix iv)) +
  amplitude * dt * ext ix * Rsum nv (fun iv => q iv * (w iv * shape iv)).
Proof. exact kinetic_moment. Qed.
Print Assumptions C50_moments.

Theorem C50_total : forall per pts fr nx extent stiffness amplitude shape f dt nv q isp c ext,
  valid_mesh per pts fr nx -> 0 < stiffness -> 0 < extent < 1 / 2 ->
  trapezoid_coefficients per pts fr nx (repeat 0 nx) = Ok c ->
  mask_tanh per pts fr nx extent stiffness Normal true = Ok ext ->
  Rsum nx (fun ix => nth ix c 0 * dens nv q (kinetic_source ext shape amplitude f dt) isp ix) =
  Rsum nx (fun ix => nth ix c 0 * dens nv q f isp ix) + amplitude * dt * Rsum nv (fun iv => q iv * shape iv).
Proof. exact kinetic_total. Qed.
Print Assumptions C50_total.

(** the velocity shape with density and energy one is the Maxwellian of the temperature, and the
    shape is linear in the two parameters *)
Theorem C50_shape : forall T v, 0 < T ->
  velocity_shape 1 1 T v = maxwellian 1 T 0 v /\
  forall n1 n2 e1 e2 a,
  velocity_shape (a * n1 + n2) (a * e1 + e2) T v = a * velocity_shape n1 e1 T v + velocity_shape n2 e2 T v.
Proof.
  exact (fun T v H => conj (shape_maxwellian T v H) (fun n1 n2 e1 e2 a => shape_linear n1 n2 e1 e2 a T v)).
Qed.
Print Assumptions C50_shape.

(** on a grid that integrates the Maxwellian exactly, the "density" part of the source brings
    density [density] and energy density*0 (its energy moment vanishes), the "energy" part brings
    no density and the energy [energy] T / 2 *)
Theorem C50_shape_moments : forall nv q v density energy T, 0 < T -> exact_moments nv q v 1 0 T ->
  Rsum nv (fun i => q i * velocity_shape density energy T (v i)) = density /\
  Rsum nv (fun i => q i * (v i * velocity_shape density energy T (v i))) = 0 /\
  Rsum nv (fun i => q i * (v i * v i / 2 * velocity_shape density energy T (v i))) = energy * (T / 2).
Proof. exact shape_moments. Qed.
Print Assumptions C50_shape_moments.

Example C50_nonvacuous : forall T, 0 < T -> exists q v,
  exact_moments 3 q v 1 0 T /\ kinetic_source (fun _ => 2) (fun _ => 3) 5 (fun _ _ _ => 1) 7 0 0 0 = 211.
Proof.
  intros T H. exists (weight3 0 T), (grid3 0 T). split; [now apply grid3_exact|unfold kinetic_source; ring].
Qed.

(** C52: the overloads of FluidMoments (single distribution and fields) and the moments computed by
    the collision operators are the same numbers *)
Theorem C52_moments_agree : forall nv q v f,
  (forall n, fm_velocity_field nv q v f n = fm_velocity nv q v f n) /\
  (forall n V, fm_temperature_field nv q v f n V = fm_temperature nv q v f n V) /\
  (fm_density nv q f <> 0 ->
   let n := fm_density nv q f in let V := fm_velocity nv q v f n in
   coll_moments nv q v f = (n, V, fm_temperature nv q v f n V)).
Proof.
  exact (fun nv q v f => conj (fm_velocity_agree nv q v f)
    (conj (fm_temperature_agree nv q v f) (coll_moments_agree nv q v f))).
Qed.
Print Assumptions C52_moments_agree.

(** non negative temperature, Galilean invariance, scaling *)
Theorem C52_temperature_nonneg : forall nv q v f V,
  (forall i, (i < nv)%nat -> 0 <= q i) -> (forall i, (i < nv)%nat -> 0 <= f i) ->
  0 < fm_density nv q f -> 0 <= fm_temperature nv q v f (fm_density nv q f) V.
Proof. exact temperature_nonneg. Qed.
Print Assumptions C52_temperature_nonneg.

Theorem C52_shift : forall nv q v f w, fm_density nv q f <> 0 ->
  let n := fm_density nv q f in
  fm_velocity nv q (fun i => v i + w) f n = fm_velocity nv q v f n + w /\
  fm_temperature nv q (fun i => v i + w) f n (fm_velocity nv q (fun i => v i + w) f n) =
  fm_temperature nv q v f n (fm_velocity nv q v f n).
Proof. exact moments_shift. Qed.
Print Assumptions C52_shift.

Theorem C52_scale : forall nv q v f a, a <> 0 -> fm_density nv q f <> 0 ->
  let n := fm_density nv q f in let g := fun i => a * f i in
  fm_density nv q g = a * n /\
  fm_velocity nv q v g (a * n) = fm_velocity nv q v f n /\
  forall V, fm_temperature nv q v g (a * n) V = fm_temperature nv q v f n V.
Proof. exact moments_scale. Qed.
Print Assumptions C52_scale.

(** the moments of a Maxwellian are its parameters on every grid that integrates it exactly *)
Theorem C52_maxwellian_moments : forall nv q v n V T, n <> 0 -> exact_moments nv q v n V T ->
  coll_moments nv q v (fun i => maxwellian n T V (v i)) = (n, V, T).
Proof. exact exact_coll_moments. Qed.
Print Assumptions C52_maxwellian_moments.

(** equilibria are positive, peaked at and symmetric about the mean velocity; the bump-on-tail one
    is the sum of two Maxwellians *)
Theorem C52_equilibrium : forall n T V v w, 0 < T -> 0 < n ->
  0 < maxwellian n T V v /\ maxwellian n T V v <= maxwellian n T V V /\
  maxwellian n T V (V + w) = maxwellian n T V (V - w) /\
  forall eps, two_maxwellian eps T V v = maxwellian (1 - eps) 1 0 v + maxwellian eps T V v.
Proof.
  exact (fun n T V v w HT Hn => conj (maxwellian_pos n T V v HT Hn)
    (conj (maxwellian_peak n T V v HT (Rlt_le _ _ Hn))
      (conj (maxwellian_even n T V w) (fun eps => two_maxwellian_sum eps T V v HT)))).
Qed.
Print Assumptions C52_equilibrium.

(** the perturbed initial condition never falls below the floor, and is the equilibrium times one
    plus the perturbation when that is above the floor; the perturbation is periodic with the
    length of the domain and bounded by its amplitude *)
Theorem C52_initial_condition : forall feq p mode amplitude Lx x (k : Z), Lx <> 0 ->
  (floor_value <= perturbed feq p /\
   (floor_value <= feq * (1 + p) -> perturbed feq p = feq * (1 + p))) /\
  perturbation mode amplitude Lx (x + IZR k * Lx) = perturbation mode amplitude Lx x /\
  - Rabs amplitude <= perturbation mode amplitude Lx x <= Rabs amplitude.
Proof.
  exact (fun feq p mode amplitude Lx x k H => conj (perturbed_floor feq p)
    (conj (perturbation_periodic mode amplitude Lx x k H) (perturbation_bound mode amplitude Lx x))).
Qed.
Print Assumptions C52_initial_condition.

Example C52_nonvacuous :
  fm_density 2 (fun _ => 1) (fun _ => 1) = 2 /\
  fm_velocity 2 (fun _ => 1) INR (fun _ => 1) 2 = 1 / 2 /\
  perturbation 1 3 2 2 = 3.
Proof.
  split; [unfold fm_density, integrate; simpl; ring|]. split; [unfold fm_velocity, integrate; simpl; lra|].
  unfold perturbation. replace (1 * 2 * PI / 2 * 2) with (0 + 2 * INR 1 * PI) by (simpl; field).
  rewrite cos_period, cos_0. ring.
Qed.
