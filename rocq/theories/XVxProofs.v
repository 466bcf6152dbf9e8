(** Proofs about masks, Krook sources, kinetic source, moments, inter-species collisions. *)
From Verif Require Import XVxModel XVxSpec QuadProofs.
From Coq Require Import ZifyBool FunctionalExtensionality.
Open Scope R_scope.

(** ** tanh *)
Lemma tanh_form x : tanh x = 1 - 2 / (exp x * exp x + 1).
Proof.
  unfold tanh, sinh, cosh. rewrite exp_Ropp. pose proof (exp_pos x) as P.
  set (e := exp x) in *. clearbody e. field. nra.
Qed.
Lemma tanh_bounds x : -1 < tanh x < 1.
Proof.
  rewrite tanh_form. pose proof (exp_pos x) as P. set (e := exp x) in *. clearbody e.
  assert (D : 0 < e * e + 1) by nra.
  assert (I : 0 < / (e * e + 1)) by now apply Rinv_0_lt_compat.
  split; [|unfold Rdiv; lra].
  assert (2 / (e * e + 1) < 2); [|lra].
  apply (Rmult_lt_reg_r (e * e + 1)); [assumption|]. unfold Rdiv. rewrite Rmult_assoc, Rinv_l by lra. nra.
Qed.
Lemma tanh_incr x y : x < y -> tanh x < tanh y.
Proof.
  intros H. rewrite !tanh_form. apply exp_increasing in H. pose proof (exp_pos x) as P.
  set (e := exp x) in *. set (g := exp y) in *. clearbody e g.
  assert (2 / (g * g + 1) < 2 / (e * e + 1)); [|lra].
  unfold Rdiv. apply Rmult_lt_compat_l; [lra|]. apply Rinv_lt_contravar; nra.
Qed.
Lemma tanh_incr_le x y : x <= y -> tanh x <= tanh y.
Proof. intros [H| ->]; [left; now apply tanh_incr|right; reflexivity]. Qed.
Lemma tanh_0' : tanh 0 = 0.
Proof. rewrite tanh_form, exp_0. lra. Qed.
Lemma tanh_odd x : tanh (- x) = - tanh x.
Proof.
  rewrite !tanh_form. rewrite exp_Ropp. pose proof (exp_pos x) as P. set (e := exp x) in *. clearbody e.
  field. nra.
Qed.
Lemma tanh_subadd a b : 0 <= a -> 0 <= b -> tanh (a + b) <= tanh a + tanh b.
Proof.
  intros Ha Hb. rewrite !tanh_form, exp_plus.
  assert (A : 1 <= exp a) by (rewrite <- exp_0; destruct Ha as [H| <-]; [left; now apply exp_increasing|right; reflexivity]).
  assert (B : 1 <= exp b) by (rewrite <- exp_0; destruct Hb as [H| <-]; [left; now apply exp_increasing|right; reflexivity]).
  set (e := exp a) in *. set (g := exp b) in *. clearbody e g.
  set (u := e * e). set (w := g * g).
  assert (U : 1 <= u) by (unfold u; nra). assert (W : 1 <= w) by (unfold w; nra).
  replace (e * g * (e * g)) with (u * w) by (unfold u, w; ring). fold u w. clearbody u w.
  assert (0 < u * w + 1) by nra.
  apply (Rplus_le_reg_r (2 / (u * w + 1) - 1)).
  replace (1 - 2 / (u * w + 1) + (2 / (u * w + 1) - 1)) with 0 by ring.
  replace (1 - 2 / (u + 1) + (1 - 2 / (w + 1)) + (2 / (u * w + 1) - 1))
    with ((u - 1) * (w - 1) * (u * w - 1) * / ((u + 1) * (w + 1) * (u * w + 1))) by (field; nra).
  assert (0 <= (u - 1) * (w - 1)) by nra. assert (0 <= u * w - 1) by nra.
  apply Rmult_le_pos; [nra|]. left. apply Rinv_0_lt_compat. apply Rmult_lt_0_compat; [nra|assumption].
Qed.

(** ** mask_tanh *)
Definition edges_ok (xl xr s : R) : Prop := xl <= xr /\ 0 < s.

Lemma div_le a b s : 0 < s -> a <= b -> a / s <= b / s.
Proof. intros. unfold Rdiv. apply Rmult_le_compat_r; [|assumption]. left. now apply Rinv_0_lt_compat. Qed.
Lemma div_lt a b s : 0 < s -> a < b -> a / s < b / s.
Proof. intros. unfold Rdiv. apply Rmult_lt_compat_r; [|assumption]. now apply Rinv_0_lt_compat. Qed.

Lemma half_eq : 0.5 = / 2.
Proof. lra. Qed.

Lemma mask_value_range type xl xr s x : edges_ok xl xr s -> 0 <= mask_value type xl xr s x <= 1.
Proof.
  intros [H S]. pose proof (tanh_bounds ((x - xl) / s)). pose proof (tanh_bounds ((x - xr) / s)).
  assert (tanh ((x - xr) / s) <= tanh ((x - xl) / s)) by (apply tanh_incr_le, div_le; lra).
  destruct type; simpl; lra.
Qed.
Lemma mask_value_pos type xl xr s x : 0 < s -> (type = Normal -> xl < xr) -> xl <= xr -> 0 < mask_value type xl xr s x.
Proof.
  intros S H H2. pose proof (tanh_bounds ((x - xl) / s)). pose proof (tanh_bounds ((x - xr) / s)).
  destruct type; simpl.
  - assert (tanh ((x - xr) / s) < tanh ((x - xl) / s)) by (apply tanh_incr, div_lt; [lra|]; specialize (H eq_refl); lra). lra.
  - lra.
Qed.
Lemma mask_value_sum xl xr s x : mask_value Normal xl xr s x + mask_value Inverted xl xr s x = 1.
Proof. simpl. ring. Qed.
Lemma mask_value_mirror type xl xr s x : 0 < s -> mask_value type xl xr s (xl + xr - x) = mask_value type xl xr s x.
Proof.
  intros S.
  assert (E1 : (xl + xr - x - xl) / s = - ((x - xr) / s)) by (field; lra).
  assert (E2 : (xl + xr - x - xr) / s = - ((x - xl) / s)) by (field; lra).
  unfold mask_value. rewrite E1, E2, !tanh_odd. destruct type; ring.
Qed.
Lemma mask_value_inside xl xr s x : edges_ok xl xr s -> xl <= x <= xr ->
  0.5 * tanh ((xr - xl) / s) <= mask_value Normal xl xr s x.
Proof.
  intros [H S] [Hl Hr]. simpl.
  assert (E : (xr - xl) / s = (x - xl) / s + (xr - x) / s) by (field; lra).
  assert (E2 : (x - xr) / s = - ((xr - x) / s)) by (field; lra).
  rewrite E2, tanh_odd, E.
  assert (0 <= (x - xl) / s) by (replace 0 with (0 / s) by (unfold Rdiv; ring); apply div_le; lra).
  assert (0 <= (xr - x) / s) by (replace 0 with (0 / s) by (unfold Rdiv; ring); apply div_le; lra).
  pose proof (tanh_subadd _ _ H0 H1). lra.
Qed.
Lemma mask_value_outside xl xr s x : edges_ok xl xr s -> x <= xl \/ xr <= x -> mask_value Normal xl xr s x < 0.5.
Proof.
  intros [H S] O. simpl.
  pose proof (tanh_bounds ((x - xl) / s)). pose proof (tanh_bounds ((x - xr) / s)).
  destruct O as [O|O].
  - assert (tanh ((x - xl) / s) <= 0); [|lra]. rewrite <- tanh_0'. apply tanh_incr_le.
    replace 0 with (0 / s) by (unfold Rdiv; ring). apply div_le; lra.
  - assert (0 <= tanh ((x - xr) / s)); [|lra]. rewrite <- tanh_0' at 1. apply tanh_incr_le.
    replace 0 with (0 / s) by (unfold Rdiv; ring). apply div_le; lra.
Qed.

Lemma extent_test extent : (if Rlt_dec extent 0 then true else if Rlt_dec 0.5 extent then true else false) = false
  <-> 0 <= extent <= 1 / 2.
Proof. destruct (Rlt_dec extent 0); [|destruct (Rlt_dec 0.5 extent)]; split; intros; try discriminate; try lra; reflexivity. Qed.

Lemma rd_coordinate pts fr i : (0 <= fr)%Z -> (Z.to_nat fr + i < length pts)%nat ->
  rd pts (fr + Z.of_nat i) = Ok (coordinate pts fr i).
Proof.
  intros H L. unfold rd, coordinate. replace (fr + Z.of_nat i <? 0)%Z with false by lia.
  replace (Z.to_nat (fr + Z.of_nat i)) with (Z.to_nat fr + i)%nat by lia.
  rewrite (nth_error_nth' pts 0) by lia. reflexivity.
Qed.

Lemma interval_length_ok per pts fr n : valid_mesh per pts fr n ->
  exists Lx, interval_length per pts fr n = Ok Lx /\ 0 < Lx /\
    Lx = coordinate pts fr (if per then n else n - 1) - coordinate pts fr 0.
Proof.
  intros [I [F H]]. unfold interval_length.
  set (m := if per then n else (n - 1)%nat).
  assert (Hm : (0 < m)%nat /\ (Z.to_nat fr + m < length pts)%nat) by (unfold m; destruct per; lia).
  replace (rd pts fr) with (rd pts (fr + Z.of_nat 0)) by (f_equal; lia).
  rewrite rd_coordinate by lia. cbn [bind].
  replace (fr + Z.of_nat n - (if per then 0 else 1))%Z with (fr + Z.of_nat m)%Z by (unfold m; destruct per; lia).
  rewrite rd_coordinate by lia. cbn [bind]. eexists; split; [reflexivity|].
  assert (coordinate pts fr 0 < coordinate pts fr m) by (apply I; lia).
  rewrite Rabs_right by lra. split; [lra|reflexivity].
Qed.

Lemma trapezoid_valid per pts fr n : valid_mesh per pts fr n ->
  exists c, trapezoid_coefficients per pts fr n (repeat 0 n) = Ok c /\ length c = n /\
    (forall i, (i < n)%nat -> 0 < nth i c 0).
Proof.
  intros [I [F H]]. destruct per.
  - destruct (trapezoid_per pts fr n (repeat 0 n)) as [c [E [L [P _]]]]; try tauto; [apply repeat_length|eauto].
  - destruct (trapezoid_np pts fr n (repeat 0 n)) as [c [E [L [P _]]]]; try tauto; [apply repeat_length|eauto].
Qed.

Lemma valid_size per pts fr n : valid_mesh per pts fr n -> (1 <= n)%nat.
Proof. intros [_ [_ H]]. destruct per; lia. Qed.

(** the mask, unfolded *)
Lemma mask_tanh_eq per pts fr n extent stiffness type normalised :
  valid_mesh per pts fr n -> good_parameters extent stiffness -> extent <> 0 ->
  exists Lx c, 0 < Lx /\ Lx = coordinate pts fr (if per then n else n - 1) - coordinate pts fr 0 /\
   trapezoid_coefficients per pts fr n (repeat 0 n) = Ok c /\ (forall i, (i < n)%nat -> 0 < nth i c 0) /\
   let xl := coordinate pts fr 0 + Lx * extent in
   let xr := coordinate pts fr 0 + Lx - Lx * extent in
   let m := fun i => mask_value type xl xr stiffness (coordinate pts fr i) in
   mask_tanh per pts fr n extent stiffness type normalised =
   Ok (if normalised then fun i => m i / Rsum n (fun k => nth k c 0 * m k) else m).
Proof.
  intros V [Hs He] H0. destruct (interval_length_ok _ _ _ _ V) as [Lx [EL [PL DL]]].
  destruct (trapezoid_valid _ _ _ _ V) as [c [Ec [_ Pc]]].
  exists Lx, c. split; [assumption|]. split; [assumption|]. split; [assumption|]. split; [assumption|].
  unfold mask_tanh. destruct (Rle_dec stiffness 0); [lra|].
  rewrite (proj2 (extent_test extent) He). destruct (Req_EM_T extent 0); [contradiction|].
  rewrite EL. cbn [bind]. destruct normalised; [|reflexivity]. rewrite Ec. reflexivity.
Qed.

Theorem mask_errors per pts fr n extent stiffness type normalised : valid_mesh per pts fr n ->
  (mask_tanh per pts fr n extent stiffness type normalised = Throw <-> ~ good_parameters extent stiffness) /\
  (good_parameters extent stiffness -> exists m, mask_tanh per pts fr n extent stiffness type normalised = Ok m).
Proof.
  intros V.
  assert (G : good_parameters extent stiffness -> exists m, mask_tanh per pts fr n extent stiffness type normalised = Ok m).
  { intros G. destruct (Req_EM_T extent 0) as [->|H].
    - exists (fun _ => 0). unfold mask_tanh. destruct G. destruct (Rle_dec stiffness 0); [lra|].
      rewrite (proj2 (extent_test 0) H0). destruct (Req_EM_T 0 0); [reflexivity|congruence].
    - destruct (mask_tanh_eq per pts fr n extent stiffness type normalised V G H) as [Lx [c [_ [_ [_ [_ E]]]]]]. eauto. }
  split; [|assumption]. split.
  - intros T B. destruct (G B) as [m E]. congruence.
  - intros B. unfold mask_tanh. destruct (Rle_dec stiffness 0); [reflexivity|].
    destruct (if Rlt_dec extent 0 then true else if Rlt_dec 0.5 extent then true else false) eqn:E; [reflexivity|].
    exfalso. apply B. apply extent_test in E. split; [lra|assumption].
Qed.

Lemma edges_from Lx x0 extent s : 0 < s -> 0 < Lx -> 0 <= extent <= 1 / 2 ->
  edges_ok (x0 + Lx * extent) (x0 + Lx - Lx * extent) s.
Proof. intros; split; [|assumption]. nra. Qed.

Theorem mask_is_mask per pts fr n extent stiffness type m :
  valid_mesh per pts fr n -> mask_tanh per pts fr n extent stiffness type false = Ok m ->
  forall i, 0 <= m i <= 1.
Proof.
  intros V H i.
  assert (G : good_parameters extent stiffness).
  { destruct (mask_errors per pts fr n extent stiffness type false V) as [[_ N] _].
    assert (D : ~ ~ good_parameters extent stiffness) by (intros B; rewrite (N B) in H; discriminate).
    unfold good_parameters in *. destruct (Rlt_dec 0 stiffness); [|tauto]. split; [assumption|].
    destruct (Rle_dec 0 extent); [|tauto]. destruct (Rle_dec extent (1 / 2)); tauto. }
  destruct (Req_EM_T extent 0) as [->|H0].
  - unfold mask_tanh in H. destruct G as [Hs He]. destruct (Rle_dec stiffness 0); [lra|].
    rewrite (proj2 (extent_test 0) He) in H. destruct (Req_EM_T 0 0); [|congruence]. injection H as <-. lra.
  - destruct (mask_tanh_eq per pts fr n extent stiffness type false V G H0) as [Lx [c [PL [_ [_ [_ E]]]]]].
    cbv zeta in E. rewrite E in H. injection H as <-. apply mask_value_range. destruct G. now apply edges_from.
Qed.

Theorem mask_sum per pts fr n extent stiffness mn mi :
  valid_mesh per pts fr n -> extent <> 0 ->
  mask_tanh per pts fr n extent stiffness Normal false = Ok mn ->
  mask_tanh per pts fr n extent stiffness Inverted false = Ok mi ->
  forall i, mn i + mi i = 1.
Proof.
  intros V H0 H1 H2 i. unfold mask_tanh in *. destruct (Rle_dec stiffness 0); [discriminate|].
  destruct (if Rlt_dec extent 0 then true else if Rlt_dec 0.5 extent then true else false); [discriminate|].
  destruct (Req_EM_T extent 0); [contradiction|].
  destruct (interval_length per pts fr n); try discriminate. cbn [bind] in *.
  injection H1 as <-. injection H2 as <-. apply mask_value_sum.
Qed.

Lemma Rsum_pos n f : (1 <= n)%nat -> (forall i, (i < n)%nat -> 0 < f i) -> 0 < Rsum n f.
Proof.
  intros Hn H. destruct n as [|n]; [lia|]. simpl.
  assert (0 <= Rsum n f) by (apply Rsum_nonneg; intros; left; apply H; lia).
  assert (0 < f n) by (apply H; lia). lra.
Qed.

Theorem mask_normalised per pts fr n extent stiffness type :
  valid_mesh per pts fr n -> 0 < stiffness -> 0 < extent ->
  (match type with Normal => extent < 1 / 2 | Inverted => extent <= 1 / 2 end) ->
  exists c m, trapezoid_coefficients per pts fr n (repeat 0 n) = Ok c /\
    mask_tanh per pts fr n extent stiffness type true = Ok m /\
    Rsum n (fun i => nth i c 0 * m i) = 1 /\ (forall i, (i < n)%nat -> 0 < m i).
Proof.
  intros V Hs He Ht.
  assert (G : good_parameters extent stiffness) by (destruct type; split; lra).
  destruct (mask_tanh_eq per pts fr n extent stiffness type true V G) as [Lx [c [PL [_ [Ec [Pc E]]]]]]; [lra|].
  cbv zeta in E. set (mv := fun i => mask_value _ _ _ _ (coordinate pts fr i)) in *.
  exists c. eexists. split; [assumption|]. split; [exact E|].
  assert (Pm : forall i, 0 < mv i).
  { intros i. unfold mv. apply mask_value_pos; [assumption| |].
    - intros ->. nra.
    - assert (extent <= 1 / 2) by (destruct type; lra). nra. }
  assert (PS : 0 < Rsum n (fun k => nth k c 0 * mv k)).
  { apply Rsum_pos; [now apply (valid_size per pts fr)|]. intros i Hi. apply Rmult_lt_0_compat; auto. }
  split.
  - rewrite (Rsum_ext n _ (fun i => / Rsum n (fun k => nth k c 0 * mv k) * (nth i c 0 * mv i))).
    + rewrite Rsum_scal. apply Rinv_l. lra.
    + intros i _. fold (mv i). unfold Rdiv. ring.
  - intros i _. fold (mv i). unfold Rdiv. apply Rmult_lt_0_compat; [apply Pm|now apply Rinv_0_lt_compat].
Qed.

(** extent = 0: both masks vanish, even normalised *)
Theorem mask_extent_zero per pts fr n stiffness type normalised : 0 < stiffness ->
  mask_tanh per pts fr n 0 stiffness type normalised = Ok (fun _ => 0).
Proof.
  intros H. unfold mask_tanh. destruct (Rle_dec stiffness 0); [lra|].
  rewrite (proj2 (extent_test 0)) by lra. destruct (Req_EM_T 0 0); [reflexivity|congruence].
Qed.

(** extent = 1/2: the normal mask vanishes identically, its norm is 0 *)
Theorem mask_extent_half per pts fr n stiffness : valid_mesh per pts fr n -> 0 < stiffness ->
  mask_tanh per pts fr n (1 / 2) stiffness Normal false = Ok (fun _ => 0) /\
  exists m, mask_tanh per pts fr n (1 / 2) stiffness Normal true = Ok m /\
    forall c, Rsum n (fun i => nth i c 0 * m i) <> 1.
Proof.
  intros V Hs. assert (G : good_parameters (1 / 2) stiffness) by (split; lra).
  assert (Z0 : forall x0 Lx x, mask_value Normal (x0 + Lx * (1 / 2)) (x0 + Lx - Lx * (1 / 2)) stiffness x = 0).
  { intros. simpl. replace (x0 + Lx - Lx * (1 / 2)) with (x0 + Lx * (1 / 2)) by lra. ring. }
  split.
  - destruct (mask_tanh_eq per pts fr n (1 / 2) stiffness Normal false V G) as [Lx [c [_ [_ [_ [_ E]]]]]]; [lra|].
    cbv zeta in E. rewrite E. f_equal. apply functional_extensionality. intros i. apply Z0.
  - destruct (mask_tanh_eq per pts fr n (1 / 2) stiffness Normal true V G) as [Lx [c [_ [_ [_ [_ E]]]]]]; [lra|].
    eexists. split; [exact E|]. intros c'. rewrite Rsum_zero; [lra|].
    intros i _. rewrite Z0. unfold Rdiv. ring.
Qed.

(** shape of the mask *)
Theorem mask_shape per pts fr n extent stiffness m :
  valid_mesh per pts fr n -> extent <> 0 -> mask_tanh per pts fr n extent stiffness Normal false = Ok m ->
  exists a b, let Lx := coordinate pts fr (if per then n else n - 1) - coordinate pts fr 0 in
    a = coordinate pts fr 0 + extent * Lx /\ b = coordinate pts fr 0 + (1 - extent) * Lx /\ a <= b /\
    (forall i, a <= coordinate pts fr i <= b -> 0.5 * tanh ((b - a) / stiffness) <= m i) /\
    (forall i, coordinate pts fr i <= a \/ b <= coordinate pts fr i -> m i < 0.5) /\
    (forall i j, coordinate pts fr i + coordinate pts fr j = a + b -> m i = m j).
Proof.
  intros V H0 H.
  assert (G : good_parameters extent stiffness).
  { destruct (mask_errors per pts fr n extent stiffness Normal false V) as [[_ N] _].
    assert (D : ~ ~ good_parameters extent stiffness) by (intros B; rewrite (N B) in H; discriminate).
    unfold good_parameters in *. destruct (Rlt_dec 0 stiffness); [|tauto]. split; [assumption|].
    destruct (Rle_dec 0 extent); [|tauto]. destruct (Rle_dec extent (1 / 2)); tauto. }
  destruct (mask_tanh_eq per pts fr n extent stiffness Normal false V G H0) as [Lx [c [PL [DL [_ [_ E]]]]]].
  cbv zeta in E. rewrite E in H. injection H as <-.
  destruct G as [Hs He]. pose proof (edges_from Lx (coordinate pts fr 0) extent stiffness Hs PL He) as EO.
  exists (coordinate pts fr 0 + Lx * extent), (coordinate pts fr 0 + Lx - Lx * extent).
  cbv zeta. rewrite <- DL. split; [ring|]. split; [ring|]. split; [apply EO|]. split; [|split].
  - intros i Hi. now apply mask_value_inside.
  - intros i Hi. now apply mask_value_outside.
  - intros i j Hij. set (a := coordinate pts fr 0 + Lx * extent) in *. set (b := coordinate pts fr 0 + Lx - Lx * extent) in *.
    change (mask_value Normal a b stiffness (coordinate pts fr i) = mask_value Normal a b stiffness (coordinate pts fr j)).
    rewrite <- (mask_value_mirror Normal a b stiffness (coordinate pts fr i)) by assumption.
    f_equal. lra.
Qed.

(** ** Maxwellians *)
Lemma sqrt_2piT_pos T : 0 < T -> 0 < sqrt (2 * PI * T).
Proof. intros. apply sqrt_lt_R0. pose proof PI_RGT_0. nra. Qed.

Theorem maxwellian_pos n T V v : 0 < T -> 0 < n -> 0 < maxwellian n T V v.
Proof.
  intros HT Hn. unfold maxwellian. pose proof (sqrt_2piT_pos T HT).
  apply Rmult_lt_0_compat; [|apply exp_pos]. apply Rmult_lt_0_compat; [assumption|].
  unfold Rdiv. rewrite Rmult_1_l. now apply Rinv_0_lt_compat.
Qed.
Theorem maxwellian_peak n T V v : 0 < T -> 0 <= n -> maxwellian n T V v <= maxwellian n T V V.
Proof.
  intros HT Hn. unfold maxwellian. pose proof (sqrt_2piT_pos T HT) as S.
  apply Rmult_le_compat_l.
  - apply Rmult_le_pos; [assumption|]. unfold Rdiv. rewrite Rmult_1_l. left. now apply Rinv_0_lt_compat.
  - replace (- (V - V) * (V - V) / (2 * T)) with 0 by (unfold Rdiv; ring).
    assert (A : - (v - V) * (v - V) / (2 * T) <= 0).
    { unfold Rdiv. assert (0 < / (2 * T)) by (apply Rinv_0_lt_compat; lra).
      pose proof (Rle_0_sqr (v - V)) as Q. unfold Rsqr in Q. nra. }
    destruct A as [A|A]; [left; now apply exp_increasing|right; now rewrite A].
Qed.
Theorem maxwellian_even n T V w : maxwellian n T V (V + w) = maxwellian n T V (V - w).
Proof. unfold maxwellian. do 2 f_equal. unfold Rdiv. ring. Qed.

(** C29 *)
Section Krook.
Variables (mask ftarget : nat -> R) (amplitude : R).

Theorem krook_convex f dt isp ix iv : 0 <= amplitude * mask ix * dt ->
  exists l, 0 < l <= 1 /\ krook_constant mask ftarget amplitude f dt isp ix iv =
                         (1 - l) * ftarget iv + l * f isp ix iv.
Proof.
  intros H. exists (exp (- amplitude * mask ix * dt)). split.
  - split; [apply exp_pos|]. rewrite <- exp_0. destruct H as [H|H].
    + left. apply exp_increasing. lra.
    + right. f_equal. lra.
  - unfold krook_constant. ring.
Qed.
Theorem krook_fixed f dt isp ix iv : f isp ix iv = ftarget iv ->
  krook_constant mask ftarget amplitude f dt isp ix iv = ftarget iv.
Proof. intros H. unfold krook_constant. rewrite H. ring. Qed.
Theorem krook_compose f s t isp ix iv :
  krook_constant mask ftarget amplitude (krook_constant mask ftarget amplitude f s) t isp ix iv =
  krook_constant mask ftarget amplitude f (s + t) isp ix iv.
Proof.
  unfold krook_constant.
  replace (- amplitude * mask ix * (s + t)) with (- amplitude * mask ix * s + - amplitude * mask ix * t) by ring.
  rewrite exp_plus. ring.
Qed.
Theorem krook_untouched f dt isp ix iv : mask ix = 0 ->
  krook_constant mask ftarget amplitude f dt isp ix iv = f isp ix iv.
Proof. intros H. unfold krook_constant. rewrite H, Rmult_0_r, Rmult_0_l, exp_0. ring. Qed.
Theorem krook_ode f isp ix iv t :
  derivable_pt_lim (fun t => krook_constant mask ftarget amplitude f t isp ix iv) t
    (- amplitude * mask ix * (krook_constant mask ftarget amplitude f t isp ix iv - ftarget iv)).
Proof.
  unfold krook_constant.
  set (a := - amplitude * mask ix). set (F := ftarget iv). set (d := f isp ix iv - F).
  eapply dpl_eq.
  - apply (derivable_pt_lim_plus (fun _ => F) (fun t => d * exp (a * t)) t 0).
    + apply derivable_pt_lim_const.
    + apply (derivable_pt_lim_scal (fun t => exp (a * t)) d t).
      apply (derivable_pt_lim_comp (fun t => a * t) exp t a (exp (a * t))).
      * eapply dpl_eq; [apply (derivable_pt_lim_scal id a t 1); apply derivable_pt_lim_id|]. ring.
      * apply derivable_pt_lim_exp.
  - ring.
Qed.
Theorem krook_density nv q f dt isp ix :
  dens nv q (krook_constant mask ftarget amplitude f dt) isp ix =
  Rsum nv (fun iv => q iv * ftarget iv) +
  (dens nv q f isp ix - Rsum nv (fun iv => q iv * ftarget iv)) * exp (- amplitude * mask ix * dt).
Proof.
  unfold dens, krook_constant. rewrite <- Rsum_minus, <- Rsum_scal_r, <- Rsum_plus.
  apply Rsum_ext; intros; ring.
Qed.
End Krook.

(** with its own mask and target the operator keeps distribution functions non negative *)
Theorem krook_positive type per pts fr n extent stiffness mask density temperature amplitude v f dt :
  valid_mesh per pts fr n -> rhs_mask type per pts fr n extent stiffness = Ok mask ->
  0 <= amplitude -> 0 <= dt -> 0 <= density -> 0 < temperature ->
  (forall isp ix iv, 0 <= f isp ix iv) ->
  forall isp ix iv, 0 <= krook_constant mask (fun iv => maxwellian density temperature 0 (v iv)) amplitude f dt isp ix iv.
Proof.
  intros V M A D Hn HT F isp ix iv.
  pose proof (mask_is_mask _ _ _ _ _ _ _ _ V M ix) as [M0 _].
  destruct (krook_convex mask (fun iv => maxwellian density temperature 0 (v iv)) amplitude f dt isp ix iv) as [l [Hl E]].
  - apply Rmult_le_pos; [|assumption]. now apply Rmult_le_pos.
  - rewrite E. specialize (F isp ix iv).
    assert (0 <= maxwellian density temperature 0 (v iv)).
    { destruct Hn as [Hn| <-]; [left; now apply maxwellian_pos|]. right. unfold maxwellian. ring. }
    cbv beta. nra.
Qed.

(** a source acts in the central part of the domain, a sink near its ends *)
Theorem rhs_mask_shape per pts fr n extent stiffness ms mk :
  valid_mesh per pts fr n -> extent <> 0 ->
  rhs_mask Source per pts fr n extent stiffness = Ok ms -> rhs_mask Sink per pts fr n extent stiffness = Ok mk ->
  exists a b, let Lx := coordinate pts fr (if per then n else n - 1) - coordinate pts fr 0 in
    a = coordinate pts fr 0 + extent * Lx /\ b = coordinate pts fr 0 + (1 - extent) * Lx /\
    (forall i, a <= coordinate pts fr i <= b ->
       0.5 * tanh ((b - a) / stiffness) <= ms i /\ mk i <= 1 - 0.5 * tanh ((b - a) / stiffness)) /\
    (forall i, coordinate pts fr i <= a \/ b <= coordinate pts fr i -> ms i < 0.5 < mk i).
Proof.
  unfold rhs_mask. intros V E HS HK.
  pose proof (mask_sum per pts fr n extent stiffness ms mk V E HS HK) as S.
  destruct (mask_shape per pts fr n extent stiffness ms V E HS) as [a [b [A [B [_ [C [D _]]]]]]].
  exists a, b. cbv zeta in *. split; [exact A|]. split; [exact B|]. split; intros i H; specialize (S i).
  - specialize (C i H). lra.
  - specialize (D i H). lra.
Qed.

(** ** C30 *)

Lemma two_species_last s e qi : two_species s e qi -> last_positive s 2 = Ok (Some (Z.of_nat (1 - e))).
Proof.
  intros [He [_ [C1 [C2 P]]]]. unfold last_positive. cbn [for_res bind].
  destruct e as [|[|e]]; [| |lia].
  - change (Z.of_nat (1 - 0)) with 1%Z in *. change (Z.of_nat 0) with 0%Z in *. change (Z.of_nat 1) with 1%Z.
    rewrite C1. cbn [bind]. rewrite C2. cbn [bind]. destruct (Rlt_dec 0 qi); [reflexivity|contradiction].
  - change (Z.of_nat (1 - 1)) with 0%Z in *. change (Z.of_nat 1) with 1%Z in *. change (Z.of_nat 0) with 0%Z.
    rewrite C2. cbn [bind]. rewrite C1. cbn [bind]. destruct (Rlt_dec 0 (-1)); [lra|].
    destruct (Rlt_dec 0 qi); [reflexivity|contradiction].
Qed.

Lemma density_loop nv q f ix a b : (a < 2)%nat -> (b < 2)%nat ->
  for_res nv (fun iv acc =>
          let* fi := read_f 2 f (Z.of_nat a) ix iv in
          let* fe := read_f 2 f (Z.of_nat b) ix iv in
          Ok (fst acc + q iv * fi, snd acc + q iv * fe)) (0, 0) =
  Ok (dens nv q f a ix, dens nv q f b ix).
Proof.
  intros Ha Hb. unfold dens. induction nv as [|n IH]; [reflexivity|].
  cbn [for_res]. rewrite IH. cbn [bind fst snd]. unfold read_f.
  replace ((Z.of_nat a <? 0) || (Z.of_nat 2 <=? Z.of_nat a))%Z with false by lia.
  replace ((Z.of_nat b <? 0) || (Z.of_nat 2 <=? Z.of_nat b))%Z with false by lia.
  cbn [bind]. rewrite !Nat2Z.id. reflexivity.
Qed.

Theorem amplitudes_ok s e qi nv q amplitude density f ix :
  two_species s e qi ->
  exists a, get_amplitudes s 2 nv q amplitude density f ix (repeat 0 2) = Ok a /\
    nth (1 - e) a 0 = amplitude /\
    nth e a 0 = amplitude * (dens nv q f (1 - e) ix - density) / (dens nv q f e ix - density).
Proof.
  intros T. pose proof (two_species_last _ _ _ T) as L. destruct T as [He [Ie [C1 [C2 P]]]].
  unfold get_amplitudes. cbn [Nat.eqb check bind]. rewrite L.
  assert (NEG : qi * -1 < 0 /\ -1 * qi < 0) by lra.
  destruct e as [|[|e]]; [| |lia].
  - change (Z.of_nat (1 - 0)) with 1%Z in *. change (Z.of_nat 0) with 0%Z in *.
    change (Z.of_nat 2 - 1)%Z with 1%Z. rewrite C1. cbn [bind]. rewrite C2. cbn [bind].
    destruct (Rlt_dec (-1 * qi) 0); [|lra]. cbn [check bind]. rewrite Ie.
    change (wr (repeat 0 2) 1 amplitude) with (@Ok (list R) [0; amplitude]). cbn [bind].
    pose proof (density_loop nv q f ix 1 0 ltac:(lia) ltac:(lia)) as DL.
    change (Z.of_nat 1) with 1%Z in DL. change (Z.of_nat 0) with 0%Z in DL. rewrite DL. cbn [bind]. eexists. split; [reflexivity|]. split; reflexivity.
  - change (Z.of_nat (1 - 1)) with 0%Z in *. change (Z.of_nat 1) with 1%Z in *.
    change (Z.of_nat 2 - 1)%Z with 1%Z. rewrite C2. cbn [bind]. rewrite C1. cbn [bind].
    destruct (Rlt_dec (qi * -1) 0); [|lra]. cbn [check bind]. rewrite Ie.
    change (wr (repeat 0 2) 0 amplitude) with (@Ok (list R) [amplitude; 0]). cbn [bind].
    pose proof (density_loop nv q f ix 0 1 ltac:(lia) ltac:(lia)) as DL.
    change (Z.of_nat 1) with 1%Z in DL. change (Z.of_nat 0) with 0%Z in DL. rewrite DL. cbn [bind]. eexists. split; [reflexivity|]. split; reflexivity.
Qed.

Section Adaptive.
Variables (s : species_info) (e : nat) (qi : R) (nv : nat) (q : nat -> R) (amplitude density : R).
Variables (mask ftarget : nat -> R) (amps : fdist -> nat -> list R).
Hypothesis T : two_species s e qi.
Hypothesis Hamps : forall f ix, get_amplitudes s 2 nv q amplitude density f ix (repeat 0 2) = Ok (amps f ix).

Let nt := Rsum nv (fun iv => q iv * ftarget iv).

Lemma amp_ion f ix : nth (1 - e) (amps f ix) 0 = amplitude.
Proof. destruct (amplitudes_ok s e qi nv q amplitude density f ix T) as [a [E [H _]]]. rewrite Hamps in E. now injection E as <-. Qed.
Lemma amp_elec f ix : nth e (amps f ix) 0 =
  amplitude * (dens nv q f (1 - e) ix - density) / (dens nv q f e ix - density).
Proof. destruct (amplitudes_ok s e qi nv q amplitude density f ix T) as [a [E [_ H]]]. rewrite Hamps in E. now injection E as <-. Qed.

Lemma dens_derivative amps' f isp ix :
  dens nv q (adaptive_derivative mask ftarget amps' f) isp ix =
  - mask ix * nth isp (amps' ix) 0 * (dens nv q f isp ix - nt).
Proof.
  unfold dens, adaptive_derivative, nt. rewrite <- Rsum_minus, <- Rsum_scal.
  apply Rsum_ext; intros; ring.
Qed.

(** the derivative used by the first stage conserves the charge *)
Theorem adaptive_first_order f ix : nt = density -> dens nv q f e ix <> density ->
  dens nv q (adaptive_derivative mask ftarget (amps f) f) (1 - e) ix -
  dens nv q (adaptive_derivative mask ftarget (amps f) f) e ix = 0.
Proof.
  intros Hn Hd. rewrite !dens_derivative, amp_ion, amp_elec, Hn. field. lra.
Qed.

(** the step, as a formula *)
Definition stage (f : fdist) (dt : R) : fdist :=
  fun a b c => f a b c + adaptive_derivative mask ftarget (amps f) f a b c * (1 / 2 * dt).
Lemma krook_adaptive_eq f dt a b c :
  krook_adaptive mask ftarget amps f dt a b c =
  f a b c + adaptive_derivative mask ftarget (amps (stage f dt)) f a b c * dt.
Proof. reflexivity. Qed.

Lemma dens_stage f dt isp ix : dens nv q (stage f dt) isp ix =
  dens nv q f isp ix + dens nv q (adaptive_derivative mask ftarget (amps f) f) isp ix * (1 / 2 * dt).
Proof. unfold dens, stage. rewrite <- Rsum_scal_r, <- Rsum_plus. apply Rsum_ext; intros; ring. Qed.
Lemma dens_step f dt isp ix : dens nv q (krook_adaptive mask ftarget amps f dt) isp ix =
  dens nv q f isp ix + dens nv q (adaptive_derivative mask ftarget (amps (stage f dt)) f) isp ix * dt.
Proof.
  unfold dens. rewrite <- Rsum_scal_r, <- Rsum_plus. apply Rsum_ext; intros. rewrite krook_adaptive_eq. ring.
Qed.

(** locally neutral plasma: exactly conserved, whatever the target *)
Theorem adaptive_neutral f dt ix :
  dens nv q f (1 - e) ix = dens nv q f e ix ->
  dens nv q f e ix <> density ->
  dens nv q f e ix - dt / 2 * amplitude * mask ix * (dens nv q f e ix - nt) <> density ->
  dens nv q (krook_adaptive mask ftarget amps f dt) (1 - e) ix =
  dens nv q (krook_adaptive mask ftarget amps f dt) e ix.
Proof.
  intros N H1 H2. rewrite !dens_step, !dens_derivative, amp_ion, amp_elec.
  assert (Ae : nth e (amps f ix) 0 = amplitude) by (rewrite amp_elec, N; field; lra).
  rewrite !dens_stage, !dens_derivative, amp_ion, Ae, N. field. lra.
Qed.

(** in general the charge drifts at second order in dt *)
Theorem adaptive_defect f dt ix : nt = density ->
  let I := dens nv q f (1 - e) ix - density in
  let E := dens nv q f e ix - density in
  let h := dt / 2 * amplitude * mask ix in
  E <> 0 -> E - h * I <> 0 ->
  (dens nv q (krook_adaptive mask ftarget amps f dt) (1 - e) ix -
   dens nv q (krook_adaptive mask ftarget amps f dt) e ix) -
  (dens nv q f (1 - e) ix - dens nv q f e ix) = 2 * h * h * I * (I - E) / (E - h * I).
Proof.
  intros Hn I E h HE HEI. rewrite !dens_step, !dens_derivative, amp_ion, amp_elec.
  rewrite !dens_stage, !dens_derivative, amp_ion, amp_elec, Hn.
  replace (dens nv q f (1 - e) ix) with (I + density) by (unfold I; ring).
  replace (dens nv q f e ix) with (E + density) by (unfold E; ring).
  replace (dt) with (2 * h / (amplitude * mask ix) * 1 + (dt - 2 * h / (amplitude * mask ix))) by ring.
  unfold h in *. clearbody I E. clear h.
  replace (dt / 2 * amplitude * mask ix) with (mask ix * amplitude * (1 / 2 * dt)) in * by field.
  replace (2 * (mask ix * amplitude * (1 / 2 * dt)) / (amplitude * mask ix) * 1 + (dt - 2 * (mask ix * amplitude * (1 / 2 * dt)) / (amplitude * mask ix))) with dt by ring.
  set (g := mask ix * amplitude) in *.
  replace (- mask ix * amplitude * (I + density - density)) with (- g * I) by (unfold g; ring).
  replace (- mask ix * (amplitude * (I + density - density) / (E + density - density)) * (E + density - density))
    with (- g * I) by (unfold g; field; replace (E + density - density) with E by ring; assumption).
  replace (E + density + - g * I * (1 / 2 * dt) - density) with (E - g * (1 / 2 * dt) * I) by ring.
  replace (I + density + - g * I * (1 / 2 * dt) - density) with (I - g * (1 / 2 * dt) * I) by ring.
  replace (E + density - density) with E by ring.
  match goal with |- context [- mask ix * (amplitude * ?u / ?w) * E] =>
    replace (- mask ix * (amplitude * u / w) * E) with (- g * (u / w) * E) by (unfold g, Rdiv; ring) end.
  field. clear - HEI. intros Z0. apply HEI. lra.
Qed.
End Adaptive.

(** ** C50 kinetic source *)
Theorem kinetic_additive ext shape amplitude f s t isp ix iv :
  kinetic_source ext shape amplitude (kinetic_source ext shape amplitude f s) t isp ix iv =
  kinetic_source ext shape amplitude f (s + t) isp ix iv.
Proof. unfold kinetic_source. ring. Qed.
Theorem kinetic_moment ext shape amplitude f dt nv q isp ix (w : nat -> R) :
  Rsum nv (fun iv => q iv * (w iv * kinetic_source ext shape amplitude f dt isp ix iv)) =
  Rsum nv (fun iv => q iv * (w iv * f isp ix iv)) +
  amplitude * dt * ext ix * Rsum nv (fun iv => q iv * (w iv * shape iv)).
Proof. unfold kinetic_source. rewrite <- Rsum_scal, <- Rsum_plus. apply Rsum_ext; intros; ring. Qed.

Theorem kinetic_total per pts fr nx extent stiffness amplitude shape f dt nv q isp c ext :
  valid_mesh per pts fr nx -> 0 < stiffness -> 0 < extent < 1 / 2 ->
  trapezoid_coefficients per pts fr nx (repeat 0 nx) = Ok c ->
  mask_tanh per pts fr nx extent stiffness Normal true = Ok ext ->
  Rsum nx (fun ix => nth ix c 0 * dens nv q (kinetic_source ext shape amplitude f dt) isp ix) =
  Rsum nx (fun ix => nth ix c 0 * dens nv q f isp ix) + amplitude * dt * Rsum nv (fun iv => q iv * shape iv).
Proof.
  intros V Hs He Ec Em.
  destruct (mask_normalised per pts fr nx extent stiffness Normal V Hs) as [c' [m' [Ec' [Em' [S _]]]]]; [lra|lra|].
  rewrite Ec in Ec'. injection Ec' as <-. rewrite Em in Em'. injection Em' as <-.
  set (K := Rsum nv (fun iv => q iv * shape iv)).
  assert (D : forall ix, dens nv q (kinetic_source ext shape amplitude f dt) isp ix = dens nv q f isp ix + amplitude * dt * ext ix * K).
  { intros ix. unfold dens, kinetic_source, K. rewrite <- Rsum_scal, <- Rsum_plus. apply Rsum_ext; intros; ring. }
  rewrite (Rsum_ext nx _ (fun ix => nth ix c 0 * dens nv q f isp ix + amplitude * dt * K * (nth ix c 0 * ext ix))).
  - rewrite Rsum_plus, Rsum_scal, S. ring.
  - intros ix _. rewrite D. ring.
Qed.

Theorem shape_maxwellian T v : 0 < T -> velocity_shape 1 1 T v = maxwellian 1 T 0 v.
Proof.
  intros HT. unfold velocity_shape, maxwellian. cbv zeta. pose proof (sqrt_2piT_pos T HT).
  replace (- (v - 0) * (v - 0) / (2 * T)) with (- (v * v) / (2 * T)) by (field; lra).
  replace 1.5 with (3 / 2) by lra. replace (- 0.5) with (- / 2) by lra.
  set (E := exp _) in *. set (Z0 := sqrt _) in *. clearbody E Z0. field. split; lra.
Qed.
Theorem shape_linear n1 n2 e1 e2 a T v :
  velocity_shape (a * n1 + n2) (a * e1 + e2) T v = a * velocity_shape n1 e1 T v + velocity_shape n2 e2 T v.
Proof. unfold velocity_shape. ring. Qed.

(** ** C52 moments *)
Theorem fm_velocity_agree nv q v f n : fm_velocity_field nv q v f n = fm_velocity nv q v f n.
Proof.
  unfold fm_velocity_field, fm_velocity, integrate, Rdiv. rewrite <- Rsum_scal_r. apply Rsum_ext; intros; ring.
Qed.
Theorem fm_temperature_agree nv q v f n V : fm_temperature_field nv q v f n V = fm_temperature nv q v f n V.
Proof.
  unfold fm_temperature_field, fm_temperature, integrate, Rdiv. rewrite <- Rsum_scal_r. apply Rsum_ext; intros; ring.
Qed.
Lemma coll_loop nv q v f :
  for_loop nv (fun iv st =>
      let '(d, p, m) := st in
      let val := q iv * f iv in
      (d + val, p + val * v iv, m + val * v iv * v iv)) (0, 0, 0) =
  (Rsum nv (fun i => q i * f i), Rsum nv (fun i => q i * (v i * f i)), Rsum nv (fun i => q i * (v i * v i * f i))).
Proof.
  match goal with |- for_loop _ ?F _ = _ => set (FF := F) end.
  induction nv as [|n IH]; [reflexivity|]. cbn [for_loop Rsum]. rewrite IH. unfold FF. cbv zeta. f_equal; [f_equal|]; ring.
Qed.
Theorem coll_moments_agree nv q v f : fm_density nv q f <> 0 ->
  let n := fm_density nv q f in let V := fm_velocity nv q v f n in
  coll_moments nv q v f = (n, V, fm_temperature nv q v f n V).
Proof.
  intros Hn n V. unfold coll_moments. rewrite coll_loop.
  unfold V, fm_velocity, fm_temperature, fm_density, n, integrate in *. unfold fm_density, integrate in *.
  set (S0 := Rsum nv (fun i => q i * f i)) in *. set (S1 := Rsum nv (fun i => q i * (v i * f i))).
  set (S2 := Rsum nv (fun i => q i * (v i * v i * f i))). f_equal. f_equal.
  rewrite (Rsum_ext nv _ (fun i => q i * (v i * v i * f i) + (- 2 * (S1 / S0) * (q i * (v i * f i)) + S1 / S0 * (S1 / S0) * (q i * f i))))
    by (intros; ring).
  rewrite !Rsum_plus, !Rsum_scal. fold S0 S1 S2. field. assumption.
Qed.
Theorem temperature_nonneg nv q v f V : (forall i, (i < nv)%nat -> 0 <= q i) -> (forall i, (i < nv)%nat -> 0 <= f i) ->
  0 < fm_density nv q f -> 0 <= fm_temperature nv q v f (fm_density nv q f) V.
Proof.
  intros Hq Hf Hn. unfold fm_temperature, Rdiv. apply Rmult_le_pos; [|left; now apply Rinv_0_lt_compat].
  unfold integrate. apply Rsum_nonneg. intros i Hi. apply Rmult_le_pos; [auto|].
  apply Rmult_le_pos; [|auto]. apply Rle_0_sqr.
Qed.
(** Galilean invariance *)
Theorem moments_shift nv q v f w : fm_density nv q f <> 0 ->
  let n := fm_density nv q f in
  fm_velocity nv q (fun i => v i + w) f n = fm_velocity nv q v f n + w /\
  fm_temperature nv q (fun i => v i + w) f n (fm_velocity nv q (fun i => v i + w) f n) =
  fm_temperature nv q v f n (fm_velocity nv q v f n).
Proof.
  intros Hn n.
  assert (E : fm_velocity nv q (fun i => v i + w) f n = fm_velocity nv q v f n + w).
  { unfold fm_velocity, n, fm_density, integrate in *.
    rewrite (Rsum_ext nv _ (fun i => q i * (v i * f i) + w * (q i * f i))) by (intros; ring).
    rewrite Rsum_plus, Rsum_scal. field. assumption. }
  split; [assumption|]. rewrite E. unfold fm_temperature, integrate. f_equal.
  apply Rsum_ext. intros. ring.
Qed.
Theorem moments_scale nv q v f a : a <> 0 -> fm_density nv q f <> 0 ->
  let n := fm_density nv q f in let g := fun i => a * f i in
  fm_density nv q g = a * n /\
  fm_velocity nv q v g (a * n) = fm_velocity nv q v f n /\
  forall V, fm_temperature nv q v g (a * n) V = fm_temperature nv q v f n V.
Proof.
  intros Ha Hn n g. unfold n, g, fm_density, fm_velocity, fm_temperature, integrate in *.
  assert (E : forall h : nat -> R, Rsum nv (fun i => q i * (h i * (a * f i))) = a * Rsum nv (fun i => q i * (h i * f i))).
  { intros. rewrite <- Rsum_scal. apply Rsum_ext; intros; ring. }
  split; [rewrite <- Rsum_scal; apply Rsum_ext; intros; ring|]. split.
  - rewrite E. field. auto.
  - intros V. rewrite (E (fun i => (v i - V) * (v i - V))). field. auto.
Qed.

(** initial conditions *)
Theorem perturbed_floor feq p : floor_value <= perturbed feq p /\ (floor_value <= feq * (1 + p) -> perturbed feq p = feq * (1 + p)).
Proof. unfold perturbed. destruct (Rlt_dec (feq * (1 + p)) floor_value); split; intros; lra. Qed.
Lemma cos_2kpi x k : cos (x + IZR k * (2 * PI)) = cos x.
Proof.
  destruct (Z_le_gt_dec 0 k) as [H|H].
  - rewrite <- (Z2Nat.id k H). rewrite <- INR_IZR_INZ.
    replace (x + INR (Z.to_nat k) * (2 * PI)) with (x + 2 * INR (Z.to_nat k) * PI) by ring. apply cos_period.
  - rewrite <- (cos_period (x + IZR k * (2 * PI)) (Z.to_nat (- k))). f_equal.
    rewrite INR_IZR_INZ, Z2Nat.id by lia. rewrite opp_IZR. ring.
Qed.
Theorem perturbation_periodic mode amplitude Lx x (k : Z) : Lx <> 0 ->
  perturbation mode amplitude Lx (x + IZR k * Lx) = perturbation mode amplitude Lx x.
Proof.
  intros H. unfold perturbation. f_equal.
  replace (IZR mode * 2 * PI / Lx * (x + IZR k * Lx)) with (IZR mode * 2 * PI / Lx * x + IZR (mode * k) * (2 * PI))
    by (rewrite mult_IZR; field; assumption). apply cos_2kpi.
Qed.
Theorem perturbation_bound mode amplitude Lx x : - Rabs amplitude <= perturbation mode amplitude Lx x <= Rabs amplitude.
Proof.
  unfold perturbation. set (c := cos _). pose proof (COS_bound (IZR mode * 2 * PI / Lx * x)) as B. fold c in B.
  unfold Rabs. destruct (Rcase_abs amplitude); nra.
Qed.
Theorem two_maxwellian_sum eps T V v : 0 < T ->
  two_maxwellian eps T V v = maxwellian (1 - eps) 1 0 v + maxwellian eps T V v.
Proof.
  intros HT. unfold two_maxwellian, maxwellian. rewrite (Rmult_1_r (2 * PI)).
  assert (S1 : sqrt (2 * PI * T) = sqrt (2 * PI) * sqrt T) by (apply sqrt_mult; pose proof PI_RGT_0; lra).
  rewrite S1. assert (0 < sqrt (2 * PI)) by (apply sqrt_lt_R0; pose proof PI_RGT_0; lra).
  assert (0 < sqrt T) by now apply sqrt_lt_R0.
  replace (- 0.5 * v * v) with (- (v - 0) * (v - 0) / (2 * 1)) by lra. field. split; lra.
Qed.

(** ** C32 inter-species collisions *)
Theorem exchange_conserves me mi nu ne Ve Vi Te Ti : 0 < me -> 0 < mi ->
  let '(Re, Ri, Qe, Qi) := exchange me mi nu ne Ve Vi Te Ti in
  sqrt me * Re + sqrt mi * Ri = 0 /\ Qe + Ve * Re + (Qi + Vi * Ri) = 0.
Proof.
  intros Hm Hi. unfold exchange. rewrite sqrt_div_alt by assumption.
  assert (0 < sqrt mi) by now apply sqrt_lt_R0. set (a := sqrt me). set (b := sqrt mi) in *. clearbody a b.
  split; field; lra.
Qed.
Theorem exchange_relaxes me mi nu ne Ve Vi Te Ti : 0 < me -> 0 < mi -> 0 <= nu -> 0 <= ne ->
  let '(Re, Ri, Qe, Qi) := exchange me mi nu ne Ve Vi Te Ti in
  Re * (Ve - sqrt (me / mi) * Vi) <= 0 /\ (Qe + Ve * Re) * (Te - Ti) <= 0.
Proof.
  intros Hm Hi Hn Hd. unfold exchange. set (w := Ve - sqrt (me / mi) * Vi).
  assert (P : 0 <= nu * ne) by now apply Rmult_le_pos. split.
  - pose proof (Rle_0_sqr w) as Q. unfold Rsqr in Q. nra.
  - assert (M : 0 <= me / (me + mi)) by (unfold Rdiv; apply Rmult_le_pos; [lra|left; apply Rinv_0_lt_compat; lra]).
    set (r := me / (me + mi)) in *. clearbody r w.
    replace ((- 3 * nu * r * ne * (Te - Ti) - Ve * (- nu * ne * w) + Ve * (- nu * ne * w)) * (Te - Ti))
      with (- (3 * (nu * ne) * r * ((Te - Ti) * (Te - Ti)))) by ring.
    pose proof (Rle_0_sqr (Te - Ti)) as Q. unfold Rsqr in Q.
    assert (0 <= 3 * (nu * ne) * r * ((Te - Ti) * (Te - Ti))); [|lra].
    apply Rmult_le_pos; [|assumption]. apply Rmult_le_pos; [|assumption]. lra.
Qed.

Lemma Rpower_15 x : 0 < x -> Rpower x 1.5 = x * sqrt x.
Proof.
  intros H. replace 1.5 with (1 + / 2) by lra. rewrite Rpower_plus, Rpower_1, Rpower_sqrt by assumption. reflexivity.
Qed.

Theorem frequencies_reciprocal qe qi me mi Lx nustar0 ne ni Te Ti :
  qe <> 0 -> qi <> 0 -> 0 < me -> 0 < mi -> Lx <> 0 -> 0 < ne -> 0 < ni -> 0 < Te -> 0 < Ti ->
  let nus_e := sqrt (me / me) * qe ^ 4 / Lx * nustar0 in
  let nus_i := sqrt (me / mi) * qi ^ 4 / Lx * nustar0 in
  let '(ce, ci) := collfreq_ab qe qi me mi nus_e nus_i ne ni Te Ti in
  mi * ni * ci = me * ne * ce.
Proof.
  intros Hqe Hqi Hme Hmi HL Hne Hni HTe HTi nus_e nus_i. unfold collfreq_ab, nus_e, nus_i.
  replace (me / me) with 1 by (field; lra). rewrite sqrt_1.
  set (X := Te + me / mi * Ti).
  assert (Hr : 0 < me / mi) by (unfold Rdiv; apply Rmult_lt_0_compat; [assumption|now apply Rinv_0_lt_compat]).
  assert (HX : 0 < X) by (unfold X; nra).
  replace (1 + me / mi * Ti / Te) with (X * / Te) by (unfold X; field; lra).
  replace (1 + 1 / (me / mi) * Te / Ti) with (X * / ((me / mi) * Ti)) by (unfold X; field; lra).
  set (mu := me / mi) in *.
  assert (Hmi2 : mi = me / mu) by (unfold mu; field; lra).
  assert (HmT : 0 < mu * Ti) by nra.
  rewrite !Rpower_15; try assumption; try (apply Rmult_lt_0_compat; [assumption|now apply Rinv_0_lt_compat]).
  rewrite !sqrt_mult by (try (left; assumption); left; now apply Rinv_0_lt_compat).
  rewrite !sqrt_inv. rewrite sqrt_mult by (left; assumption).
  rewrite Hmi2. clearbody mu X. clear Hmi2 Hmi.
  assert (HsX : 0 < sqrt X) by now apply sqrt_lt_R0. assert (HsTe : 0 < sqrt Te) by now apply sqrt_lt_R0.
  assert (HsTi : 0 < sqrt Ti) by now apply sqrt_lt_R0. assert (Hsmu : 0 < sqrt mu) by now apply sqrt_lt_R0.
  set (a := sqrt mu) in *. assert (Hmu2 : mu = a * a) by (unfold a; rewrite sqrt_sqrt; lra). clearbody a. subst mu. set (b := sqrt X) in *. set (c := sqrt Te) in *. set (d := sqrt Ti) in *. set (r2 := sqrt 2).
  clearbody b c d r2. field. repeat split; try lra; assumption.
Qed.

(** discrete moments of the collision term *)
Theorem inter_df_moments nv q v Rab Qab n V T k : T <> 0 -> n <> 0 ->
  Rsum nv (fun i => q i * ((v i - V) ^ k * inter_df Rab Qab n V T (v i))) =
  (Qab / T * maxwell_moment nv q v n V T (k + 2) - Qab * maxwell_moment nv q v n V T k
   + Rab * maxwell_moment nv q v n V T (k + 1)) / (n * T).
Proof.
  intros HT Hn. unfold maxwell_moment.
  rewrite <- !Rsum_scal, <- Rsum_minus, <- Rsum_plus. rewrite (Rdiv_def _ (n * T)) || unfold Rdiv at 1. rewrite <- Rsum_scal_r.
  apply Rsum_ext. intros i _. unfold inter_df, maxwellian. cbv zeta.
  rewrite !pow_add. cbn [pow]. replace 0.5 with (/ 2) by lra.
  set (p := (v i - V) ^ k). set (E := exp _). set (Z0 := 1 / sqrt _). clearbody p E Z0. field. auto.
Qed.

Theorem inter_df_exact nv q v Rab Qab n V T : T <> 0 -> n <> 0 -> exact_moments nv q v n V T ->
  Rsum nv (fun i => q i * inter_df Rab Qab n V T (v i)) = 0 /\
  Rsum nv (fun i => q i * (v i * inter_df Rab Qab n V T (v i))) = Rab /\
  Rsum nv (fun i => q i * (v i * v i / 2 * inter_df Rab Qab n V T (v i))) = Qab + V * Rab.
Proof.
  intros HT Hn [M0 [M1 [M2 [M3 M4]]]].
  pose proof (inter_df_moments nv q v Rab Qab n V T 0 HT Hn) as E0.
  pose proof (inter_df_moments nv q v Rab Qab n V T 1 HT Hn) as E1.
  pose proof (inter_df_moments nv q v Rab Qab n V T 2 HT Hn) as E2.
  cbn [plus] in E0, E1, E2. rewrite M0, M1, M2 in E0. rewrite M1, M2, M3 in E1. rewrite M2, M3, M4 in E2.
  set (D := fun i => inter_df Rab Qab n V T (v i)) in *.
  assert (F0 : Rsum nv (fun i => q i * D i) = 0).
  { rewrite (Rsum_ext nv _ (fun i => q i * ((v i - V) ^ 0 * D i))) by (intros; simpl; ring). unfold D. rewrite E0. field. auto. }
  assert (F1 : Rsum nv (fun i => q i * ((v i - V) ^ 1 * D i)) = Rab) by (unfold D; rewrite E1; field; auto).
  assert (F2 : Rsum nv (fun i => q i * ((v i - V) ^ 2 * D i)) = 2 * Qab) by (unfold D; rewrite E2; field; auto).
  split; [exact F0|]. split.
  - rewrite (Rsum_ext nv _ (fun i => q i * ((v i - V) ^ 1 * D i) + V * (q i * D i))) by (intros; unfold D; simpl; ring).
    rewrite Rsum_plus, Rsum_scal, F0, F1. ring.
  - rewrite (Rsum_ext nv _ (fun i => / 2 * (q i * ((v i - V) ^ 2 * D i)) + (V * (q i * ((v i - V) ^ 1 * D i)) + V * V / 2 * (q i * D i))))
      by (intros; unfold D; simpl; field).
    rewrite !Rsum_plus, !Rsum_scal, F0, F1, F2. field.
Qed.

(** the whole collision term: total density of each species, momentum and energy *)
Theorem inter_conserves qe qi me mi nus_e nus_i nv q v fe fi :
  0 < me -> 0 < mi ->
  let '(ne, Ve, Te) := coll_moments nv q v fe in
  let '(ni, Vi, Ti) := coll_moments nv q v fi in
  ne <> 0 -> ni <> 0 -> Te <> 0 -> Ti <> 0 ->
  exact_moments nv q v ne Ve Te -> exact_moments nv q v ni Vi Ti ->
  let '(de, di) := inter_derivative qe qi me mi nus_e nus_i nv q v fe fi in
  Rsum nv (fun i => q i * de i) = 0 /\ Rsum nv (fun i => q i * di i) = 0 /\
  sqrt me * Rsum nv (fun i => q i * (v i * de i)) + sqrt mi * Rsum nv (fun i => q i * (v i * di i)) = 0 /\
  Rsum nv (fun i => q i * (v i * v i / 2 * de i)) + Rsum nv (fun i => q i * (v i * v i / 2 * di i)) = 0.
Proof.
  intros Hme Hmi. unfold inter_derivative.
  destruct (coll_moments nv q v fe) as [[ne Ve] Te]. destruct (coll_moments nv q v fi) as [[ni Vi] Ti].
  intros Hne Hni HTe HTi Xe Xi.
  destruct (collfreq_ab qe qi me mi nus_e nus_i ne ni Te Ti) as [nu_e nu_i].
  pose proof (exchange_conserves me mi nu_e ne Ve Vi Te Ti Hme Hmi) as C.
  destruct (exchange me mi nu_e ne Ve Vi Te Ti) as [[[Re Ri] Qe] Qi]. destruct C as [C1 C2].
  destruct (inter_df_exact nv q v Re Qe ne Ve Te HTe Hne Xe) as [A0 [A1 A2]].
  destruct (inter_df_exact nv q v Ri Qi ni Vi Ti HTi Hni Xi) as [B0 [B1 B2]].
  rewrite A0, A1, A2, B0, B1, B2. split; [reflexivity|]. split; [reflexivity|]. split; [exact C1|exact C2].
Qed.

(** equilibrium: equal temperatures and velocities give no collision term at all *)
Theorem inter_equilibrium qe qi me mi nus_e nus_i nv q v fe fi :
  let '(ne, Ve, Te) := coll_moments nv q v fe in
  let '(ni, Vi, Ti) := coll_moments nv q v fi in
  Te = Ti -> Ve = sqrt (me / mi) * Vi ->
  let '(de, di) := inter_derivative qe qi me mi nus_e nus_i nv q v fe fi in
  forall iv, de iv = 0 /\ di iv = 0.
Proof.
  unfold inter_derivative.
  destruct (coll_moments nv q v fe) as [[ne Ve] Te]. destruct (coll_moments nv q v fi) as [[ni Vi] Ti].
  intros HT HV. destruct (collfreq_ab qe qi me mi nus_e nus_i ne ni Te Ti) as [nu_e nu_i].
  destruct (exchange me mi nu_e ne Ve Vi Te Ti) as [[[Re Ri] Qe] Qi] eqn:X.
  unfold exchange in X. rewrite HT, HV in X.
  assert (Re = 0) by (injection X as <- _ _ _; ring).
  assert (Ri = 0) by (injection X as _ <- _ _; ring).
  assert (Qe = 0) by (injection X as _ _ <- _; ring).
  assert (Qi = 0) by (injection X as _ _ _ <-; ring). subst.
  intros iv. unfold inter_df, Rdiv. split; ring.
Qed.

Theorem collisions_new_checks s nsp Lx nustar0 :
  (nsp <> 2%nat \/ nustar0 = 0) -> collisions_new s nsp Lx nustar0 = Throw.
Proof.
  intros H. unfold collisions_new. destruct (nsp =? 2)%nat eqn:E; [|reflexivity]. cbn [negb].
  destruct (Req_EM_T nustar0 0); [reflexivity|]. apply Nat.eqb_eq in E. destruct H; contradiction.
Qed.

(** ** counterexamples for the adaptive source *)
Definition amps_of (s : species_info) (nv : nat) (q : nat -> R) (amplitude density : R) (f : fdist) (ix : nat) : list R :=
  match get_amplitudes s 2 nv q amplitude density f ix (repeat 0 2) with Ok a => a | _ => [] end.
Lemma amps_of_ok s e qi nv q amplitude density : two_species s e qi -> forall f ix,
  get_amplitudes s 2 nv q amplitude density f ix (repeat 0 2) = Ok (amps_of s nv q amplitude density f ix).
Proof.
  intros T f ix. unfold amps_of. destruct (amplitudes_ok s e qi nv q amplitude density f ix T) as [a [E _]].
  now rewrite E.
Qed.
Lemma two_example qi : 0 < qi -> two_species (mk_species [qi; -1] [1; 1] 1) 1 qi.
Proof. intros H. split; [lia|]. repeat split; assumption. Qed.

(** densities (ion, electron) at every x *)
Definition flat (ni ne : R) : fdist := fun isp _ _ => match isp with O => ni | _ => ne end.

Lemma adaptive_example qi ni ne dt : 0 < qi -> ne <> 1 -> ne - 1 - dt / 2 * (ni - 1) <> 0 ->
  let s := mk_species [qi; -1] [1; 1] 1 in
  let q := fun _ : nat => 1 in
  let r := krook_adaptive (fun _ => 1) (fun _ => 1) (amps_of s 1 q 1 1) (flat ni ne) dt in
  dens 1 q r 0 0 = ni - dt * (ni - 1) /\
  dens 1 q r 0 0 - dens 1 q r 1 0 - (ni - ne) = 2 * (dt / 2) * (dt / 2) * (ni - 1) * (ni - ne) / (ne - 1 - dt / 2 * (ni - 1)).
Proof.
  intros Hq Hne Hd s q r. pose proof (two_example qi Hq) as T. fold s in T.
  pose proof (amps_of_ok s 1 qi 1 q 1 1 T) as HA.
  assert (D0 : dens 1 q (flat ni ne) 0 0 = ni) by (unfold dens, q; simpl; ring).
  assert (D1 : dens 1 q (flat ni ne) 1 0 = ne) by (unfold dens, q; simpl; ring).
  split.
  - unfold r. rewrite (dens_step 1 q (fun _ => 1) (fun _ => 1) (amps_of s 1 q 1 1)), dens_derivative.
    rewrite (amp_ion s 1 qi 1 q 1 1 (amps_of s 1 q 1 1) T HA). rewrite D0. unfold q. simpl. ring.
  - pose proof (adaptive_defect s 1 qi 1 q 1 1 (fun _ => 1) (fun _ => 1) (amps_of s 1 q 1 1) T HA (flat ni ne) dt 0) as P.
    cbv zeta in P. change (1 - 1)%nat with 0%nat in P. rewrite D0, D1 in P. fold r in P.
    replace (dt / 2 * 1 * 1) with (dt / 2) in P by ring. rewrite P; [f_equal; ring|unfold q; simpl; ring|lra|assumption].
Qed.

(** ** an exact three-point velocity grid *)
Definition grid3 (V T : R) (i : nat) : R := match i with O => V - sqrt (3 * T) | S O => V | _ => V + sqrt (3 * T) end.
Definition weight3 (V T : R) (i : nat) : R :=
  match i with S O => 2 / 3 | _ => / 6 end / maxwellian 1 T V (grid3 V T i).

Lemma grid3_exact V T n : 0 < T -> exact_moments 3 (weight3 V T) (grid3 V T) n V T.
Proof.
  intros HT.
  assert (M : forall k, maxwell_moment 3 (weight3 V T) (grid3 V T) n V T k =
     n * (/ 6 * (- sqrt (3 * T)) ^ k + 2 / 3 * 0 ^ k + / 6 * (sqrt (3 * T)) ^ k)).
  { intros k. unfold maxwell_moment.
    assert (E : forall i, weight3 V T i * ((grid3 V T i - V) ^ k * maxwellian n T V (grid3 V T i)) =
       n * (match i with S O => 2 / 3 | _ => / 6 end * (grid3 V T i - V) ^ k)).
    { intros i. unfold weight3. pose proof (maxwellian_pos 1 T V (grid3 V T i) HT Rlt_0_1) as P.
      replace (maxwellian n T V (grid3 V T i)) with (n * maxwellian 1 T V (grid3 V T i))
        by (unfold maxwellian; ring).
      set (m := maxwellian 1 T V _) in *. clearbody m. field. lra. }
    rewrite (Rsum_ext 3 _ _ (fun i _ => E i)). cbn [Rsum grid3].
    replace (V - sqrt (3 * T) - V) with (- sqrt (3 * T)) by ring.
    replace (V - V) with 0 by ring. replace (V + sqrt (3 * T) - V) with (sqrt (3 * T)) by ring. ring. }
  unfold exact_moments. rewrite !M.
  assert (S : sqrt (3 * T) * sqrt (3 * T) = 3 * T) by (apply sqrt_sqrt; lra).
  set (a := sqrt (3 * T)) in *. clearbody a.
  split; [simpl; field|]. split; [simpl; field|]. split.
  - simpl. replace (n * (/ 6 * (- a * (- a * 1)) + 2 / 3 * (0 * (0 * 1)) + / 6 * (a * (a * 1)))) with (n * (a * a) / 3) by field.
    rewrite S. field.
  - split; [simpl; field|]. simpl.
    replace (n * (/ 6 * (- a * (- a * (- a * (- a * 1)))) + 2 / 3 * (0 * (0 * (0 * (0 * 1)))) + / 6 * (a * (a * (a * (a * 1))))))
      with (n * (a * a) * (a * a) / 3) by field. rewrite S. field.
Qed.

Lemma exact_coll_moments nv q v n V T : n <> 0 -> exact_moments nv q v n V T ->
  coll_moments nv q v (fun i => maxwellian n T V (v i)) = (n, V, T).
Proof.
  intros Hn [M0 [M1 [M2 _]]].
  set (f := fun i => maxwellian n T V (v i)).
  assert (D : fm_density nv q f = n).
  { transitivity (maxwell_moment nv q v n V T 0); [|exact M0]. unfold fm_density, integrate, maxwell_moment. apply Rsum_ext. intros. unfold f. simpl. ring. }
  rewrite coll_moments_agree by (rewrite D; assumption). cbv zeta. rewrite D.
  assert (VV : fm_velocity nv q v f n = V).
  { unfold fm_velocity, integrate.
    rewrite (Rsum_ext nv _ (fun i => q i * ((v i - V) ^ 1 * maxwellian n T V (v i)) + V * (q i * f i))) by (intros; unfold f; simpl; ring).
    rewrite Rsum_plus, Rsum_scal. unfold fm_density, integrate in D. rewrite D. unfold maxwell_moment in M1. rewrite M1. field. assumption. }
  rewrite VV. f_equal. unfold fm_temperature, integrate.
  rewrite (Rsum_ext nv _ (fun i => q i * ((v i - V) ^ 2 * maxwellian n T V (v i)))) by (intros; unfold f; simpl; ring).
  unfold maxwell_moment in M2. rewrite M2. field. assumption.
Qed.

Lemma krook_start mask ftarget amplitude (f : nat -> nat -> nat -> R) isp ix iv :
  krook_constant mask ftarget amplitude f 0 isp ix iv = f isp ix iv.
Proof. unfold krook_constant. rewrite Rmult_0_r, exp_0. ring. Qed.

Lemma adaptive_nonneutral :
  exists s nv q amplitude density mask ftarget amps f dt ix,
    two_species s 1 1 /\
    (forall f ix, get_amplitudes s 2 nv q amplitude density f ix (repeat 0 2) = Ok (amps f ix)) /\
    Rsum nv (fun iv => q iv * ftarget iv) = density /\ 0 < dt /\
    dens nv q (krook_adaptive mask ftarget amps f dt) 0 ix -
    dens nv q (krook_adaptive mask ftarget amps f dt) 1 ix = 1 + 1 / 2 /\
    dens nv q f 0 ix - dens nv q f 1 ix = 1.
Proof.
  exists (mk_species [1; -1] [1; 1] 1), 1%nat, (fun _ => 1), 1, 1, (fun _ => 1), (fun _ => 1).
  exists (amps_of (mk_species [1; -1] [1; 1] 1) 1 (fun _ => 1) 1 1), (flat 3 2), (1 / 2), 0%nat.
  split; [apply two_example; lra|]. split; [apply (amps_of_ok _ 1 1), two_example; lra|].
  split; [simpl; ring|]. split; [lra|].
  destruct (adaptive_example 1 3 2 (1 / 2)) as [_ B]; try lra. cbv zeta in B.
  split; [|unfold dens; simpl; ring].
  replace (2 * (1 / 2 / 2) * (1 / 2 / 2) * (3 - 1) * (3 - 2) / (2 - 1 - 1 / 2 / 2 * (3 - 1))) with (1 / 2) in B by field. lra.
Qed.
Lemma adaptive_multicharge :
  exists s nv q amplitude density mask ftarget amps f dt ix,
    two_species s 1 2 /\
    (forall f ix, get_amplitudes s 2 nv q amplitude density f ix (repeat 0 2) = Ok (amps f ix)) /\
    Rsum nv (fun iv => q iv * ftarget iv) = density /\ 0 < dt /\
    2 * dens nv q f 0 ix - dens nv q f 1 ix = 0 /\
    2 * dens nv q (krook_adaptive mask ftarget amps f dt) 0 ix -
    dens nv q (krook_adaptive mask ftarget amps f dt) 1 ix <> 0.
Proof.
  exists (mk_species [2; -1] [1; 1] 1), 1%nat, (fun _ => 1), 1, 1, (fun _ => 1), (fun _ => 1).
  exists (amps_of (mk_species [2; -1] [1; 1] 1) 1 (fun _ => 1) 1 1), (flat 2 4), (1 / 2), 0%nat.
  split; [apply two_example; lra|]. split; [apply (amps_of_ok _ 1 2), two_example; lra|].
  split; [simpl; ring|]. split; [lra|].
  destruct (adaptive_example 2 2 4 (1 / 2)) as [A B]; try lra. cbv zeta in A, B.
  split; [unfold dens; simpl; ring|].
  replace (2 * (1 / 2 / 2) * (1 / 2 / 2) * (2 - 1) * (2 - 4) / (4 - 1 - 1 / 2 / 2 * (2 - 1))) with (- (1 / 11)) in B by field. lra.
Qed.

(** moments of the velocity shape of the kinetic source *)
Lemma shape_moments nv q v density energy T : 0 < T -> exact_moments nv q v 1 0 T ->
  Rsum nv (fun i => q i * velocity_shape density energy T (v i)) = density /\
  Rsum nv (fun i => q i * (v i * velocity_shape density energy T (v i))) = 0 /\
  Rsum nv (fun i => q i * (v i * v i / 2 * velocity_shape density energy T (v i))) = energy * (T / 2).
Proof.
  intros HT [M0 [M1 [M2 [M3 M4]]]].
  assert (E : forall k, Rsum nv (fun i => q i * ((v i - 0) ^ k * velocity_shape density energy T (v i))) =
     (3 / 2 * density - / 2 * energy) * maxwell_moment nv q v 1 0 T k
     + (energy - density) / (2 * T) * maxwell_moment nv q v 1 0 T (k + 2)).
  { intros k. unfold maxwell_moment. rewrite <- !Rsum_scal, <- Rsum_plus. apply Rsum_ext. intros i _.
    unfold velocity_shape, maxwellian. cbv zeta. rewrite pow_add. cbn [pow].
    replace (- (v i - 0) * (v i - 0) / (2 * T)) with (- (v i * v i) / (2 * T)) by (field; lra).
    replace 1.5 with (3 / 2) by lra. replace (- 0.5) with (- / 2) by lra.
    set (p := (v i - 0) ^ k). set (X := exp _). set (Z0 := 1 / sqrt _). clearbody p X Z0. field. lra. }
  pose proof (E 0%nat) as E0. pose proof (E 1%nat) as E1. pose proof (E 2%nat) as E2. cbn [plus] in E0, E1, E2.
  rewrite M0, M2 in E0. rewrite M1, M3 in E1. rewrite M2, M4 in E2.
  split; [|split].
  - rewrite (Rsum_ext nv _ (fun i => q i * ((v i - 0) ^ 0 * velocity_shape density energy T (v i)))) by (intros; simpl; ring).
    rewrite E0. field. lra.
  - rewrite (Rsum_ext nv _ (fun i => q i * ((v i - 0) ^ 1 * velocity_shape density energy T (v i)))) by (intros; simpl; ring).
    rewrite E1. ring.
  - rewrite (Rsum_ext nv _ (fun i => / 2 * (q i * ((v i - 0) ^ 2 * velocity_shape density energy T (v i))))) by (intros; simpl; field).
    rewrite Rsum_scal, E2. field. lra.
Qed.
