(** Proofs of C65. *)
From Verif Require Import GyroSpec PolarMain PolarAdv MappingProofs FftProofs.
From Coq Require Import Lra Lia.
Open Scope R_scope.

Definition pair_dec (x y : nat * nat) : {x = y} + {x <> y}.
Proof. decide equality; apply Nat.eq_dec. Defined.
Lemma pair_circ a b r t : pair_map (circular a b) (r, t) = (r * cos t + a, r * sin t + b).
Proof. reflexivity. Qed.

Lemma position_orbit gs ir it k :
  gyro_position gs ir it k = orbit_point (position gs ir it) (gs_rho gs ir it) (gs_points gs) k.
Proof.
  unfold gyro_position, orbit_point, position. cbv zeta. rewrite pair_circ. unfold gyro_alpha.
  replace (PI * 2 / INR (gs_points gs) * INR k) with (2 * PI * INR k / INR (gs_points gs)) by (unfold Rdiv; ring).
  f_equal; ring.
Qed.

Lemma loop_sum n f : for_loop n (fun k s => s + f k) 0 = Rsum n f.
Proof.
  apply (for_loop_inv (fun k s => s = Rsum k f)); [reflexivity|]. intros i s _ ->. reflexivity.
Qed.

Lemma average_mean {C} (ai : interpolator2 C) gs A ir it :
  gyro_average ai gs (i2_build ai (grid2 (gs_nr gs) (gs_nt gs) A)) ir it =
  orbit_mean (reconstruction ai gs A) (position gs ir it) (gs_rho gs ir it) (gs_points gs).
Proof.
  unfold gyro_average, orbit_mean. rewrite loop_sum. f_equal. apply Rsum_ext. intros k _.
  unfold reconstruction. now rewrite position_orbit.
Qed.

Lemma write_points (g : nat -> nat -> R) ib order : forall F jb ir it,
  fold_left (fun F p => upd3 F ib (fst p) (snd p) (g (fst p) (snd p))) order F jb ir it =
  if ((jb =? ib)%nat && if in_dec pair_dec (ir, it) order then true else false)%bool
  then g ir it else F jb ir it.
Proof.
  induction order as [|p t IH]; intros F jb ir it; cbn [fold_left].
  - destruct (Nat.eqb_spec jb ib); reflexivity.
  - rewrite IH. destruct (Nat.eqb_spec jb ib) as [->|N]; cbn [andb].
    + destruct (in_dec _ (ir, it) t) as [I|N].
      * destruct (in_dec _ (ir, it) (p :: t)) as [|N']; [reflexivity|]. exfalso; apply N'; right; auto.
      * destruct (in_dec _ (ir, it) (p :: t)) as [I|N'].
        -- destruct I as [->|I]; [|contradiction]. cbn [fst snd]. apply upd3_eq.
        -- apply upd3_neq. intros E. apply N'. left. destruct p; cbn [fst snd] in E. congruence.
    + apply upd3_neq. congruence.
Qed.

Lemma copy_ring ib last : forall corder (F : nat -> nat -> nat -> R) jb ir it,
  fold_left (fun F ir => upd3 F ib ir last (F ib ir 0%nat)) corder F jb ir it =
  if ((jb =? ib)%nat && (it =? last)%nat && if in_dec Nat.eq_dec ir corder then true else false)%bool
  then F ib ir 0%nat else F jb ir it.
Proof.
  induction corder as [|c t IH]; intros F jb ir it; cbn [fold_left].
  - cbn. rewrite !Bool.andb_false_r. reflexivity.
  - rewrite IH.
    assert (Z : upd3 F ib c last (F ib c 0%nat) ib ir 0%nat = F ib ir 0%nat).
    { destruct (Nat.eq_dec ir c) as [->|N]; [|apply upd3_neq; congruence].
      destruct (Nat.eq_dec last 0) as [->|N]; [apply upd3_eq|apply upd3_neq; congruence]. }
    rewrite Z. destruct (Nat.eqb_spec jb ib) as [->|N]; cbn [andb]; [|apply upd3_neq; congruence].
    destruct (Nat.eqb_spec it last) as [->|N]; cbn [andb]; [|apply upd3_neq; congruence].
    destruct (in_dec Nat.eq_dec ir t) as [I|N].
    + destruct (in_dec Nat.eq_dec ir (c :: t)) as [|N']; [reflexivity|]. exfalso; apply N'; right; auto.
    + destruct (in_dec Nat.eq_dec ir (c :: t)) as [I|N'].
      * destruct I as [->|I]; [|contradiction]. apply upd3_eq.
      * apply upd3_neq. intros E. apply N'. left. congruence.
Qed.

Lemma batch_spec {C} (ai : interpolator2 C) gs order corder ib A F jb ir it :
  all_pairs (gs_nr gs) (gs_nt gs) order -> every (gs_nr gs) corder ->
  (ir < gs_nr gs)%nat -> (it < gs_nt gs)%nat ->
  gyro_batch ai gs order corder ib A F jb ir it =
  if (jb =? ib)%nat
  then gyro_average ai gs (i2_build ai (grid2 (gs_nr gs) (gs_nt gs) A)) ir
         (if (it =? gs_nt gs - 1)%nat then 0%nat else it)
  else F jb ir it.
Proof.
  intros HO HC Hr Ht. unfold gyro_batch; cbv zeta.
  rewrite copy_ring.
  rewrite !(write_points (gyro_average ai gs (i2_build ai (grid2 (gs_nr gs) (gs_nt gs) A))) ib).
  rewrite Nat.eqb_refl. destruct (Nat.eqb_spec jb ib) as [->|N]; cbn [andb]; [|reflexivity].
  destruct (in_dec Nat.eq_dec ir corder) as [I|N]; [|exfalso; apply N, HC; auto].
  assert (K : forall k, (k < gs_nt gs)%nat ->
     (if in_dec pair_dec (ir, k) order then true else false) = true).
  { intros k Hk. destruct (in_dec _ (ir, k) order) as [|N]; [reflexivity|]. exfalso; apply N, HO; auto. }
  rewrite !K by lia. destruct (it =? gs_nt gs - 1)%nat; reflexivity.
Qed.

Lemma operator_spec {C} (ai : interpolator2 C) gs nb border order corder A_of A F0 :
  (A_of = (fun _ => A) \/ (A_of = (fun F => F) /\ F0 = A)) -> once nb border ->
  (forall ib, all_pairs (gs_nr gs) (gs_nt gs) (order ib)) -> (forall ib, every (gs_nr gs) (corder ib)) ->
  forall ib ir it, (ib < nb)%nat -> (ir < gs_nr gs)%nat -> (it < gs_nt gs)%nat ->
  gyro_operator ai gs border order corder A_of F0 ib ir it =
  orbit_mean (reconstruction ai gs (A ib))
    (position gs ir (if (it =? gs_nt gs - 1)%nat then 0%nat else it))
    (gs_rho gs ir (if (it =? gs_nt gs - 1)%nat then 0%nat else it)) (gs_points gs).
Proof.
  intros HA [HN HB] HO HC ib ir it Hb Hr Ht.
  rewrite <- average_mean.
  assert (G : forall l F, NoDup l ->
     (A_of = (fun _ => A) \/ (A_of = (fun F => F) /\
        forall jb i j, In jb l -> (i < gs_nr gs)%nat -> (j < gs_nt gs)%nat -> F jb i j = A jb i j)) ->
     (In ib l \/ F ib ir it = gyro_average ai gs (i2_build ai (grid2 (gs_nr gs) (gs_nt gs) (A ib))) ir
         (if (it =? gs_nt gs - 1)%nat then 0%nat else it)) ->
     gyro_operator ai gs l order corder A_of F ib ir it =
       gyro_average ai gs (i2_build ai (grid2 (gs_nr gs) (gs_nt gs) (A ib))) ir
         (if (it =? gs_nt gs - 1)%nat then 0%nat else it)).
  { clear HN HB HA F0. induction l as [|b t IH]; intros F ND HA HI; unfold gyro_operator; cbn [fold_left].
    - destruct HI as [[]|E]. exact E.
    - inversion ND as [|? ? N1 N2]; subst. apply IH; auto.
      + destruct HA as [E|[E V]]; [left; exact E|right]. split; [exact E|].
        intros jb i j Ij Hi Hj. rewrite batch_spec; auto.
        destruct (Nat.eqb_spec jb b) as [->|]; [contradiction|]. apply V; auto. right; auto.
      + destruct (Nat.eq_dec ib b) as [->|N].
        * right. rewrite batch_spec; auto. rewrite Nat.eqb_refl. f_equal. f_equal.
          apply grid2_ext. intros i j Hi Hj. destruct HA as [->|[-> V]]; [reflexivity|]. apply V; auto. left; auto.
        * destruct HI as [[E|I]|E]; [congruence|left; auto|right].
          rewrite batch_spec; auto. destruct (Nat.eqb_spec ib b); [congruence|]. exact E. }
  apply G; auto.
  - destruct HA as [E|[E ->]]; [left; auto|right; split; auto].
  - left. apply HB; auto.
Qed.

Lemma gyro_mean {C} (ai : interpolator2 C) gs nb border order corder A_of A F0 :
  (A_of = (fun _ => A) \/ (A_of = (fun F => F) /\ F0 = A)) -> once nb border ->
  (forall ib, all_pairs (gs_nr gs) (gs_nt gs) (order ib)) -> (forall ib, every (gs_nr gs) (corder ib)) ->
  forall ib ir it, (ib < nb)%nat -> (ir < gs_nr gs)%nat -> (S it < gs_nt gs)%nat ->
  gyro_operator ai gs border order corder A_of F0 ib ir it =
  orbit_mean (reconstruction ai gs (A ib)) (position gs ir it) (gs_rho gs ir it) (gs_points gs).
Proof.
  intros HA HB HO HC ib ir it Hb Hr Ht.
  rewrite (operator_spec ai gs nb border order corder A_of A F0); auto; [|lia].
  destruct (Nat.eqb_spec it (gs_nt gs - 1)); [lia|reflexivity].
Qed.
Lemma gyro_last {C} (ai : interpolator2 C) gs nb border order corder A_of A F0 :
  (A_of = (fun _ => A) \/ (A_of = (fun F => F) /\ F0 = A)) -> once nb border ->
  (forall ib, all_pairs (gs_nr gs) (gs_nt gs) (order ib)) -> (forall ib, every (gs_nr gs) (corder ib)) ->
  forall ib ir, (ib < nb)%nat -> (ir < gs_nr gs)%nat -> (0 < gs_nt gs)%nat ->
  gyro_operator ai gs border order corder A_of F0 ib ir (gs_nt gs - 1)%nat =
  orbit_mean (reconstruction ai gs (A ib)) (position gs ir 0) (gs_rho gs ir 0) (gs_points gs).
Proof.
  intros HA HB HO HC ib ir Hb Hr Ht.
  rewrite (operator_spec ai gs nb border order corder A_of A F0); auto; [|lia].
  now rewrite Nat.eqb_refl.
Qed.
(** the copy is harmless when the last grid point is the first one *)
Lemma gyro_repeated {C} (ai : interpolator2 C) gs nb border order corder A_of A F0 :
  (A_of = (fun _ => A) \/ (A_of = (fun F => F) /\ F0 = A)) -> once nb border ->
  (forall ib, all_pairs (gs_nr gs) (gs_nt gs) (order ib)) -> (forall ib, every (gs_nr gs) (corder ib)) ->
  (forall ir, (ir < gs_nr gs)%nat -> position gs ir (gs_nt gs - 1) = position gs ir 0 /\
     gs_rho gs ir (gs_nt gs - 1)%nat = gs_rho gs ir 0%nat) ->
  forall ib ir it, (ib < nb)%nat -> (ir < gs_nr gs)%nat -> (it < gs_nt gs)%nat ->
  gyro_operator ai gs border order corder A_of F0 ib ir it =
  orbit_mean (reconstruction ai gs (A ib)) (position gs ir it) (gs_rho gs ir it) (gs_points gs).
Proof.
  intros HA HB HO HC HP ib ir it Hb Hr Ht.
  rewrite (operator_spec ai gs nb border order corder A_of A F0); auto.
  destruct (Nat.eqb_spec it (gs_nt gs - 1)) as [->|]; [|reflexivity].
  destruct (HP ir Hr) as [-> ->]. reflexivity.
Qed.

(** ** The mean *)
Lemma mean_ext f g c rho n : (forall k, (k < n)%nat -> f (orbit_point c rho n k) = g (orbit_point c rho n k)) ->
  orbit_mean f c rho n = orbit_mean g c rho n.
Proof. intros H. unfold orbit_mean. f_equal. apply Rsum_ext; auto. Qed.

Lemma angle_form n k p : (0 < n)%nat ->
  2 * PI * IZR (p * Z.of_nat k) / IZR (Z.of_nat n) = IZR p * (2 * PI * INR k / INR n).
Proof.
  intros H. rewrite mult_IZR, <- !INR_IZR_INZ. assert (0 < INR n) by (apply lt_0_INR; auto). field. lra.
Qed.
Lemma sum_cos n p a : (0 < n)%nat -> (0 < p < Z.of_nat n)%Z ->
  Rsum n (fun k => cos (a + IZR p * (2 * PI * INR k / INR n))) = 0.
Proof.
  intros Hn Hp. pose proof (cos_sum_1d a p (Z.of_nat n) ltac:(lia)) as S. rewrite Nat2Z.id in S.
  rewrite Z.mod_small in S by lia. destruct (Z.eqb_spec p 0); [lia|].
  rewrite <- S. apply Rsum_ext. intros k _. now rewrite angle_form.
Qed.
Lemma sum_cos1 n : (2 <= n)%nat -> Rsum n (fun k => cos (2 * PI * INR k / INR n)) = 0.
Proof.
  intros H. rewrite <- (sum_cos n 1 0) by lia. apply Rsum_ext. intros k _. f_equal. lra.
Qed.
Lemma sum_sin1 n : (2 <= n)%nat -> Rsum n (fun k => sin (2 * PI * INR k / INR n)) = 0.
Proof.
  intros H. rewrite <- (sum_cos n 1 (- (PI / 2))) by lia. apply Rsum_ext. intros k _.
  rewrite <- cos_shift. rewrite <- cos_neg. f_equal. lra.
Qed.
Lemma sum_cos2 n : (3 <= n)%nat -> Rsum n (fun k => cos (2 * (2 * PI * INR k / INR n))) = 0.
Proof.
  intros H. rewrite <- (sum_cos n 2 0) by lia. apply Rsum_ext. intros k _. f_equal. lra.
Qed.
Lemma sum_sin2 n : (3 <= n)%nat -> Rsum n (fun k => sin (2 * (2 * PI * INR k / INR n))) = 0.
Proof.
  intros H. rewrite <- (sum_cos n 2 (- (PI / 2))) by lia. apply Rsum_ext. intros k _.
  rewrite <- cos_shift. rewrite <- cos_neg. f_equal. lra.
Qed.

Lemma mean_affine a b c ctr rho n : (2 <= n)%nat ->
  orbit_mean (quadratic a b c 0 0 0) ctr rho n = quadratic a b c 0 0 0 ctr.
Proof.
  intros H. assert (0 < INR n) by (apply lt_0_INR; lia). unfold orbit_mean.
  rewrite (Rsum_ext _ _ (fun k => quadratic a b c 0 0 0 ctr + (b * rho * cos (2 * PI * INR k / INR n) +
     c * rho * sin (2 * PI * INR k / INR n)))) by (intros; unfold quadratic, orbit_point; cbn [fst snd]; ring).
  rewrite Rsum_plus, Rsum_const, Rsum_plus, !Rsum_scal, sum_cos1, sum_sin1 by auto. field. lra.
Qed.
Lemma mean_quadratic a b c d e f ctr rho n : (3 <= n)%nat ->
  orbit_mean (quadratic a b c d e f) ctr rho n = quadratic a b c d e f ctr + rho ^ 2 / 4 * (2 * d + 2 * f).
Proof.
  intros H. assert (0 < INR n) by (apply lt_0_INR; lia). unfold orbit_mean.
  rewrite (Rsum_ext _ _ (fun k => (quadratic a b c d e f ctr + rho ^ 2 / 4 * (2 * d + 2 * f)) +
     ((b * rho + 2 * d * rho * fst ctr + e * rho * snd ctr) * cos (2 * PI * INR k / INR n) +
      (c * rho + 2 * f * rho * snd ctr + e * rho * fst ctr) * sin (2 * PI * INR k / INR n)) +
     ((rho ^ 2 / 2 * (d - f)) * cos (2 * (2 * PI * INR k / INR n)) +
      (e * rho ^ 2 / 2) * sin (2 * (2 * PI * INR k / INR n))))).
  2:{ intros k _. rewrite cos_2a, sin_2a. unfold quadratic, orbit_point; cbn [fst snd].
      generalize (2 * PI * INR k / INR n); intros t. pose proof (sin2_cos2 t) as T. unfold Rsqr in T.
      assert (S3 : (snd ctr + rho * sin t) * (snd ctr + rho * sin t) =
         snd ctr * snd ctr + 2 * rho * snd ctr * sin t + rho ^ 2 * (1 - cos t * cos t)).
      { replace (1 - cos t * cos t) with (sin t * sin t) by lra. ring. }
      assert (S4 : sin t * sin t = 1 - cos t * cos t) by lra. rewrite S4.
      rewrite (Rmult_assoc f), S3. field. }
  rewrite Rsum_plus, Rsum_plus, Rsum_const, !Rsum_plus, !Rsum_scal, sum_cos1, sum_sin1, sum_cos2, sum_sin2 by (auto; lia).
  field. lra.
Qed.
Lemma mean_bounds f ctr rho n lo hi : (0 < n)%nat ->
  (forall x, distance x ctr = Rabs rho -> lo <= f x <= hi) -> lo <= orbit_mean f ctr rho n <= hi.
Proof.
  intros Hn H. assert (P : 0 < INR n) by (apply lt_0_INR; auto).
  assert (D : forall k, distance (orbit_point ctr rho n k) ctr = Rabs rho).
  { intros k. unfold distance, orbit_point; cbn [fst snd]. set (t := 2 * PI * INR k / INR n).
    replace ((fst ctr + rho * cos t - fst ctr) ^ 2 + (snd ctr + rho * sin t - snd ctr) ^ 2)
      with (Rsqr rho * ((Rsqr (sin t)) + Rsqr (cos t))) by (unfold Rsqr; ring).
    rewrite sin2_cos2, Rmult_1_r. apply sqrt_Rsqr_abs. }
  unfold orbit_mean. split.
  - apply (Rmult_le_reg_r (INR n)); auto. unfold Rdiv. rewrite Rmult_assoc, Rinv_l, Rmult_1_r by lra.
    rewrite <- Rmult_comm, <- Rsum_const. apply Rsum_le. intros k _. apply H, D.
  - apply (Rmult_le_reg_r (INR n)); auto. unfold Rdiv. rewrite Rmult_assoc, Rinv_l, Rmult_1_r by lra.
    rewrite <- (Rmult_comm (INR n)), <- Rsum_const. apply Rsum_le. intros k _. apply H, D.
Qed.
Lemma mean_zero f ctr n : (0 < n)%nat -> orbit_mean f ctr 0 n = f ctr.
Proof.
  intros Hn. assert (P : 0 < INR n) by (apply lt_0_INR; auto). unfold orbit_mean.
  rewrite (Rsum_ext _ _ (fun _ => f ctr)).
  - rewrite Rsum_const. field. lra.
  - intros k _. f_equal. destruct ctr; unfold orbit_point; cbn [fst snd]. f_equal; ring.
Qed.
Lemma mean_linear f g a b ctr rho n :
  orbit_mean (fun x => a * f x + b * g x) ctr rho n = a * orbit_mean f ctr rho n + b * orbit_mean g ctr rho n.
Proof.
  unfold orbit_mean. rewrite Rsum_plus, !Rsum_scal. unfold Rdiv. ring.
Qed.

(** ** Circular geometry *)
Lemma circ_logical ox oy r t : 0 < r -> 0 <= t < 2 * PI ->
  pair_map (cart_circ ox oy) (pair_map (circular ox oy) (r, t)) = (r, t).
Proof.
  intros Hr Ht. unfold pair_map at 1; cbv zeta.
  pose proof (circ_left_inverse ox oy (c2 r t) Hr Ht) as L.
  pose proof (L 0%nat ltac:(lia)) as L0. pose proof (L 1%nat ltac:(lia)) as L1. cbn [c2] in L0, L1.
  f_equal; [exact L0|exact L1].
Qed.
Lemma circ_physical ox oy x : pair_map (circular ox oy) (pair_map (cart_circ ox oy) x) = x.
Proof.
  destruct x as [u v]. pose proof (circ_right_inverse ox oy (c2 u v)) as L.
  pose proof (L 0%nat ltac:(lia)) as L0. pose proof (L 1%nat ltac:(lia)) as L1.
  unfold pair_map at 1; cbv zeta. f_equal; [exact L0|exact L1].
Qed.

Lemma orbit_radius ox oy r t rho n k rmax : 0 <= r -> r + Rabs rho <= rmax ->
  let p := pair_map (cart_circ ox oy) (orbit_point (pair_map (circular ox oy) (r, t)) rho n k) in
  0 <= fst p <= rmax /\ 0 <= snd p < 2 * PI.
Proof.
  intros Hr HR. cbv zeta. rewrite pair_circ. unfold orbit_point, pair_map; cbn [fst snd cart_circ m_apply].
  rewrite cart_circ_ang. cbn [c2 fst snd]. set (s := 2 * PI * INR k / INR n).
  split; [|apply ang_range]. split; [apply sqrt_pos|].
  apply Rle_trans with (r + Rabs rho); [|exact HR].
  rewrite <- (sqrt_Rsqr (r + Rabs rho)) by (pose proof (Rabs_pos rho); lra).
  apply sqrt_le_1_alt.
  replace ((r * cos t + ox + rho * cos s - ox) * (r * cos t + ox + rho * cos s - ox) +
           (r * sin t + oy + rho * sin s - oy) * (r * sin t + oy + rho * sin s - oy))
     with (Rsqr r * (Rsqr (sin t) + Rsqr (cos t)) + Rsqr rho * (Rsqr (sin s) + Rsqr (cos s)) +
           2 * r * (rho * (cos t * cos s + sin t * sin s))) by (unfold Rsqr; ring).
  rewrite !sin2_cos2, <- cos_minus.
  assert (B : rho * cos (t - s) <= Rabs rho).
  { apply Rle_trans with (Rabs (rho * cos (t - s))); [apply Rle_abs|]. rewrite Rabs_mult.
    rewrite <- (Rmult_1_r (Rabs rho)) at 2. apply Rmult_le_compat_l; [apply Rabs_pos|].
    apply Rabs_le. pose proof (COS_bound (t - s)). lra. }
  assert (E : Rsqr rho = Rsqr (Rabs rho)) by apply Rsqr_abs. rewrite E. unfold Rsqr.
  apply Rle_trans with (r * r * 1 + Rabs rho * Rabs rho * 1 + 2 * r * Rabs rho); [|right; ring].
  apply Rplus_le_compat_l. rewrite !Rmult_assoc. apply Rmult_le_compat_l; [lra|]. apply Rmult_le_compat_l; auto.
Qed.

Section Circular.
Context {C : Type}.
Variables (ai : interpolator2 C) (ox oy : R) (nr nt : nat) (r t : nat -> R) (rho : nat -> nat -> R) (n : nat).
Notation gs := (circular_setup ox oy nr nt r t rho n).
Variables (nb : nat) (border : list nat) (order : nat -> list (nat * nat)) (corder : nat -> list nat).
Variables (A F0 : nat -> nat -> nat -> R) (A_of : (nat -> nat -> nat -> R) -> nat -> nat -> nat -> R).

Lemma gyro_quadratic rmax a b c d e f :
  (A_of = (fun _ => A) \/ (A_of = (fun F => F) /\ F0 = A)) -> once nb border ->
  (forall ib, all_pairs nr nt (order ib)) -> (forall ib, every nr (corder ib)) -> (3 <= n)%nat ->
  forall ib ir it, (ib < nb)%nat -> (ir < nr)%nat -> (S it < nt)%nat ->
  (forall p, 0 <= fst p <= rmax -> 0 <= snd p < 2 * PI ->
     i2_eval ai (i2_build ai (grid2 nr nt (A ib))) p = quadratic a b c d e f (pair_map (circular ox oy) p)) ->
  0 <= r ir -> r ir + Rabs (rho ir it) <= rmax ->
  gyro_operator ai gs border order corder A_of F0 ib ir it =
  quadratic a b c d e f (pair_map (circular ox oy) (r ir, t it)) + (rho ir it) ^ 2 / 4 * (2 * d + 2 * f).
Proof.
  intros HA HB HO HC Hn ib ir it Hb Hr Ht HI Hp HR.
  rewrite (gyro_mean ai gs nb border order corder A_of A F0); auto.
  cbn [gs_rho gs_points circular_setup]. unfold position; cbn [gs_to_phys gs_r gs_t circular_setup].
  rewrite (mean_ext _ (quadratic a b c d e f)); [apply mean_quadratic; auto|].
  intros k Hk. unfold reconstruction; cbn [gs_nr gs_nt gs_to_log circular_setup].
  destruct (orbit_radius ox oy (r ir) (t it) (rho ir it) n k rmax Hp HR) as [P Q].
  rewrite HI by auto. now rewrite circ_physical.
Qed.
Lemma gyro_affine rmax a b c :
  (A_of = (fun _ => A) \/ (A_of = (fun F => F) /\ F0 = A)) -> once nb border ->
  (forall ib, all_pairs nr nt (order ib)) -> (forall ib, every nr (corder ib)) -> (2 <= n)%nat ->
  forall ib ir it, (ib < nb)%nat -> (ir < nr)%nat -> (S it < nt)%nat ->
  (forall p, 0 <= fst p <= rmax -> 0 <= snd p < 2 * PI ->
     i2_eval ai (i2_build ai (grid2 nr nt (A ib))) p = quadratic a b c 0 0 0 (pair_map (circular ox oy) p)) ->
  0 <= r ir -> r ir + Rabs (rho ir it) <= rmax ->
  gyro_operator ai gs border order corder A_of F0 ib ir it =
  quadratic a b c 0 0 0 (pair_map (circular ox oy) (r ir, t it)).
Proof.
  intros HA HB HO HC Hn ib ir it Hb Hr Ht HI Hp HR.
  rewrite (gyro_mean ai gs nb border order corder A_of A F0); auto.
  cbn [gs_rho gs_points circular_setup]. unfold position; cbn [gs_to_phys gs_r gs_t circular_setup].
  rewrite (mean_ext _ (quadratic a b c 0 0 0)); [apply mean_affine; auto|].
  intros k Hk. unfold reconstruction; cbn [gs_nr gs_nt gs_to_log circular_setup].
  destruct (orbit_radius ox oy (r ir) (t it) (rho ir it) n k rmax Hp HR) as [P Q].
  rewrite HI by auto. now rewrite circ_physical.
Qed.
Lemma gyro_identity :
  (A_of = (fun _ => A) \/ (A_of = (fun F => F) /\ F0 = A)) -> once nb border ->
  (forall ib, all_pairs nr nt (order ib)) -> (forall ib, every nr (corder ib)) -> (0 < n)%nat ->
  forall ib ir it, (ib < nb)%nat -> (ir < nr)%nat -> (S it < nt)%nat -> rho ir it = 0 ->
  i2_eval ai (i2_build ai (grid2 nr nt (A ib))) (r ir, t it) = A ib ir it -> 0 < r ir -> 0 <= t it < 2 * PI ->
  gyro_operator ai gs border order corder A_of F0 ib ir it = A ib ir it.
Proof.
  intros HA HB HO HC Hn ib ir it Hb Hr Ht HR HI Hp Hq.
  rewrite (gyro_mean ai gs nb border order corder A_of A F0); auto.
  cbn [gs_rho gs_points circular_setup]. rewrite HR, mean_zero by auto. unfold position, reconstruction.
  cbn [gs_to_phys gs_r gs_t circular_setup gs_to_log gs_nr gs_nt]. now rewrite circ_logical.
Qed.
End Circular.

Lemma gyro_last_wrong {C} (ai : interpolator2 C) gs nb border order corder A_of A F0 a b c :
  (A_of = (fun _ => A) \/ (A_of = (fun F => F) /\ F0 = A)) -> once nb border ->
  (forall ib, all_pairs (gs_nr gs) (gs_nt gs) (order ib)) -> (forall ib, every (gs_nr gs) (corder ib)) ->
  (2 <= gs_points gs)%nat ->
  forall ib ir, (ib < nb)%nat -> (ir < gs_nr gs)%nat -> (0 < gs_nt gs)%nat ->
  (forall x, reconstruction ai gs (A ib) x = quadratic a b c 0 0 0 x) ->
  quadratic a b c 0 0 0 (position gs ir (gs_nt gs - 1)) <> quadratic a b c 0 0 0 (position gs ir 0) ->
  gyro_operator ai gs border order corder A_of F0 ib ir (gs_nt gs - 1)%nat <>
  orbit_mean (reconstruction ai gs (A ib)) (position gs ir (gs_nt gs - 1)) (gs_rho gs ir (gs_nt gs - 1)%nat) (gs_points gs).
Proof.
  intros HA HB HO HC Hn ib ir Hb Hr Ht HI HD.
  rewrite (gyro_last ai gs nb border order corder A_of A F0); auto.
  rewrite !(mean_ext (reconstruction ai gs (A ib)) (quadratic a b c 0 0 0)) by (intros; apply HI).
  rewrite !mean_affine by auto. auto.
Qed.
Lemma gyro_bounds {C} (ai : interpolator2 C) gs nb border order corder A_of A F0 lo hi :
  (A_of = (fun _ => A) \/ (A_of = (fun F => F) /\ F0 = A)) -> once nb border ->
  (forall ib, all_pairs (gs_nr gs) (gs_nt gs) (order ib)) -> (forall ib, every (gs_nr gs) (corder ib)) ->
  (0 < gs_points gs)%nat -> (0 < gs_nt gs)%nat ->
  forall ib ir it, (ib < nb)%nat -> (ir < gs_nr gs)%nat -> (it < gs_nt gs)%nat ->
  (forall jt x, (jt < gs_nt gs)%nat -> distance x (position gs ir jt) = Rabs (gs_rho gs ir jt) ->
     lo <= reconstruction ai gs (A ib) x <= hi) ->
  lo <= gyro_operator ai gs border order corder A_of F0 ib ir it <= hi.
Proof.
  intros HA HB HO HC Hn Hnt ib ir it Hb Hr Ht HI.
  rewrite (operator_spec ai gs nb border order corder A_of A F0); auto.
  apply mean_bounds; auto. intros x D. apply (HI (if (it =? gs_nt gs - 1)%nat then 0%nat else it)); auto.
  destruct (it =? gs_nt gs - 1)%nat; lia.
Qed.
Lemma gyro_linear {C} (ai : interpolator2 C) gs nb border order corder A B D F0 F1 F2 a b :
  once nb border ->
  (forall ib, all_pairs (gs_nr gs) (gs_nt gs) (order ib)) -> (forall ib, every (gs_nr gs) (corder ib)) ->
  (forall ib ir it, D ib ir it = a * A ib ir it + b * B ib ir it) ->
  (forall f g p, i2_eval ai (i2_build ai (grid2 (gs_nr gs) (gs_nt gs) (fun i j => a * f i j + b * g i j))) p =
     a * i2_eval ai (i2_build ai (grid2 (gs_nr gs) (gs_nt gs) f)) p +
     b * i2_eval ai (i2_build ai (grid2 (gs_nr gs) (gs_nt gs) g)) p) ->
  forall ib ir it, (ib < nb)%nat -> (ir < gs_nr gs)%nat -> (it < gs_nt gs)%nat ->
  gyro_operator ai gs border order corder (fun _ => D) F0 ib ir it =
  a * gyro_operator ai gs border order corder (fun _ => A) F1 ib ir it +
  b * gyro_operator ai gs border order corder (fun _ => B) F2 ib ir it.
Proof.
  intros HB HO HC HD HL ib ir it Hb Hr Ht.
  rewrite (operator_spec ai gs nb border order corder (fun _ => D) D F0); auto.
  rewrite (operator_spec ai gs nb border order corder (fun _ => A) A F1); auto.
  rewrite (operator_spec ai gs nb border order corder (fun _ => B) B F2); auto.
  rewrite <- mean_linear. apply mean_ext. intros k _. unfold reconstruction. rewrite <- HL.
  f_equal. f_equal. apply grid2_ext. intros; apply HD.
Qed.

(** ** A concrete instance: one ring of four points, affine interpolation *)
Definition ring_interp : interpolator2 (R * R * R) :=
  {| i2_build := fun v =>
       let w := nth 0 v [] in let a := (nth 0 w 0 + nth 2 w 0) / 2 in
       (a, (nth 0 w 0 - nth 2 w 0) / 2, nth 1 w 0 - a);
     i2_eval := fun c p => let '(a, b, d) := c in a + b * (fst p * cos (snd p)) + d * (fst p * sin (snd p)) |}.
Definition ring_gs (n : nat) (rho : R) : gyro_setup :=
  circular_setup 0 0 1 4 (fun _ => 1) (fun j => INR j * (PI / 2)) (fun _ _ => rho) n.
Definition ring_field (ib ir it : nat) : R := cos (INR it * (PI / 2)).
Definition ring_order : list (nat * nat) := [(0, 2); (0, 0); (0, 3); (0, 1)]%nat.

Lemma ring_reconstruct n rho x : reconstruction ring_interp (ring_gs n rho) (ring_field 0) x = quadratic 0 1 0 0 0 0 x.
Proof.
  unfold reconstruction, ring_interp, ring_gs; cbn [i2_build i2_eval gs_nr gs_nt circular_setup gs_to_log].
  unfold grid2, ring_field. cbn [seq map nth].
  replace (cos (INR 0 * (PI / 2))) with 1 by (cbn [INR]; rewrite Rmult_0_l; now rewrite cos_0).
  replace (cos (INR 1 * (PI / 2))) with 0 by (cbn [INR]; rewrite Rmult_1_l; now rewrite cos_PI2).
  replace (cos (INR 2 * (PI / 2))) with (-1) by (cbn [INR]; replace ((1 + 1) * (PI / 2)) with PI by field; now rewrite cos_PI).
  set (p := pair_map (cart_circ 0 0) x).
  assert (E : pair_map (circular 0 0) p = x) by apply circ_physical.
  rewrite (surjective_pairing p), pair_circ in E. rewrite <- E. unfold quadratic; cbn [fst snd]. field.
Qed.
Lemma ring_schedule : once 1 [0%nat] /\ all_pairs 1 4 ring_order /\ every 1 [0%nat].
Proof.
  assert (E : every 1 [0%nat]) by (intros i; cbn; lia).
  split; [split; auto; repeat constructor; cbn; tauto|]. split; auto.
  intros ir it. unfold ring_order; cbn. split.
  - intros H. repeat (destruct H as [H|H]; [injection H; intros; lia|]). contradiction.
  - intros [H1 H2]. assert (ir = 0%nat) as -> by lia.
    assert (it = 0 \/ it = 1 \/ it = 2 \/ it = 3)%nat as [->| [->| [->| ->]]] by lia; auto.
Qed.
Lemma ring_position j : position (ring_gs 2 1) 0 j = (cos (INR j * (PI / 2)), sin (INR j * (PI / 2))).
Proof. unfold position, ring_gs, circular_setup; cbn [gs_to_phys gs_r gs_t]. rewrite pair_circ. f_equal; ring. Qed.
Lemma ring_wrong :
  quadratic 0 1 0 0 0 0 (position (ring_gs 2 1) 0 (4 - 1)) <> quadratic 0 1 0 0 0 0 (position (ring_gs 2 1) 0 0).
Proof.
  rewrite !ring_position. unfold quadratic; cbn [fst snd Nat.sub].
  replace (cos (INR 0 * (PI / 2))) with 1 by (cbn [INR]; rewrite Rmult_0_l; now rewrite cos_0).
  replace (cos (INR 3 * (PI / 2))) with 0; [lra|].
  cbn [INR]. replace ((1 + 1 + 1) * (PI / 2)) with (3 * (PI / 2)) by field. symmetry. apply cos_3PI2.
Qed.
Lemma ring_result border order corder F0 : once 1 border -> (forall ib, all_pairs 1 4 (order ib)) ->
  (forall ib, every 1 (corder ib)) ->
  let out := gyro_operator ring_interp (ring_gs 2 1) border order corder (fun _ => ring_field) F0 in
  out 0%nat 0%nat 1%nat = 0 /\ out 0%nat 0%nat 2%nat = -1 /\ out 0%nat 0%nat 3%nat = 1.
Proof.
  intros HB HO HC. cbv zeta.
  assert (K : forall j, (S j < 4)%nat ->
    gyro_operator ring_interp (ring_gs 2 1) border order corder (fun _ => ring_field) F0 0%nat 0%nat j = cos (INR j * (PI / 2))).
  { intros j Hj. rewrite (gyro_mean ring_interp (ring_gs 2 1) 1 border order corder _ ring_field F0); auto.
    rewrite (mean_ext _ (quadratic 0 1 0 0 0 0)) by (intros; apply ring_reconstruct).
    rewrite mean_affine, ring_position by (cbn; lia). unfold quadratic; cbn [fst snd]. ring. }
  split; [|split].
  - rewrite K by lia. cbn [INR]. rewrite Rmult_1_l. apply cos_PI2.
  - rewrite K by lia. cbn [INR]. replace ((1 + 1) * (PI / 2)) with PI by field. apply cos_PI.
  - pose proof (gyro_last ring_interp (ring_gs 2 1) 1 border order corder (fun _ => ring_field) ring_field F0) as L.
    specialize (L (or_introl eq_refl) HB HO HC 0%nat 0%nat ltac:(lia) ltac:(cbn; lia) ltac:(cbn; lia)).
    cbn [gs_nt ring_gs circular_setup Nat.sub] in L. rewrite L.
    rewrite (mean_ext _ (quadratic 0 1 0 0 0 0)) by (intros; apply ring_reconstruct).
    rewrite mean_affine, ring_position by (cbn; lia). unfold quadratic; cbn [fst snd INR]. rewrite Rmult_0_l, cos_0. ring.
Qed.
