(** Proofs about the periodic restriction of coordinates and about the integer helpers. *)
From Verif Require Import MathModel MathSpec.
From Coq Require Import Lra Lia ZifyBool.
Open Scope R_scope.

Lemma Rltb_spec x y : Bool.reflect (x < y) (Rltb x y).
Proof. unfold Rltb. destruct (Rlt_dec x y); constructor; auto. Qed.
Lemma Rleb_spec x y : Bool.reflect (x <= y) (Rleb x y).
Proof. unfold Rleb. destruct (Rle_dec x y); constructor; auto. Qed.

Lemma cos_shift_Z x k : cos (x + 2 * IZR k * PI) = cos x.
Proof.
  destruct (Z_le_gt_dec 0 k) as [H|H].
  - rewrite <- (Z2Nat.id k) by lia. rewrite <- INR_IZR_INZ. apply cos_period.
  - rewrite <- (cos_period (x + 2 * IZR k * PI) (Z.to_nat (- k))). f_equal.
    rewrite INR_IZR_INZ, Z2Nat.id by lia. rewrite opp_IZR. ring.
Qed.
Lemma sin_shift_Z x k : sin (x + 2 * IZR k * PI) = sin x.
Proof.
  destruct (Z_le_gt_dec 0 k) as [H|H].
  - rewrite <- (Z2Nat.id k) by lia. rewrite <- INR_IZR_INZ. apply sin_period.
  - rewrite <- (sin_period (x + 2 * IZR k * PI) (Z.to_nat (- k))). f_equal.
    rewrite INR_IZR_INZ, Z2Nat.id by lia. rewrite opp_IZR. ring.
Qed.

(** every real is in one period *)
Lemma period_repr L x : 0 < L -> exists k, 0 <= x - IZR k * L < L.
Proof.
  intros HL. exists (Int_part (x / L)). destruct (base_Int_part (x / L)) as [A B].
  assert (E : x = x / L * L) by (field; lra).
  assert (A' : IZR (Int_part (x / L)) * L <= x / L * L) by (apply Rmult_le_compat_r; lra).
  assert (B' : (x / L - IZR (Int_part (x / L))) * L < 1 * L) by (apply Rmult_lt_compat_r; lra).
  lra.
Qed.

Lemma angle_fold r : 0 <= r < 2 * PI ->
  let a := copysign (acos (cos r)) (sin r) in
  (if Rlt_dec a 0 then a + 2 * PI else a) = r.
Proof.
  intros H. pose proof PI_RGT_0. cbv zeta.
  destruct (Rle_lt_dec r PI) as [Hr|Hr].
  - unfold copysign. assert (0 <= sin r) by (apply sin_ge_0; lra).
    destruct (Rlt_dec (sin r) 0); [lra|]. rewrite acos_cos by lra. rewrite Rabs_right by lra.
    destruct (Rlt_dec r 0); lra.
  - unfold copysign. assert (sin r < 0) by (apply sin_lt_0; lra).
    destruct (Rlt_dec (sin r) 0); [|lra].
    replace (cos r) with (cos (2 * PI - r)).
    + rewrite acos_cos by lra. rewrite Rabs_right by lra. destruct (Rlt_dec (- (2 * PI - r)) 0); lra.
    + rewrite <- (cos_shift_Z (2 * PI - r) (-1)). rewrite <- (cos_neg r). f_equal. ring.
Qed.

Lemma fold_far_spec L x : 0 < L ->
  congruent L (fold_far x L) x /\ - (10 * L) <= fold_far x L <= 10 * L /\
  (Rabs x <= 10 * L -> fold_far x L = x).
Proof.
  intros HL. unfold fold_far. destruct (Rlt_dec (10 * L) (Rabs x)) as [H|H].
  2:{ assert (Rabs x <= 10 * L) by lra. split; [exists 0%Z; ring|].
      split; auto. unfold Rabs in *. destruct (Rcase_abs x); lra. }
  pose proof PI_RGT_0 as HP. cbv zeta.
  destruct (period_repr L x HL) as [k Hk].
  set (r := (x - IZR k * L) * (2 * PI / L)).
  assert (Hpf : 0 < 2 * PI / L) by (apply Rdiv_lt_0_compat; lra).
  assert (Hr : 0 <= r < 2 * PI).
  { split.
    - unfold r. apply Rmult_le_pos; lra.
    - unfold r. replace (2 * PI) with (L * (2 * PI / L)) at 2 by (field; lra).
      apply Rmult_lt_compat_r; lra. }
  assert (E : x * (2 * PI / L) = r + 2 * IZR k * PI) by (unfold r; field; lra).
  rewrite E, cos_shift_Z, sin_shift_Z.
  pose proof (angle_fold r Hr) as AF. cbv zeta in AF.
  assert (G : forall a : R, (if Rlt_dec a 0 then (a + 2 * PI) / (2 * PI / L) else a / (2 * PI / L))
                = (if Rlt_dec a 0 then a + 2 * PI else a) / (2 * PI / L)).
  { intros a. destruct (Rlt_dec a 0); reflexivity. }
  rewrite G, AF.
  assert (V : r / (2 * PI / L) = x - IZR k * L) by (unfold r; field; split; lra).
  rewrite V. split; [exists (- k)%Z; rewrite opp_IZR; ring|]. split; [lra|]. intros; lra.
Qed.

Lemma while_up fuel lo L c : 0 < L -> lo - INR fuel * L <= c ->
  exists c', while_loop fuel (fun c => Rltb c lo) (fun c => c + L) c = Some c' /\
    congruent L c' c /\ lo <= c' /\ (c' = c \/ c' < lo + L).
Proof.
  intros HL. revert c. induction fuel as [|n IH]; intros c H.
  - simpl in *. destruct (Rltb_spec c lo); [lra|]. exists c.
    repeat split; auto; [exists 0%Z; ring|lra].
  - cbn [while_loop]. destruct (Rltb_spec c lo).
    + rewrite S_INR in H. destruct (IH (c + L)) as [c' [E [[k K] [A B]]]]; [lra|].
      exists c'. split; auto. split; [|split; [auto|right; destruct B; lra]].
      exists (k + 1)%Z. rewrite plus_IZR. lra.
    + exists c. repeat split; auto; [exists 0%Z; ring|lra].
Qed.
Lemma while_down fuel lo L c : 0 < L -> lo <= c < lo + L + INR fuel * L ->
  exists c', while_loop fuel (fun c => Rleb (lo + L) c) (fun c => c - L) c = Some c' /\
    congruent L c' c /\ lo <= c' < lo + L.
Proof.
  intros HL. revert c. induction fuel as [|n IH]; intros c H.
  - simpl in *. destruct (Rleb_spec (lo + L) c); [lra|]. exists c.
    repeat split; auto; [exists 0%Z; ring|lra|lra].
  - cbn [while_loop]. destruct (Rleb_spec (lo + L) c).
    + rewrite S_INR in H. destruct (IH (c - L)) as [c' [E [[k K] A]]]; [lra|].
      exists c'. split; auto. split; auto.
      exists (k - 1)%Z. rewrite minus_IZR. lra.
    + exists c. repeat split; auto; [exists 0%Z; ring|lra|lra].
Qed.

Lemma congruent_trans L x y z : congruent L x y -> congruent L y z -> congruent L x z.
Proof. intros [a A] [b B]. exists (a + b)%Z. rewrite plus_IZR. rewrite A, B. ring. Qed.

Lemma restrict_spec fuel x_min L x : 0 < L -> (10 <= fuel)%nat ->
  exists y, restrict_to_idx_range fuel x_min L x = Some y /\
    x_min <= y < x_min + L /\ congruent L y x.
Proof.
  intros HL HF. unfold restrict_to_idx_range.
  destruct (fold_far_spec L (x - x_min) HL) as [C [B _]].
  set (c := fold_far (x - x_min) L + x_min) in *.
  assert (HF' : 10 <= INR fuel) by (replace 10 with (INR 10) by (simpl; ring); apply le_INR; lia).
  assert (HM : 10 * L <= INR fuel * L) by (apply Rmult_le_compat_r; lra).
  assert (Cc : congruent L c x).
  { destruct C as [k K]. exists k. unfold c. lra. }
  destruct (while_up fuel x_min L c HL) as [c1 [E1 [C1 [A1 B1]]]]; [unfold c; lra|].
  rewrite E1.
  destruct (while_down fuel x_min L c1 HL) as [c2 [E2 [C2 A2]]].
  { destruct B1 as [->|B1]; [unfold c; unfold c in A1; lra|lra]. }
  exists c2. split; auto. split; auto. eapply congruent_trans; [exact C2|]. eapply congruent_trans; eauto.
Qed.

Lemma restrict_id fuel x_min L x : 0 < L -> x_min <= x < x_min + L ->
  restrict_to_idx_range fuel x_min L x = Some x.
Proof.
  intros HL H. unfold restrict_to_idx_range.
  destruct (fold_far_spec L (x - x_min) HL) as [_ [_ I]].
  rewrite I. 2:{ rewrite Rabs_right; lra. }
  replace (x - x_min + x_min) with x by ring.
  destruct fuel; cbn [while_loop];
    (destruct (Rltb_spec x x_min); [lra|]; destruct (Rleb_spec (x_min + L) x); [lra|]; reflexivity).
Qed.

Lemma congruent_unique L lo x y : 0 < L -> lo <= x < lo + L -> lo <= y < lo + L -> congruent L x y -> x = y.
Proof.
  intros HL Hx Hy [k K].
  assert (Hk : k = 0%Z).
  { destruct (Z_lt_le_dec k 0) as [H|H].
    - assert (IZR k <= -1) by (apply IZR_le; lia). nra.
    - destruct (Z_lt_le_dec 0 k) as [H'|H']; [|lia].
      assert (1 <= IZR k) by (apply IZR_le; lia). nra. }
  rewrite Hk in K. lra.
Qed.

Lemma restrict_congruent_args fuel x_min L x x' : 0 < L -> (10 <= fuel)%nat -> congruent L x x' ->
  restrict_to_idx_range fuel x_min L x = restrict_to_idx_range fuel x_min L x'.
Proof.
  intros HL HF HC.
  destruct (restrict_spec fuel x_min L x HL HF) as [y [E [R C]]].
  destruct (restrict_spec fuel x_min L x' HL HF) as [y' [E' [R' C']]].
  rewrite E, E'. f_equal. apply (congruent_unique L x_min); auto.
  eapply congruent_trans; [exact C|]. eapply congruent_trans; [exact HC|].
  destruct C' as [k K]. exists (- k)%Z. rewrite opp_IZR. lra.
Qed.

Lemma bspline_restrict_spec rmin L x : 0 < L ->
  rmin <= restrict_to_bspline_domain rmin L x <= rmin + L /\
  congruent L (restrict_to_bspline_domain rmin L x) x /\
  (rmin <= x <= rmin + L -> restrict_to_bspline_domain rmin L x = x).
Proof.
  intros HL. unfold restrict_to_bspline_domain.
  assert (G : rmin <= x - IZR (Int_part ((x - rmin) / L)) * L < rmin + L).
  { destruct (base_Int_part ((x - rmin) / L)) as [A B].
    assert (E : (x - rmin) / L * L = x - rmin) by (field; lra).
    assert (A' : IZR (Int_part ((x - rmin) / L)) * L <= (x - rmin) / L * L) by (apply Rmult_le_compat_r; lra).
    assert (B' : ((x - rmin) / L - IZR (Int_part ((x - rmin) / L))) * L < 1 * L) by (apply Rmult_lt_compat_r; lra).
    lra. }
  assert (C : congruent L (x - IZR (Int_part ((x - rmin) / L)) * L) x).
  { exists (- Int_part ((x - rmin) / L))%Z. rewrite opp_IZR. ring. }
  destruct (Rlt_dec x rmin); [repeat split; try lra; auto|].
  destruct (Rlt_dec (rmin + L) x); [repeat split; try lra; auto|].
  repeat split; try lra. exists 0%Z. ring.
Qed.

(** ** Integer helpers *)
Lemma Int_part_unique r z : IZR z <= r < IZR z + 1 -> Int_part r = z.
Proof.
  intros H. unfold Int_part. rewrite <- (tech_up r (z + 1)); rewrite ?plus_IZR; [lia|lra|lra].
Qed.
Lemma Int_part_div x y : (y <> 0)%Z -> Int_part (IZR x / IZR y) = (x / y)%Z.
Proof.
  intros Hy. apply Int_part_unique.
  assert (Hyr : IZR y <> 0) by (apply not_0_IZR; auto).
  pose proof (Z_div_mod_eq_full x y) as E.
  assert (ER : IZR x = IZR y * IZR (x / y) + IZR (x mod y)) by (rewrite <- mult_IZR, <- plus_IZR; f_equal; auto).
  assert (Q : IZR x / IZR y = IZR (x / y) + IZR (x mod y) / IZR y) by (rewrite ER; field; auto).
  rewrite Q.
  assert (0 <= IZR (x mod y) / IZR y < 1); [|lra].
  destruct (Z_lt_le_dec 0 y) as [H|H].
  - assert (0 < IZR y) by (apply IZR_lt; lia).
    pose proof (Z.mod_pos_bound x y H) as [A B].
    apply IZR_le in A. apply IZR_lt in B. split.
    + apply Rmult_le_pos; [auto|]. left. apply Rinv_0_lt_compat; auto.
    + apply Rmult_lt_reg_r with (IZR y); auto. unfold Rdiv. rewrite Rmult_assoc, Rinv_l by auto. lra.
  - assert (IZR y < 0) by (apply IZR_lt; lia).
    pose proof (Z.mod_neg_bound x y ltac:(lia)) as [A B].
    apply IZR_lt in A. apply IZR_le in B.
    replace (IZR (x mod y) / IZR y) with ((- IZR (x mod y)) / (- IZR y)) by (field; auto). split.
    + apply Rmult_le_pos; [lra|]. left. apply Rinv_0_lt_compat; lra.
    + apply Rmult_lt_reg_r with (- IZR y); [lra|]. unfold Rdiv. rewrite Rmult_assoc, Rinv_l by lra. lra.
Qed.

Lemma modulo_spec x y : (y <> 0)%Z -> modulo x y = (x mod y)%Z.
Proof. intros H. unfold modulo. rewrite Int_part_div by auto. rewrite Z.mod_eq by auto. reflexivity. Qed.

Lemma modulo_r_spec x y : 0 < y -> 0 <= modulo_r x y < y /\ congruent y (modulo_r x y) x.
Proof.
  intros HL. unfold modulo_r. split.
  - destruct (base_Int_part (x / y)) as [A B].
    assert (E : x / y * y = x) by (field; lra).
    assert (A' : IZR (Int_part (x / y)) * y <= x / y * y) by (apply Rmult_le_compat_r; lra).
    assert (B' : (x / y - IZR (Int_part (x / y))) * y < 1 * y) by (apply Rmult_lt_compat_r; lra).
    lra.
  - exists (- Int_part (x / y))%Z. rewrite opp_IZR. ring.
Qed.

Lemma pow_loop a n : for_loop n (fun _ r => r * a) 1 = a ^ n.
Proof. induction n; simpl; [reflexivity|]. rewrite IHn. ring. Qed.

Lemma ipow_u_spec a n : ipow_u a n = a ^ n.
Proof. apply pow_loop. Qed.

Lemma ipow_i_spec a i : (int_min < i <= int_max)%Z ->
  ipow_i a i = Ok (powerRZ a i).
Proof.
  intros H. unfold ipow_i, powerRZ. destruct i as [|p|p].
  - reflexivity.
  - cbn [Z.ltb Z.compare]. rewrite pow_loop. rewrite Z2Nat.inj_pos. reflexivity.
  - cbn [Z.ltb Z.compare]. destruct (Z.eqb_spec (Z.neg p) int_min); [lia|].
    rewrite pow_loop. cbn [Z.opp]. rewrite Z2Nat.inj_pos. f_equal. unfold Rdiv. ring.
Qed.

Fixpoint zfact (n : nat) : Z := match n with O => 1 | S k => Z.of_nat n * zfact k end%Z.
Lemma zfact_fact n : zfact n = Z.of_nat (fact n).
Proof.
  induction n; [reflexivity|]. rewrite fact_simpl, Nat2Z.inj_mul, <- IHn. reflexivity.
Qed.
Lemma factorial_spec f : factorial f = (Z.of_nat (fact f) mod two64)%Z.
Proof.
  rewrite <- zfact_fact. unfold factorial. destruct f as [|f]; [reflexivity|].
  replace (S f - 1)%nat with f by lia.
  induction f as [|f IH]; [reflexivity|].
  cbn [for_loop]. rewrite IH. change (zfact (S (S f))) with (Z.of_nat (S (S f)) * zfact (S f))%Z.
  rewrite Z.mul_mod_idemp_l by (unfold two64; lia). f_equal. lia.
Qed.
Lemma factorial_exact f : (f <= 20)%nat -> factorial f = Z.of_nat (fact f).
Proof.
  intros H. rewrite factorial_spec. rewrite <- zfact_fact. apply Z.mod_small.
  do 21 (destruct f as [|f]; [unfold two64; vm_compute; split; [discriminate|reflexivity]|]). lia.
Qed.
Lemma factorial_21 : factorial 21 <> Z.of_nat (fact 21).
Proof.
  rewrite factorial_spec, <- zfact_fact. vm_compute. discriminate.
Qed.

Lemma neg_1_pow_nonneg n : (0 <= n)%Z -> IZR (neg_1_pow n) = (-1) ^ (Z.to_nat n).
Proof.
  intros H. unfold neg_1_pow. rewrite Z.rem_mod_nonneg by lia.
  rewrite <- (Z2Nat.id n) at 1 by lia. induction (Z.to_nat n) as [|k IH]; [simpl; lra|].
  cbn [pow]. rewrite <- IH. rewrite <- mult_IZR. f_equal.
  rewrite !Zmod_odd. rewrite Nat2Z.inj_succ, Z.odd_succ, <- Z.negb_odd.
  destruct (Z.odd (Z.of_nat k)); reflexivity.
Qed.
Lemma neg_1_pow_even n : Z.Even n -> neg_1_pow n = 1%Z.
Proof.
  intros [k ->]. unfold neg_1_pow. rewrite (Z.mul_comm 2 k) at 1. rewrite Z.rem_mul by lia. reflexivity.
Qed.
Lemma neg_1_pow_neg_odd n : (n < 0)%Z -> Z.Odd n -> neg_1_pow n = 3%Z.
Proof.
  intros H [k Hk]. unfold neg_1_pow.
  assert (Z.rem n 2 = -1)%Z; [|lia].
  replace n with (- (- n))%Z by ring. rewrite Z.rem_opp_l by lia.
  rewrite Z.rem_mod_nonneg by lia. rewrite Zmod_odd.
  replace (Z.odd (- n)) with true; [reflexivity|].
  rewrite Z.odd_opp. symmetry. apply Z.odd_spec. exists k; auto.
Qed.

(** ** Small matrices *)
Ltac small i := destruct i as [|[|[|]]]; try lia.
Lemma inverse2_right M : determinant2 M <> 0 -> is_identity 2 (mmul 2 M (inverse2 M)).
Proof.
  intros H i j Hi Hj. unfold mmul. cbn [Rsum]. unfold inverse2 in *. cbv zeta in *.
  unfold determinant2 in *. small i; small j; simpl; field; auto.
Qed.
Lemma inverse2_left M : determinant2 M <> 0 -> is_identity 2 (mmul 2 (inverse2 M) M).
Proof.
  intros H i j Hi Hj. unfold mmul. cbn [Rsum]. unfold inverse2 in *. cbv zeta in *.
  unfold determinant2 in *. small i; small j; simpl; field; auto.
Qed.
Lemma inverse3_right M : determinant3 M <> 0 -> is_identity 3 (mmul 3 M (inverse3 M)).
Proof.
  intros H i j Hi Hj. unfold mmul. cbn [Rsum]. unfold inverse3 in *. cbv zeta in *.
  unfold determinant3 in *. small i; small j; simpl; field; auto.
Qed.
Lemma inverse3_left M : determinant3 M <> 0 -> is_identity 3 (mmul 3 (inverse3 M) M).
Proof.
  intros H i j Hi Hj. unfold mmul. cbn [Rsum]. unfold inverse3 in *. cbv zeta in *.
  unfold determinant3 in *. small i; small j; simpl; field; auto.
Qed.
Lemma det2_mul A B : determinant2 (mmul 2 A B) = determinant2 A * determinant2 B.
Proof. unfold determinant2, mmul. cbn [Rsum]. ring. Qed.
Lemma det3_mul A B : determinant3 (mmul 3 A B) = determinant3 A * determinant3 B.
Proof. unfold determinant3, mmul. cbn [Rsum]. ring. Qed.

(** ** Spline cache *)
Section Cache.
  Context {F C : Type} (build : F -> C).
  Lemma cache_run_spec d f calls :
    sc_coeffs (cache_run build ((d, f) :: calls)) = option_map build (last_with d calls (Some f)).
  Proof.
    unfold cache_run. cbn [fold_left fst snd].
    set (flags := fun (s : spline_cache C) =>
       match d with Dim1 => sc_dim1 s = true /\ sc_dim2 s = false
                  | Dim2 => sc_dim1 s = false /\ sc_dim2 s = true end).
    assert (G : forall calls s g, flags s -> sc_coeffs s = Some (build g) ->
      sc_coeffs (fold_left (fun s c => compute_coeffs build (fst c) (snd c) s) calls s)
      = option_map build (last_with d calls (Some g))).
    { clear f calls. intros calls. induction calls as [|[d' f] t IH]; intros s g Hs Hc; [exact Hc|].
      cbn [fold_left fst snd last_with].
      assert (Hn : flags (compute_coeffs build d' f s) /\ sc_coeffs (compute_coeffs build d' f s) = Some (build (if same_dim d d' then f else g))).
      { unfold flags, compute_coeffs, same_dim in *. destruct d, d', Hs as [H1 H2]; rewrite ?H1, ?H2; simpl; auto. }
      destruct Hn as [Hf Hc']. rewrite (IH _ _ Hf Hc'). destruct (same_dim d d'); reflexivity. }
    apply G; unfold flags, compute_coeffs, cache_new; destruct d; simpl; auto.
  Qed.

  (** the documented usage: at every iteration both dimensions are asked for with the same field *)
  Lemma last_with_app d c1 c2 acc : last_with d (c1 ++ c2) acc = last_with d c2 (last_with d c1 acc : option F).
  Proof.
    revert acc. induction c1 as [|[d' f] t IH]; intros acc; [reflexivity|]. cbn [app last_with]. apply IH.
  Qed.
  Lemma iterations_last d fields (acc : option F) :
    last_with d (iterations d fields) acc = match rev fields with [] => acc | f :: _ => Some f end.
  Proof.
    revert acc. induction fields as [|f t IH]; intros acc; [reflexivity|].
    cbn [iterations flat_map app last_with]. fold (iterations d t).
    assert (E1 : same_dim d d = true) by (destruct d; reflexivity).
    assert (E2 : same_dim d (other_dim d) = false) by (destruct d; reflexivity).
    rewrite E1, E2, IH. cbn [rev]. destruct (rev t); reflexivity.
  Qed.
  Lemma documented_usage d fields f :
    sc_coeffs (cache_run build (iterations d fields ++ [(d, f)])) = Some (build f) /\
    sc_coeffs (cache_run build (iterations d (fields ++ [f]))) = Some (build f).
  Proof.
    assert (E1 : same_dim d d = true) by (destruct d; reflexivity).
    assert (E2 : same_dim d (other_dim d) = false) by (destruct d; reflexivity).
    assert (G : forall calls, last_with d calls None = Some f ->
      (exists c f0, calls = (d, f0) :: c) -> sc_coeffs (cache_run build calls) = Some (build f)).
    { intros calls H [c [f0 ->]]. rewrite cache_run_spec. cbn [last_with] in H. rewrite E1 in H.
      rewrite H. reflexivity. }
    split; apply G.
    - rewrite last_with_app. cbn [last_with]. rewrite E1. reflexivity.
    - destruct fields; cbn; eauto.
    - rewrite iterations_last, rev_app_distr. reflexivity.
    - destruct fields; cbn; eauto.
  Qed.
End Cache.
