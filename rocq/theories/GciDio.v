(** The diocotron instability: dispersion relation and densities. *)
From Coquelicot Require Import Coquelicot.
From Verif Require Import Lib DerivModel MathModel RestrictProofs GciModel GciSpec.
Open Scope R_scope.

Lemma leb_true x y : x <= y -> leb x y = true.
Proof. intros. unfold leb. destruct (Rle_dec x y); [reflexivity|lra]. Qed.
Lemma leb_false x y : y < x -> leb x y = false.
Proof. intros. unfold leb. destruct (Rle_dec x y); [lra|reflexivity]. Qed.
Lemma ltb_true x y : x < y -> ltb x y = true.
Proof. intros. unfold ltb. destruct (Rlt_dec x y); [reflexivity|lra]. Qed.
Lemma ltb_false x y : y <= x -> ltb x y = false.
Proof. intros. unfold ltb. destruct (Rlt_dec x y); [lra|reflexivity]. Qed.
Lemma nz_true x : x <> 0 -> nz x = true.
Proof. intros. unfold nz. destruct (Req_EM_T x 0); [contradiction|reflexivity]. Qed.
Lemma nz_zero : nz 0 = false.
Proof. unfold nz. destruct (Req_EM_T 0 0); [reflexivity|contradiction]. Qed.
Lemma ipow_nat a n : (Z.of_nat n <= int_max)%Z -> ipow_i a (Z.of_nat n) = Ok (a ^ n).
Proof.
  intros. rewrite ipow_i_spec by (unfold int_min; lia). rewrite <- pow_powerRZ. reflexivity.
Qed.
Lemma pow_lt_1 x n : 0 <= x < 1 -> (1 <= n)%nat -> x ^ n < 1.
Proof.
  intros H N. destruct n; [lia|]. assert (0 <= x ^ n <= 1) by (split; [apply pow_le; lra| rewrite <- (pow1 n); apply pow_incr; lra]).
  cbn. nra.
Qed.

(** ** the quadratic *)
Lemma quadratic b c : let D := b * b - 4 * c in
  if Rle_dec 0 D then fastest b c (1 / 2 * (b + sqrt D) / 2) (1 / 2 * 0) else fastest b c (1 / 2 * b / 2) (1 / 2 * sqrt (- D) / 2).
Proof.
  intros D. destruct (Rle_dec 0 D) as [H|H].
  - pose proof (sqrt_sqrt D H) as Q. pose proof (sqrt_pos D) as P. set (q := sqrt D) in *.
    replace (1 / 2 * (b + q) / 2) with ((b + q) / 4) by field. replace (1 / 2 * 0) with 0 by ring.
    unfold fastest, root. replace (0 / (1 / 2)) with 0 by field. replace ((b + q) / 4 / (1 / 2)) with ((b + q) / 2) by field.
    unfold D in Q. split; [split; [nra|ring]|]. split; [lra|]. intros x y [E1 E2].
    assert (Y : y = 0).
    { destruct (Req_dec y 0) as [Z|Z]; [exact Z|]. assert (x = b / 2) by (apply (Rmult_eq_reg_l (2 * y)); [nra|lra]). subst x.
      unfold D in H. assert (0 < y * y) by (apply Rsqr_pos_lt in Z; exact Z). nra. }
    subst y. split; [lra|]. intros _ _. assert (E : (2 * x - b) * (2 * x - b) = q * q) by (unfold D in H; nra).
    assert (2 * x - b <= q); [|lra]. destruct (Rle_dec (2 * x - b) q); [assumption|]. exfalso. nra.
  - assert (H' : 0 <= - D) by lra. pose proof (sqrt_sqrt _ H') as Q. assert (P : 0 < sqrt (- D)) by (apply sqrt_lt_R0; lra). set (q := sqrt (- D)) in *.
    unfold fastest, root. replace (1 / 2 * b / 2 / (1 / 2)) with (b / 2) by field. replace (1 / 2 * q / 2 / (1 / 2)) with (q / 2) by field.
    unfold D in Q, H. split; [split; [nra|field]|]. split; [lra|]. intros x y [E1 E2]. split; [|intros; lra].
    destruct (Rle_dec y (q / 2)) as [L|L]; [exact L|]. assert (x = b / 2) by (apply (Rmult_eq_reg_l (2 * y)); [nra|lra]). subst x. nra.
Qed.
Lemma root_zero_im b c re : fastest b c re 0 -> forall x y, root b c x y -> y = 0.
Proof.
  intros (R & _ & F) x y E. destruct (F x y E) as [A _]. assert (E' : root b c x (- y)) by (destruct E; split; nra).
  destruct (F _ _ E') as [B _]. lra.
Qed.

(** ** the solution *)
Lemma solution_ok d n : ring_ok d n -> exists re im, diocotron_solution d = Ok (Some (re, im)) /\ fastest (implemented_b d n) (implemented_c d n) re im.
Proof.
  intros (A & B & C & M & N & L). unfold diocotron_solution. rewrite !leb_true, ltb_true by lra. cbn [check bind].
  assert (ME : (mode d =? 0)%Z = false) by (apply Z.eqb_neq; lia). rewrite ME. cbn [negb check bind]. unfold dispersion_relation.
  rewrite (ltb_true 0) by lra. cbv zeta. unfold twice. rewrite M.
  assert (B2 : ((int_min <=? 2 * Z.of_nat n) && (2 * Z.of_nat n <=? int_max))%Z = true).
  { apply andb_true_intro; split; apply Z.leb_le; [unfold int_min; lia|exact L]. }
  rewrite B2. cbn [bind]. replace (2 * Z.of_nat n)%Z with (Z.of_nat (2 * n)) by lia. rewrite !ipow_nat by lia. cbn [bind].
  assert (W : 0 <= W1 d / W2 d < 1).
  { split; [apply Rmult_le_pos; [lra|left; apply Rinv_0_lt_compat; lra]|]. apply (Rmult_lt_reg_r (W2 d)); [lra|]. unfold Rdiv. rewrite Rmult_assoc, Rinv_l by lra. lra. }
  assert (N2 : (1 <= 2 * n)%nat) by lia. pose proof (pow_lt_1 _ (2 * n) W N2) as WL.
  rewrite (nz_true (R1 d)), (nz_true (R2 d)), (nz_true (W2 d)), (nz_true (1 - _)) by lra. assert (Z0 : (0 <? Z.of_nat (2 * n))%Z = true) by (apply Z.ltb_lt; lia). rewrite Z0. cbn [negb andb orb].
  set (w := (W1 d / W2 d) ^ (2 * n)) in *.
  match goal with |- context [leb 0 (?b * ?b - 4 * ?c)] => set (bl := b); set (cl := c) end.
  assert (OM : - 2 * charge d / R1 d / R1 d / (1 / 2) = omega_ratio d) by (unfold omega_ratio; field; lra).
  assert (EB : bl = implemented_b d n).
  { unfold bl, implemented_b. rewrite OM, <- INR_IZR_INZ. generalize (omega_ratio d) (R1 d / R2 d) (R2 d / W2 d) (W1 d / R1 d) (W1 d / R2 d) (R1 d / W2 d) (INR n). intros q0 q1 q2 q3 q4 q5 q6. set (k := (2 * n)%nat). clearbody k w. generalize (q1 ^ k) (q2 ^ k) (q3 ^ k) (q4 ^ k) (q5 ^ k). intros. field. lra. }
  assert (EC : cl = implemented_c d n).
  { unfold cl, implemented_c. rewrite OM, <- INR_IZR_INZ. generalize (omega_ratio d) (R1 d / R2 d) (R2 d / W2 d) (W1 d / R1 d) (W1 d / R2 d) (R1 d / W2 d) (INR n). intros q0 q1 q2 q3 q4 q5 q6. set (k := (2 * n)%nat). clearbody k w. generalize (q1 ^ k) (q2 ^ k) (q3 ^ k) (q4 ^ k) (q5 ^ k). intros. field. lra. }
  clearbody bl cl. subst bl cl. pose proof (quadratic (implemented_b d n) (implemented_c d n)) as Q. cbv zeta in Q. unfold leb.
  destruct (Rle_dec 0 _) in *; eauto.
Qed.
Lemma solution_unique b c re im re' im' : fastest b c re im -> fastest b c re' im' -> re = re' /\ im = im'.
Proof.
  intros (Q & P & F) (Q' & P' & F'). assert (im = im') by (destruct (F _ _ Q'), (F' _ _ Q); lra). subst im'. split; [|reflexivity].
  destruct (Req_dec im 0) as [Z|Z].
  - subst im. destruct (F _ _ Q') as [_ G], (F' _ _ Q) as [_ G']. specialize (G eq_refl ltac:(lra)). specialize (G' eq_refl ltac:(lra)). lra.
  - destruct Q as [_ E], Q' as [_ E']. assert (N : im / (1 / 2) <> 0) by lra. set (x := re / (1 / 2)) in *. set (x' := re' / (1 / 2)) in *.
    assert (x = b / 2) by (apply (Rmult_eq_reg_l (2 * (im / (1 / 2)))); nra). assert (x' = b / 2) by (apply (Rmult_eq_reg_l (2 * (im / (1 / 2)))); nra).
    unfold x, x' in *. lra.
Qed.
Lemma no_inner_wall d n : (1 <= n)%nat -> W1 d = 0 -> documented_b d n = implemented_b d n /\ documented_c d n = implemented_c d n.
Proof.
  intros N W. unfold documented_b, documented_c, implemented_b, implemented_c. rewrite W.
  replace (0 / W2 d) with 0 by (unfold Rdiv; ring). rewrite pow_i by lia. replace (1 - 0) with 1 by ring. replace (1 / 1) with 1 by field. split; ring.
Qed.

(** ** W1 > 0: the documented relation is a different one *)
Definition walls : diocotron := {| W1 := 1; R1 := 2; R2 := 3; W2 := 4; charge := 0; mode := 1; amplitude := 0 |}.
Lemma walls_ok : ring_ok walls 1.
Proof. unfold ring_ok, walls; cbn [W1 R1 R2 W2 mode]. repeat split; try lra; try lia. unfold int_max; lia. Qed.
Lemma walls_code re im : diocotron_solution walls = Ok (Some (re, im)) -> im = 0.
Proof.
  intros E. destruct (solution_ok _ _ walls_ok) as (re' & im' & E' & F). rewrite E' in E.
  assert (im' = im) by congruence. assert (re' = re) by congruence. subst. destruct F as ((A & B) & P & _).
  assert (EB : implemented_b walls 1 = 35 / 48) by (unfold implemented_b, omega_ratio; cbn [W1 R1 R2 W2 charge walls INR Nat.mul Nat.add]; field).
  assert (EC : implemented_c walls 1 = 25 / 192) by (unfold implemented_c, omega_ratio; cbn [W1 R1 R2 W2 charge walls INR Nat.mul Nat.add]; field).
  rewrite EB, EC in *. destruct (Req_dec im 0); [assumption|]. assert (re / (1 / 2) = 35 / 96) by (apply (Rmult_eq_reg_l (2 * (im / (1 / 2)))); [|lra]; lra).
  rewrite H0 in A. assert (0 <= im / (1 / 2) * (im / (1 / 2))) by nra. nra.
Qed.
Lemma walls_documented : exists x y, root (documented_b walls 1) (documented_c walls 1) x y /\ 0 < y.
Proof.
  assert (EB : documented_b walls 1 = 20 / 27) by (unfold documented_b, omega_ratio; cbn [W1 R1 R2 W2 charge walls INR Nat.mul Nat.add]; field).
  assert (EC : documented_c walls 1 = 5 / 36) by (unfold documented_c, omega_ratio; cbn [W1 R1 R2 W2 charge walls INR Nat.mul Nat.add]; field).
  rewrite EB, EC. exists (10 / 27), (sqrt (5 / 36 - 100 / 729)). assert (0 < 5 / 36 - 100 / 729) by lra. split; [|apply sqrt_lt_R0; exact H].
  pose proof (sqrt_sqrt _ (Rlt_le _ _ H)). split; nra.
Qed.
Lemma documented_refuted : ~ (forall d n re im, ring_ok d n -> diocotron_solution d = Ok (Some (re, im)) -> fastest (documented_b d n) (documented_c d n) re im).
Proof.
  intros H. destruct (solution_ok _ _ walls_ok) as (re & im & E & _). pose proof (walls_code _ _ E). subst im.
  destruct walls_documented as (x & y & Q & P). pose proof (root_zero_im _ _ _ (H _ _ _ _ walls_ok E) _ _ Q). lra.
Qed.
Lemma no_hole d : W1 d = 0 -> R1 d = 0 -> 0 < R2 d <= W2 d -> (1 <= mode d)%Z -> (2 * mode d <= int_max)%Z -> diocotron_solution d = Ok None.
Proof.
  intros W E B M L. unfold diocotron_solution. rewrite W, E. rewrite !leb_true, ltb_true by lra. cbn [check bind].
  assert (ME : (mode d =? 0)%Z = false) by (apply Z.eqb_neq; lia). rewrite ME. cbn [negb check bind]. unfold dispersion_relation. rewrite W, E.
  rewrite (ltb_false 0) by lra. cbv zeta. unfold twice.
  assert (B2 : ((int_min <=? 2 * mode d) && (2 * mode d <=? int_max))%Z = true).
  { apply andb_true_intro; split; apply Z.leb_le; [unfold int_min; lia|exact L]. }
  rewrite B2. cbn [bind]. replace (2 * mode d)%Z with (Z.of_nat (2 * Z.to_nat (mode d))) by lia. rewrite !ipow_nat by lia. cbn [bind].
  rewrite nz_zero. reflexivity.
Qed.
Lemma bad_mode d : (int_max < 2 * mode d)%Z -> 0 <= W1 d <= R1 d -> R1 d < R2 d <= W2 d -> diocotron_solution d = Ub.
Proof.
  intros M A B. unfold diocotron_solution. rewrite !leb_true, ltb_true by lra. cbn [check bind].
  assert (ME : (mode d =? 0)%Z = false) by (apply Z.eqb_neq; unfold int_max in M; lia). rewrite ME. cbn [negb check bind]. unfold dispersion_relation, twice. cbv zeta.
  assert (B2 : (2 * mode d <=? int_max)%Z = false) by (apply Z.leb_gt; exact M). rewrite B2, andb_false_r. reflexivity.
Qed.

(** ** the densities *)
Lemma ring_density d r th : R1 d <= r <= R2 d -> dio_equilibrium d r th = exp (- ((r - (R1 d + R2 d) / 2) / ((R2 d - R1 d) / 2)) ^ 50) /\
  dio_initialisation d r th = dio_equilibrium d r th * (1 + amplitude d * cos (IZR (mode d) * th)).
Proof. intros H. unfold dio_equilibrium, dio_initialisation. rewrite !leb_true by lra. cbn [andb]. split; ring. Qed.
Lemma outside_density d r th : r < R1 d \/ R2 d < r -> dio_equilibrium d r th = 0 /\ dio_initialisation d r th = 0.
Proof.
  intros H. unfold dio_equilibrium, dio_initialisation. destruct H; [rewrite leb_false by lra; split; reflexivity|].
  rewrite (leb_false r) by lra. rewrite andb_false_r. split; reflexivity.
Qed.
Lemma init_eq d r th : dio_initialisation d r th = dio_equilibrium d r th * (1 + amplitude d * cos (IZR (mode d) * th)).
Proof.
  unfold dio_equilibrium, dio_initialisation. destruct (leb _ _ && leb _ _); ring.
Qed.
Lemma eq_bounds d r th : R1 d < R2 d -> R1 d <= r <= R2 d -> exp (- 1) <= dio_equilibrium d r th <= 1.
Proof.
  intros L H. destruct (ring_density d r th H) as [-> _]. set (q := (r - (R1 d + R2 d) / 2) / ((R2 d - R1 d) / 2)).
  assert (Q : -1 <= q <= 1).
  { assert (q * ((R2 d - R1 d) / 2) = r - (R1 d + R2 d) / 2) by (unfold q; field; lra). split; apply (Rmult_le_reg_r ((R2 d - R1 d) / 2)); lra. }
  assert (S : 0 <= q ^ 50 <= 1).
  { replace (q ^ 50) with ((q * q) ^ 25) by (rewrite Rpow_mult_distr, <- pow_add; reflexivity). split; [apply pow_le; nra|].
    rewrite <- (pow1 25). apply pow_incr. nra. }
  assert (MONO : forall x y, x <= y -> exp x <= exp y) by (intros x y [G| ->]; [left; apply exp_increasing; exact G|right; reflexivity]).
  split; [apply MONO; lra|]. apply (Rle_trans _ (exp 0)); [apply MONO; lra|rewrite exp_0; right; reflexivity].
Qed.
Lemma eq_peak d th : R1 d < R2 d -> dio_equilibrium d ((R1 d + R2 d) / 2) th = 1.
Proof.
  intros L. destruct (ring_density d ((R1 d + R2 d) / 2) th) as [-> _]; [lra|]. match goal with |- exp (- ?q ^ 50) = 1 => replace q with 0 by (field; lra) end. rewrite pow_i by lia. rewrite Ropp_0. apply exp_0.
Qed.
Lemma eq_symmetric d h th : dio_equilibrium d ((R1 d + R2 d) / 2 + h) th = dio_equilibrium d ((R1 d + R2 d) / 2 - h) th.
Proof.
  destruct (Rle_dec (Rabs h) ((R2 d - R1 d) / 2)) as [L|L].
  - assert (- ((R2 d - R1 d) / 2) <= h <= (R2 d - R1 d) / 2) by (unfold Rabs in L; destruct (Rcase_abs h); lra).
    rewrite (proj1 (ring_density d ((R1 d + R2 d) / 2 + h) th ltac:(lra))), (proj1 (ring_density d ((R1 d + R2 d) / 2 - h) th ltac:(lra))). do 2 f_equal.
    replace ((R1 d + R2 d) / 2 - h - (R1 d + R2 d) / 2) with (- h) by ring. replace ((R1 d + R2 d) / 2 + h - (R1 d + R2 d) / 2) with h by ring.
    unfold Rdiv. rewrite Ropp_mult_distr_l_reverse. set (q := h * _). replace (- q) with (-1 * q) by ring. rewrite Rpow_mult_distr. replace ((-1) ^ 50) with 1 by ring. ring.
  - assert ((R2 d - R1 d) / 2 < h \/ h < - ((R2 d - R1 d) / 2)) by (unfold Rabs in L; destruct (Rcase_abs h); lra).
    rewrite (proj1 (outside_density d ((R1 d + R2 d) / 2 + h) th ltac:(lra))), (proj1 (outside_density d ((R1 d + R2 d) / 2 - h) th ltac:(lra))). reflexivity.
Qed.
Lemma init_periodic d r th : (mode d <> 0)%Z -> dio_initialisation d r (th + 2 * PI / IZR (mode d)) = dio_initialisation d r th.
Proof.
  intros M. assert (IZR (mode d) <> 0) by (apply not_0_IZR; exact M). 
  assert (C : cos (IZR (mode d) * (th + 2 * PI / IZR (mode d))) = cos (IZR (mode d) * th)).
  { replace (IZR (mode d) * (th + 2 * PI / IZR (mode d))) with (IZR (mode d) * th + 2 * 1 * PI) by (field; assumption). apply (cos_shift_Z _ 1). }
  rewrite !init_eq, C. reflexivity.
Qed.
Lemma init_close d r th : 0 <= dio_equilibrium d r th /\ Rabs (dio_initialisation d r th - dio_equilibrium d r th) <= Rabs (amplitude d) * dio_equilibrium d r th.
Proof.
  assert (P : 0 <= dio_equilibrium d r th) by (unfold dio_equilibrium; destruct (_ && _); [rewrite Rmult_1_l; left; apply exp_pos|lra]).
  split; [exact P|]. rewrite init_eq. set (e := dio_equilibrium d r th) in *.
  replace (e * (1 + amplitude d * cos (IZR (mode d) * th)) - e) with (amplitude d * cos (IZR (mode d) * th) * e) by ring.
  rewrite Rabs_mult, (Rabs_pos_eq e P). apply Rmult_le_compat_r; [exact P|]. rewrite Rabs_mult. pose proof (COS_bound (IZR (mode d) * th)) as [C1 C2].
  rewrite <- (Rmult_1_r (Rabs (amplitude d))) at 2. apply Rmult_le_compat_l; [apply Rabs_pos|]. apply Rabs_le. lra.
Qed.
Lemma init_positive d r th : Rabs (amplitude d) <= 1 -> 0 <= dio_initialisation d r th.
Proof.
  intros A. destruct (init_close d r th) as [P B]. set (e := dio_equilibrium d r th) in *. assert (Rabs (amplitude d) * e <= e) by nra.
  assert (Rabs (dio_initialisation d r th - e) <= e) by lra. unfold Rabs in H0. destruct (Rcase_abs _); lra.
Qed.
Lemma init_mean d r th0 : (mode d <> 0)%Z -> is_RInt (dio_initialisation d r) th0 (th0 + 2 * PI) (2 * PI * dio_equilibrium d r th0).
Proof.
  intros M. assert (L : IZR (mode d) <> 0) by (apply not_0_IZR; exact M). set (l := IZR (mode d)) in *. set (e := dio_equilibrium d r th0).
  apply (is_RInt_ext (fun th => e * (1 + amplitude d * cos (l * th)))).
  { intros x _. rewrite init_eq. reflexivity. }
  set (F := fun th => e * (th + amplitude d / l * sin (l * th))).
  replace (2 * PI * e) with (minus (F (th0 + 2 * PI)) (F th0)).
  - apply (is_RInt_derive (V := R_CompleteNormedModule) F).
    + intros x _. unfold F. auto_derive; [exact I|]. field. exact L.
    + intros x _. apply (continuous_ext (fun th => e * (1 + amplitude d * cos (l * th)))); [reflexivity|].
      apply @ex_derive_continuous. auto_derive. exact I.
  - unfold F, minus, plus, opp; cbn. replace (l * (th0 + 2 * PI)) with (l * th0 + 2 * l * PI) by ring. unfold l. rewrite sin_shift_Z. field. exact L.
Qed.

(** ** the statements *)
Lemma solution_full d n : ring_ok d n -> exists re im, diocotron_solution d = Ok (Some (re, im)) /\
  fastest (implemented_b d n) (implemented_c d n) re im /\
  forall re' im', fastest (implemented_b d n) (implemented_c d n) re' im' -> re' = re /\ im' = im.
Proof.
  intros H. destruct (solution_ok d n H) as (re & im & E & F). exists re, im. split; [exact E|]. split; [exact F|]. intros re' im' F'. exact (solution_unique _ _ _ _ _ _ F' F).
Qed.
Lemma documented_ok d n re im : ring_ok d n -> W1 d = 0 -> diocotron_solution d = Ok (Some (re, im)) -> fastest (documented_b d n) (documented_c d n) re im.
Proof.
  intros H W E. destruct (solution_ok d n H) as (re' & im' & E' & F). rewrite E in E'. assert (re' = re) by congruence. assert (im' = im) by congruence. subst.
  destruct (no_inner_wall d n) as [-> ->]; [apply H|exact W|exact F].
Qed.
Lemma filled_disc_refuted : ~ (forall d, 0 <= W1 d <= R1 d -> R1 d < R2 d <= W2 d -> (1 <= mode d)%Z -> (2 * mode d <= int_max)%Z ->
  exists re im, diocotron_solution d = Ok (Some (re, im))).
Proof.
  intros H. set (d := {| W1 := 0; R1 := 0; R2 := 1; W2 := 2; charge := 0; mode := 2; amplitude := 0 |}).
  assert (I2 : (2 * 2 <= int_max)%Z) by (unfold int_max; lia).
  assert (Q1 : 0 <= W1 d <= R1 d) by (cbn; lra). assert (Q2 : R1 d < R2 d <= W2 d) by (cbn; lra). assert (Q3 : (1 <= mode d)%Z) by (cbn; lia).
  assert (Q4 : 0 < R2 d <= W2 d) by (cbn; lra).
  destruct (H d Q1 Q2 Q3 I2) as (re & im & E). rewrite (no_hole d eq_refl eq_refl Q4 Q3 I2) in E. discriminate.
Qed.
Lemma equilibrium_full d : R1 d < R2 d ->
  (forall r th, R1 d <= r <= R2 d -> exp (- 1) <= dio_equilibrium d r th <= 1) /\
  (forall r th, r < R1 d \/ R2 d < r -> dio_equilibrium d r th = 0) /\
  (forall th, dio_equilibrium d ((R1 d + R2 d) / 2) th = 1) /\
  (forall h th, dio_equilibrium d ((R1 d + R2 d) / 2 + h) th = dio_equilibrium d ((R1 d + R2 d) / 2 - h) th) /\
  (forall r th th', dio_equilibrium d r th = dio_equilibrium d r th') /\
  (forall r th, R1 d <= r <= R2 d -> ln (dio_equilibrium d r th) = - ((2 * r - R1 d - R2 d) / (R2 d - R1 d)) ^ 50).
Proof.
  intros L. split; [intros; apply eq_bounds; assumption|]. split; [intros; apply outside_density; assumption|]. split; [intros; apply eq_peak; assumption|].
  split; [apply eq_symmetric|]. split; [reflexivity|]. intros r th H. rewrite (proj1 (ring_density d r th H)), ln_exp. do 2 f_equal. field. lra.
Qed.
Lemma perturbation_full d : (mode d <> 0)%Z ->
  (forall r th, dio_initialisation d r th = dio_equilibrium d r th * (1 + amplitude d * cos (IZR (mode d) * th))) /\
  (forall r th, Rabs (dio_initialisation d r th - dio_equilibrium d r th) <= Rabs (amplitude d) * dio_equilibrium d r th) /\
  (forall r th, dio_initialisation d r (th + 2 * PI / IZR (mode d)) = dio_initialisation d r th) /\
  (forall r th0, is_RInt (dio_initialisation d r) th0 (th0 + 2 * PI) (2 * PI * dio_equilibrium d r th0)) /\
  (Rabs (amplitude d) <= 1 -> forall r th, 0 <= dio_initialisation d r th).
Proof.
  intros M. split; [apply init_eq|]. split; [intros; apply init_close|]. split; [intros; apply init_periodic; exact M|]. split; [intros; apply init_mean; exact M|].
  intros; apply init_positive; assumption.
Qed.
