(** Discrete Fourier analysis on a product of cyclic grids. *)
From Verif Require Import FftModel RestrictProofs.
Open Scope R_scope.

Lemma IZR_div_exact a N : (0 < N)%Z -> (a mod N = 0)%Z -> exists q, a = (q * N)%Z.
Proof. intros H E. exists (a / N)%Z. pose proof (Z.div_mod a N). lia. Qed.

(** ** one dimension *)
Lemma sin_pi_frac p N : (0 < N)%Z -> (p mod N <> 0)%Z -> sin (PI * IZR p / IZR N) <> 0.
Proof.
  intros HN Hp E.
  assert (HNR : 0 < IZR N) by (apply IZR_lt; lia).
  pose proof (Z.div_mod p N ltac:(lia)) as D. pose proof (Z.mod_pos_bound p N HN) as B.
  set (r := (p mod N)%Z) in *. set (q := (p / N)%Z) in *.
  assert (Hr : 0 < sin (PI * IZR r / IZR N)).
  { assert (0 < IZR r) by (apply IZR_lt; lia). assert (IZR r < IZR N) by (apply IZR_lt; lia).
    pose proof PI_RGT_0. apply sin_gt_0.
    - apply Rmult_lt_0_compat; [nra | apply Rinv_0_lt_compat; lra].
    - apply (Rmult_lt_reg_r (IZR N)); [lra|]. unfold Rdiv. rewrite Rmult_assoc, Rinv_l by lra. nra. }
  assert (A : PI * IZR p / IZR N = PI * IZR r / IZR N + IZR q * PI).
  { rewrite D, plus_IZR, mult_IZR. field. lra. }
  assert (S2 : sin (IZR q * PI) = 0) by (apply sin_eq_0_1; exists q; reflexivity).
  assert (C2 : cos (IZR q * PI) <> 0).
  { intros C. pose proof (sin2_cos2 (IZR q * PI)) as H. rewrite S2, C in H. unfold Rsqr in H. lra. }
  rewrite A, sin_plus, S2 in E. apply C2. nra.
Qed.

Lemma cos_period_div a k N i : (0 < N)%Z -> cos (a + 2 * PI * IZR (k * N * i) / IZR N) = cos a.
Proof.
  intros H. assert (0 < IZR N) by (apply IZR_lt; lia).
  replace (a + 2 * PI * IZR (k * N * i) / IZR N) with (a + 2 * IZR (k * i) * PI).
  2:{ rewrite !mult_IZR. field. lra. }
  apply cos_shift_Z.
Qed.

Lemma cos_sum_1d a p N : (0 < N)%Z ->
  Rsum (Z.to_nat N) (fun i => cos (a + 2 * PI * IZR (p * Z.of_nat i) / IZR N)) =
  if (p mod N =? 0)%Z then IZR N * cos a else 0.
Proof.
  intros HN. assert (HNR : 0 < IZR N) by (apply IZR_lt; lia).
  destruct (Z.eqb_spec (p mod N) 0) as [E|E].
  - destruct (IZR_div_exact p N HN E) as [q ->].
    rewrite (Rsum_ext _ _ (fun _ => cos a)) by (intros; apply cos_period_div; lia).
    rewrite Rsum_const, INR_IZR_INZ, Z2Nat.id by lia. reflexivity.
  - pose proof (sin_pi_frac p N HN E) as S0.
    set (s := PI * IZR p / IZR N) in *.
    assert (T : 2 * sin s * Rsum (Z.to_nat N) (fun i => cos (a + 2 * PI * IZR (p * Z.of_nat i) / IZR N)) = 0).
    { rewrite <- Rsum_scal.
      rewrite (Rsum_ext _ _ (fun i => sin (a + s * (2 * INR (S i) - 1)) - sin (a + s * (2 * INR i - 1)))).
      2:{ intros i _. rewrite S_INR, INR_IZR_INZ, mult_IZR.
          replace (2 * PI * (IZR p * IZR (Z.of_nat i)) / IZR N) with (2 * s * IZR (Z.of_nat i)) by (unfold s; field; lra).
          set (c := IZR (Z.of_nat i)).
          replace (a + s * (2 * (c + 1) - 1)) with ((a + 2 * s * c) + s) by ring.
          replace (a + s * (2 * c - 1)) with ((a + 2 * s * c) - s) by ring.
          rewrite sin_plus, sin_minus. ring. }
      rewrite (Rsum_telescope (Z.to_nat N) (fun i => sin (a + s * (2 * INR i - 1)))).
      rewrite INR_IZR_INZ, Z2Nat.id by lia. simpl (INR 0).
      replace (a + s * (2 * IZR N - 1)) with ((a + s * (2 * 0 - 1)) + 2 * IZR p * PI) by (unfold s; field; lra).
      rewrite sin_shift_Z. ring. }
    apply Rmult_integral in T. destruct T as [T|T]; [|exact T]. exfalso. apply S0. lra.
Qed.

(** ** sums over a mesh *)
Definition pos_sizes (Ns : list Z) := Forall (fun N => (0 < N)%Z) Ns.

Lemma gsum_ext Ns : forall f g, (forall k, in_mesh Ns k = true -> f k = g k) -> gsum Ns f = gsum Ns g.
Proof.
  induction Ns as [|N t IH]; intros f g H; cbn [gsum]; [apply H; reflexivity|].
  apply Rsum_ext. intros i Hi. apply IH. intros l Hl. apply H. cbn [in_mesh]. rewrite Hl.
  replace ((0 <=? Z.of_nat i) && (Z.of_nat i <? N))%Z with true by lia. reflexivity.
Qed.
Lemma gsum_plus Ns : forall f g, gsum Ns (fun k => f k + g k) = gsum Ns f + gsum Ns g.
Proof.
  induction Ns as [|N t IH]; intros f g; cbn [gsum]; [reflexivity|].
  rewrite <- Rsum_plus. apply Rsum_ext. intros i _. apply IH.
Qed.
Lemma gsum_scal Ns : forall c f, gsum Ns (fun k => c * f k) = c * gsum Ns f.
Proof.
  induction Ns as [|N t IH]; intros c f; cbn [gsum]; [reflexivity|].
  rewrite <- Rsum_scal. apply Rsum_ext. intros i _. apply IH.
Qed.
Lemma gsum_zero Ns f : (forall k, in_mesh Ns k = true -> f k = 0) -> gsum Ns f = 0.
Proof.
  intros H. rewrite (gsum_ext Ns f (fun k => 0 * 0)) by (intros; rewrite H; auto; ring).
  rewrite gsum_scal. ring.
Qed.
Lemma gsum_Rsum Ns : forall n (f : nat -> midx -> R),
  Rsum n (fun i => gsum Ns (f i)) = gsum Ns (fun k => Rsum n (fun i => f i k)).
Proof.
  induction Ns as [|N t IH]; intros n f; cbn [gsum]; [reflexivity|].
  rewrite Rsum_swap. apply Rsum_ext. intros i _. apply IH.
Qed.
Lemma gsum_swap Ns : forall Ms (f : midx -> midx -> R),
  gsum Ns (fun a => gsum Ms (fun b => f a b)) = gsum Ms (fun b => gsum Ns (fun a => f a b)).
Proof.
  induction Ns as [|N t IH]; intros Ms f; cbn [gsum]; [reflexivity|].
  rewrite <- gsum_Rsum. apply Rsum_ext. intros i _. apply IH.
Qed.

(** componentwise congruence and reduction *)
Fixpoint congr (Ns : list Z) (a b : midx) : bool :=
  match Ns, a, b with
  | N :: Ns', x :: a', y :: b' => ((x - y) mod N =? 0)%Z && congr Ns' a' b'
  | [], [], [] => true
  | _, _, _ => false
  end.
Fixpoint modm (Ns : list Z) (a : midx) : midx :=
  match Ns, a with
  | N :: Ns', x :: a' => (x mod N)%Z :: modm Ns' a'
  | _, _ => []
  end.
Definition negm (a : midx) : midx := map Z.opp a.
Definition neg (Ns : list Z) (a : midx) : midx := modm Ns (negm a).
Fixpoint addm (a b : midx) : midx :=
  match a, b with
  | x :: a', y :: b' => (x + y)%Z :: addm a' b'
  | _, _ => []
  end.

Lemma in_mesh_length Ns : forall k, in_mesh Ns k = true -> length k = length Ns.
Proof.
  induction Ns as [|N t IH]; intros [|a k] H; cbn [in_mesh] in H; try discriminate; auto.
  apply andb_prop in H. simpl. f_equal. apply IH. tauto.
Qed.
Lemma in_mesh_cons N t a k : in_mesh (N :: t) (a :: k) = true <-> (0 <= a < N)%Z /\ in_mesh t k = true.
Proof. cbn [in_mesh]. rewrite !andb_true_iff. lia. Qed.

Lemma modm_in_mesh Ns : forall a, pos_sizes Ns -> length a = length Ns -> in_mesh Ns (modm Ns a) = true.
Proof.
  induction Ns as [|N t IH]; intros [|x a] HP L; simpl in L; try discriminate; [reflexivity|].
  inversion HP; subst. cbn [modm]. apply in_mesh_cons. split; [apply Z.mod_pos_bound; lia|]. apply IH; auto.
Qed.
Lemma modm_id Ns : forall a, in_mesh Ns a = true -> modm Ns a = a.
Proof.
  induction Ns as [|N t IH]; intros [|x a] H; try discriminate; [reflexivity|].
  apply in_mesh_cons in H. cbn [modm]. rewrite Z.mod_small by lia. f_equal. apply IH. tauto.
Qed.
Lemma congr_modm Ns : forall k m, pos_sizes Ns -> in_mesh Ns k = true -> length m = length Ns ->
  congr Ns m k = true <-> k = modm Ns m.
Proof.
  induction Ns as [|N t IH]; intros [|x k] [|y m] HP H L; simpl in L; try discriminate; [cbn; tauto|].
  inversion HP; subst. apply in_mesh_cons in H. destruct H as [Hx H].
  cbn [congr modm]. rewrite andb_true_iff, (IH k m) by auto. rewrite Z.eqb_eq. split.
  - intros [E1 E2]. subst k. f_equal.
    pose proof (Z.div_mod (y - x) N ltac:(lia)). rewrite E1 in H0.
    apply (Z.mod_unique_pos y N ((y - x) / N)); lia.
  - intros E. injection E as E1 E2. split; [|exact E2]. subst x.
    rewrite Zminus_mod_idemp_r. rewrite Z.sub_diag. reflexivity.
Qed.

Lemma gsum_single Ns : forall k f, in_mesh Ns k = true ->
  (forall l, in_mesh Ns l = true -> l <> k -> f l = 0) -> gsum Ns f = f k.
Proof.
  induction Ns as [|N t IH]; intros [|x k] f H Z0; try discriminate; [reflexivity|].
  apply in_mesh_cons in H. destruct H as [Hx H]. cbn [gsum].
  rewrite (Rsum_single _ _ (Z.to_nat x)); [|lia|].
  - rewrite Z2Nat.id by lia. apply (IH k (fun l => f (x :: l)) H).
    intros l Hl Nl. apply Z0; [apply in_mesh_cons; auto|congruence].
  - intros i Hi Ni. apply gsum_zero. intros l Hl. apply Z0; [apply in_mesh_cons; split; [lia|auto]|].
    intros E. injection E as E1 E2. lia.
Qed.
Lemma gsum_congr Ns m f : pos_sizes Ns -> length m = length Ns ->
  gsum Ns (fun k => if congr Ns m k then f k else 0) = f (modm Ns m).
Proof.
  intros HP L. pose proof (modm_in_mesh Ns m HP L) as HM.
  rewrite (gsum_single Ns (modm Ns m)); auto.
  - rewrite (proj2 (congr_modm Ns (modm Ns m) m HP HM L)); reflexivity.
  - intros l Hl Nl. destruct (congr Ns m l) eqn:E; [|reflexivity].
    apply congr_modm in E; auto. contradiction.
Qed.

(** ** phases *)
Lemma phase_plus Ns : forall a b n, length a = length b -> phase Ns (addm a b) n = phase Ns a n + phase Ns b n.
Proof.
  induction Ns as [|N t IH]; intros [|x a] [|y b] n L; simpl in L; try discriminate; cbn [phase addm]; try lra.
  destruct n as [|z n]; [lra|]. rewrite IH by lia. rewrite Z.mul_add_distr_r, plus_IZR. unfold Rdiv. ring.
Qed.
Lemma phase_neg Ns : forall a n, phase Ns (negm a) n = - phase Ns a n.
Proof.
  induction Ns as [|N t IH]; intros [|x a] n; cbn [phase negm map]; try lra.
  destruct n as [|z n]; [lra|]. fold (negm a). rewrite IH, Z.mul_opp_l, opp_IZR. unfold Rdiv. ring.
Qed.
Lemma phase_congr Ns : forall a b n, pos_sizes Ns -> congr Ns a b = true ->
  exists q, phase Ns a n = phase Ns b n + 2 * IZR q * PI.
Proof.
  induction Ns as [|N t IH]; intros [|x a] [|y b] n HP H; cbn [congr] in H; try discriminate.
  - exists 0%Z. simpl. lra.
  - apply andb_prop in H. destruct H as [H1 H2]. inversion HP; subst.
    destruct n as [|z n]; [exists 0%Z; simpl; lra|].
    destruct (IH a b n ltac:(auto) H2) as [q E]. apply Z.eqb_eq in H1.
    destruct (IZR_div_exact _ N ltac:(lia) H1) as [c Ec].
    exists (c * z + q)%Z. cbn [phase]. rewrite E.
    replace x with (y + c * N)%Z by lia. rewrite !plus_IZR, !mult_IZR, plus_IZR, mult_IZR.
    assert (0 < IZR N) by (apply IZR_lt; lia). field. lra.
Qed.
Lemma congr_refl_modm Ns : forall a, pos_sizes Ns -> length a = length Ns -> congr Ns (modm Ns a) a = true.
Proof.
  induction Ns as [|N t IH]; intros [|x a] HP L; simpl in L; try discriminate; [reflexivity|].
  inversion HP; subst. cbn [congr modm]. rewrite IH by auto. rewrite Zminus_mod_idemp_l, Z.sub_diag. reflexivity.
Qed.
Lemma cos_phase_modm Ns a n c : pos_sizes Ns -> length a = length Ns ->
  cos (phase Ns (modm Ns a) n + c) = cos (phase Ns a n + c).
Proof.
  intros HP L. destruct (phase_congr Ns (modm Ns a) a n HP (congr_refl_modm _ _ HP L)) as [q ->].
  replace (phase Ns a n + 2 * IZR q * PI + c) with ((phase Ns a n + c) + 2 * IZR q * PI) by ring. apply cos_shift_Z.
Qed.

(** orthogonality *)
Lemma negm_length a : length (negm a) = length a.
Proof. apply map_length. Qed.
Lemma addm_length a : forall b, length a = length b -> length (addm a b) = length a.
Proof. induction a as [|x a IH]; intros [|y b] L; simpl in *; try discriminate; auto. Qed.

Definition zero (Ns : list Z) : midx := map (fun _ => 0%Z) Ns.

Lemma cos_sum Ns : forall p a, pos_sizes Ns -> length p = length Ns ->
  gsum Ns (fun n => cos (a + phase Ns p n)) = if congr Ns p (zero Ns) then vol Ns * cos a else 0.
Proof.
  induction Ns as [|N t IH]; intros [|x p] a HP L; simpl in L; try discriminate.
  - cbn. rewrite Rplus_0_r. ring.
  - inversion HP; subst. cbn [gsum phase congr zero map vol fold_right]. fold (zero t). fold (vol t).
    rewrite (Rsum_ext _ _ (fun i => (if congr t p (zero t) then vol t else 0) * cos (a + 2 * PI * IZR (x * Z.of_nat i) / IZR N))).
    2:{ intros i _. rewrite (gsum_ext t _ (fun l => cos ((a + 2 * PI * IZR (x * Z.of_nat i) / IZR N) + phase t p l)))
          by (intros; f_equal; ring). rewrite IH by auto. destruct (congr t p (zero t)); ring. }
    rewrite Rsum_scal, cos_sum_1d by lia. rewrite Z.sub_0_r.
    destruct (x mod N =? 0)%Z; cbn [andb]; destruct (congr t p (zero t)); ring.
Qed.

Lemma congr_sub Ns : forall m k, length m = length k -> congr Ns (addm m (negm k)) (zero Ns) = congr Ns m k.
Proof.
  induction Ns as [|N t IH]; intros [|x m] [|y k] L; simpl in L; try discriminate; cbn; auto.
  fold (negm k). fold (zero t). rewrite IH by lia. f_equal. f_equal. f_equal. lia.
Qed.
Lemma congr_add Ns : forall m k, length m = length k -> congr Ns (addm m k) (zero Ns) = congr Ns (negm m) k.
Proof.
  induction Ns as [|N t IH]; intros [|x m] [|y k] L; simpl in L; try discriminate; cbn; auto.
  fold (negm m). fold (zero t). rewrite IH by lia. f_equal.
  destruct (Z.eq_dec N 0) as [->|NZ]; [rewrite !Zmod_0_r; lia|].
  apply eq_true_iff_eq. rewrite !Z.eqb_eq, !Z.mod_divide by auto.
  split; intros [q Hq]; exists (- q)%Z; lia.
Qed.

(** the correlation of two waves *)
Lemma wave_sum Ns m k al be : pos_sizes Ns -> length m = length Ns -> length k = length Ns ->
  gsum Ns (fun n => cos (phase Ns m n + al) * cos (be - phase Ns k n)) =
  vol Ns / 2 * ((if congr Ns m k then cos (al + be) else 0) + (if congr Ns (negm m) k then cos (be - al) else 0)).
Proof.
  intros HP Lm Lk.
  rewrite (gsum_ext Ns _ (fun n => / 2 * cos ((al + be) + phase Ns (addm m (negm k)) n)
                                 + / 2 * cos ((al - be) + phase Ns (addm m k) n))).
  2:{ intros n _. rewrite !phase_plus by (rewrite ?negm_length; congruence). rewrite phase_neg.
      replace (al + be + (phase Ns m n + - phase Ns k n)) with ((phase Ns m n + al) + (be - phase Ns k n)) by ring.
      replace (al - be + (phase Ns m n + phase Ns k n)) with ((phase Ns m n + al) - (be - phase Ns k n)) by ring.
      generalize (phase Ns m n + al) (be - phase Ns k n). intros u v. rewrite cos_plus, cos_minus. field. }
  rewrite gsum_plus, !gsum_scal, !cos_sum by (rewrite ?addm_length; rewrite ?negm_length; congruence).
  rewrite congr_sub, congr_add by congruence.
  replace (be - al) with (- (al - be)) by ring. rewrite cos_neg.
  destruct (congr Ns m k), (congr Ns (negm m) k); field.
Qed.
