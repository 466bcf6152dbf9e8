(** The solver on waves. *)
From Verif Require Import FftModel FftSpec RestrictProofs FftProofs FftHalf.
From Coq Require Import ZifyBool.
Open Scope R_scope.

Definition good_dim (d : dim) : Prop := (2 <= d_n d)%Z /\ 0 < d_dx d.

(** ** the spectral coordinates *)
Lemma fourier_step_eq d : good_dim d -> fourier_step d = 2 * PI / (IZR (d_n d) * d_dx d).
Proof.
  intros [H1 H2]. unfold fourier_step. assert (0 < IZR (d_n d)) by (apply IZR_lt; lia).
  assert (0 < IZR (d_n d - 1)) by (apply IZR_lt; lia). field. lra.
Qed.
Lemma fourier_step_pos d : good_dim d -> 0 < fourier_step d.
Proof.
  intros H. rewrite fourier_step_eq by auto. destruct H as [H1 H2]. assert (0 < IZR (d_n d)) by (apply IZR_lt; lia).
  pose proof PI_RGT_0. apply Rmult_lt_0_compat; [lra|]. apply Rinv_0_lt_compat. nra.
Qed.
Lemma coordinate_mod d m : good_dim d -> (2 * Z.abs m < d_n d)%Z ->
  coordinate d (m mod d_n d) = IZR m * fourier_step d.
Proof.
  intros [H1 H2] H. unfold coordinate. f_equal. f_equal. rewrite Zplus_mod_idemp_l.
  pose proof (Z.div_mod (d_n d) 2 ltac:(lia)). pose proof (Z.mod_pos_bound (d_n d) 2 ltac:(lia)).
  rewrite Z.mod_small by lia. lia.
Qed.
Lemma coordinate_mod_sq d m : good_dim d -> (2 * Z.abs m <= d_n d)%Z ->
  coordinate d (m mod d_n d) * coordinate d (m mod d_n d) = (IZR m * fourier_step d) * (IZR m * fourier_step d).
Proof.
  intros G H. destruct (Z.eq_dec (2 * Z.abs m) (d_n d)) as [E|E].
  2:{ rewrite coordinate_mod by (auto; lia). reflexivity. }
  destruct G as [H1 H2]. unfold coordinate. rewrite Zplus_mod_idemp_l.
  pose proof (Z.div_mod (d_n d) 2 ltac:(lia)). pose proof (Z.mod_pos_bound (d_n d) 2 ltac:(lia)).
  assert (C : ((m + d_n d / 2) mod d_n d = 0)%Z).
  { destruct (Z.le_gt_cases 0 m).
    - replace (m + d_n d / 2)%Z with (1 * d_n d)%Z by lia. apply Z.mod_mul. lia.
    - replace (m + d_n d / 2)%Z with 0%Z by lia. apply Z.mod_0_l. lia. }
  rewrite C. destruct (Z.le_gt_cases 0 m).
  - replace (0 - d_n d / 2)%Z with (- m)%Z by lia. rewrite opp_IZR. ring.
  - replace (0 - d_n d / 2)%Z with m by lia. ring.
Qed.
Lemma coordinate_zero_iff d a : good_dim d -> (0 <= a < d_n d)%Z -> coordinate d a = 0 -> a = 0%Z.
Proof.
  intros G H E. pose proof (fourier_step_pos d G). unfold coordinate in E.
  assert (Z0 : IZR ((a + d_n d / 2) mod d_n d - d_n d / 2) = 0) by nra.
  apply eq_IZR_R0 in Z0. destruct G as [H1 _].
  pose proof (Z.div_mod (d_n d) 2 ltac:(lia)). pose proof (Z.mod_pos_bound (d_n d) 2 ltac:(lia)).
  destruct (Z.le_gt_cases (d_n d) (a + d_n d / 2)).
  - assert (((a + d_n d / 2) mod d_n d = a + d_n d / 2 - d_n d)%Z).
    { symmetry. apply (Z.mod_unique_pos _ _ 1); lia. } lia.
  - rewrite Z.mod_small in Z0 by lia. lia.
Qed.

Definition dims_ok (ds : list dim) := Forall good_dim ds.
Lemma dims_pos ds : dims_ok ds -> pos_sizes (sizes ds).
Proof. induction 1; constructor; auto. destruct H. lia. Qed.

Lemma laplace_nonneg ds : forall k, 0 <= get_laplace_operator ds k.
Proof. induction ds as [|d ds IH]; intros [|a k]; cbn [get_laplace_operator]; try lra. specialize (IH k). nra. Qed.
(** the division by the Laplacian symbol is always defined *)
Lemma laplace_nonzero ds : forall k, dims_ok ds -> in_mesh (sizes ds) k = true -> get_laplace_operator ds k = 0 -> k = front ds.
Proof.
  induction ds as [|d ds IH]; intros [|a k] G H E; cbn [sizes map in_mesh] in H; try discriminate; [reflexivity|].
  apply in_mesh_cons in H. destruct H as [Ha H]. inversion G; subst. cbn [get_laplace_operator] in E.
  pose proof (laplace_nonneg ds k). cbn [front map]. f_equal.
  - apply (coordinate_zero_iff d); auto. nra.
  - apply IH; auto. nra.
Qed.
Lemma laplace_defined ds k : dims_ok ds -> in_mesh (half (sizes ds)) k = true -> k <> front ds -> get_laplace_operator ds k <> 0.
Proof.
  intros G H N E. apply N. apply laplace_nonzero; auto. apply half_in_mesh in H; [tauto|]. apply dims_pos; auto.
Qed.

(** symbol of the Laplacian on a wave vector *)
Fixpoint symbol (ds : list dim) (m : midx) : R :=
  match ds, m with
  | d :: ds', a :: m' => (IZR a * fourier_step d) * (IZR a * fourier_step d) + symbol ds' m'
  | _, _ => 0
  end.
Definition fits (Ns : list Z) (m : midx) := Forall2 (fun N a => (2 * Z.abs a <= N)%Z) Ns m.
Lemma fits_length Ns m : fits Ns m -> length m = length Ns.
Proof. induction 1; simpl; congruence. Qed.
Lemma fits_neg Ns m : fits Ns m -> fits Ns (negm m).
Proof. induction 1; constructor; auto. lia. Qed.
Lemma laplace_symbol ds : forall m, dims_ok ds -> fits (sizes ds) m -> get_laplace_operator ds (modm (sizes ds) m) = symbol ds m.
Proof.
  induction ds as [|d ds IH]; intros m G F; inversion F; subst; [reflexivity|].
  inversion G; subst. cbn [sizes map modm get_laplace_operator symbol]. fold (sizes ds). rewrite coordinate_mod_sq by auto.
  f_equal. apply IH; auto.
Qed.
Lemma symbol_neg ds : forall m, symbol ds (negm m) = symbol ds m.
Proof.
  induction ds as [|d ds IH]; intros [|a m]; cbn [symbol negm map]; auto. fold (negm m). rewrite IH, opp_IZR. ring.
Qed.
Lemma modm_front ds : forall m, dims_ok ds -> fits (sizes ds) m -> modm (sizes ds) m = front ds <-> m = front ds.
Proof.
  induction ds as [|d ds IH]; intros m G F; inversion F; subst; [split; reflexivity|].
  inversion G; subst. cbn [sizes map modm front]. fold (sizes ds) (front ds). match goal with Q : good_dim d |- _ => destruct Q as [H3' _] end. split; intros E.
  - injection E as E1 E2. f_equal; [|apply (IH l' ltac:(auto) ltac:(auto)); auto].
    destruct (IZR_div_exact y (d_n d) ltac:(lia) E1) as [q ->].
    destruct (Z.eq_dec q 0) as [->|Q]; [lia|]. exfalso. match goal with Q1 : (2 * Z.abs (q * d_n d) <= _)%Z |- _ => rewrite Z.abs_mul in Q1; nia end.
  - injection E as E1 E2. subst y. rewrite Z.mod_0_l by lia. f_equal. apply IH; auto.
Qed.
Lemma symbol_pos ds : forall m, dims_ok ds -> length m = length ds -> m <> front ds -> 0 < symbol ds m.
Proof.
  assert (NN : forall e m, 0 <= symbol e m).
  { induction e as [|d e IH]; intros [|a m]; cbn [symbol]; try lra. specialize (IH m). nra. }
  induction ds as [|d ds IH]; intros [|a m] G L N; simpl in L; try discriminate; [exfalso; apply N; reflexivity|].
  inversion G; subst. cbn [symbol]. pose proof (fourier_step_pos d H1). pose proof (NN ds m).
  destruct (Z.eq_dec a 0) as [->|A].
  - assert (m <> front ds) by (intros ->; apply N; reflexivity). specialize (IH m H2 ltac:(lia) H3). nra.
  - assert (IZR a <> 0) by (intros E; apply A; apply eq_IZR_R0; exact E).
    assert (0 < (IZR a * fourier_step d) * (IZR a * fourier_step d)); [|lra].
    assert (IZR a * fourier_step d <> 0) by (apply Rmult_integral_contrapositive; lra).
    pose proof (Rsqr_pos_lt _ H4). exact H5.
Qed.

(** ** phi and E as filters *)
Definition hphi (ds : list dim) (k : midx) : R := if midx_eqb k (front ds) then 0 else / get_laplace_operator ds k.
Definition hE (ds : list dim) (j : nat) (k : midx) : R :=
  match nth_error ds j, nth_error k j with
  | Some d, Some a => coordinate d a * hphi ds k
  | _, _ => 0
  end.

Lemma midx_eqb_spec a b : reflect (a = b) (midx_eqb a b).
Proof. unfold midx_eqb. destruct (list_eq_dec Z.eq_dec a b); constructor; auto. Qed.

Lemma chunk_values ds chunk rho k : in_mesh (half (sizes ds)) k = true ->
  solve_poisson_equation ds chunk rho k =
  (hphi ds k * gsum (sizes ds) (fun n => rho n * cos (phase (sizes ds) k n)),
   - (hphi ds k * gsum (sizes ds) (fun n => rho n * sin (phase (sizes ds) k n)))).
Proof.
  intros H. unfold solve_poisson_equation, on_mesh. rewrite H. cbn zeta. unfold hphi.
  destruct (midx_eqb k (front ds)); cbn [negb].
  - f_equal; ring.
  - unfold fft; cbn [fst snd]. f_equal; unfold Rdiv; ring.
Qed.

Lemma gsum_cos_diff Ns k n be rho :
  gsum Ns (fun n' => rho n' * cos (phase Ns k n + be - phase Ns k n')) =
  cos (phase Ns k n + be) * gsum Ns (fun n' => rho n' * cos (phase Ns k n')) +
  sin (phase Ns k n + be) * gsum Ns (fun n' => rho n' * sin (phase Ns k n')).
Proof.
  rewrite <- !gsum_scal, <- gsum_plus. apply gsum_ext. intros x _. rewrite cos_minus. ring.
Qed.

Lemma ifft_phi ds chunk rho n :
  ifft (sizes ds) (solve_poisson_equation ds chunk rho) n = filtered (sizes ds) (hphi ds) 0 rho n.
Proof.
  unfold ifft, filtered. f_equal. apply gsum_ext. intros k Hk. rewrite chunk_values by auto. cbn [fst snd].
  rewrite gsum_cos_diff, Rplus_0_r. ring.
Qed.

Lemma half_length Ns : length (half Ns) = length Ns.
Proof.
  induction Ns as [|N t IH]; auto. destruct t as [|M t]; auto.
  change (half (N :: M :: t)) with (N :: half (M :: t)). change (S (length (half (M :: t))) = S (length (M :: t))).
  rewrite IH. reflexivity.
Qed.

Lemma ifft_E ds j fd chunk rho n : (j < length ds)%nat ->
  ifft (sizes ds) (negative_differentiate_equation ds j fd (solve_poisson_equation ds chunk rho)) n =
  filtered (sizes ds) (hE ds j) (- (PI / 2)) rho n.
Proof.
  intros Hj. unfold ifft, filtered. f_equal. apply gsum_ext. intros k Hk.
  unfold negative_differentiate_equation, on_mesh. rewrite Hk. unfold hE.
  pose proof (in_mesh_length _ _ Hk) as L. rewrite half_length in L. unfold sizes in L. rewrite map_length in L.
  destruct (nth_error ds j) as [d|] eqn:E1; [|apply nth_error_None in E1; lia].
  destruct (nth_error k j) as [a|] eqn:E2; [|apply nth_error_None in E2; lia].
  cbn zeta. rewrite chunk_values by auto. unfold cmul; cbn [fst snd].
  rewrite gsum_cos_diff.
  replace (phase (sizes ds) k n + - (PI / 2)) with (- (PI / 2 - phase (sizes ds) k n)) by ring.
  rewrite cos_neg, sin_neg, cos_shift, sin_shift. ring.
Qed.

(** ** action on a resolved wave *)
Definition Hphi (ds : list dim) (m : midx) : R := if midx_eqb m (front ds) then 0 else / symbol ds m.

Lemma hphi_mod ds m : dims_ok ds -> fits (sizes ds) m -> hphi ds (modm (sizes ds) m) = Hphi ds m.
Proof.
  intros G F. unfold hphi, Hphi. pose proof (modm_front ds m G F) as I.
  destruct (midx_eqb_spec (modm (sizes ds) m) (front ds)), (midx_eqb_spec m (front ds)); try tauto.
  rewrite laplace_symbol by auto. reflexivity.
Qed.
Lemma negm_front ds m : negm m = front ds <-> m = front ds.
Proof.
  revert m; induction ds as [|d ds IH]; intros [|a m]; cbn [negm map front]; split; intros E; try congruence;
  injection E as E1 E2; fold (negm m) (front ds) in *; f_equal; try lia; apply IH; auto.
Qed.
Lemma Hphi_neg ds m : Hphi ds (negm m) = Hphi ds m.
Proof.
  unfold Hphi. pose proof (negm_front ds m) as I.
  destruct (midx_eqb_spec (negm m) (front ds)), (midx_eqb_spec m (front ds)); try tauto.
  rewrite symbol_neg. reflexivity.
Qed.
Lemma modm_negm_modm Ns : forall m, pos_sizes Ns -> modm Ns (negm (modm Ns m)) = modm Ns (negm m).
Proof.
  induction Ns as [|N t IH]; intros [|a m] HP; try reflexivity. inversion HP; subst.
  cbn [modm negm map]. fold (negm m) (negm (modm t m)). rewrite IH by auto. f_equal.
  rewrite <- !(Z.sub_0_l (_ mod _)), Zminus_mod_idemp_r, Z.sub_0_l. reflexivity.
Qed.
Lemma negm_negm m : negm (negm m) = m.
Proof. induction m as [|a m IH]; cbn; [reflexivity|]. fold (negm m). fold (negm (negm m)). rewrite IH, Z.opp_involutive. reflexivity. Qed.

Lemma ext_phi ds m : dims_ok ds -> fits (sizes ds) m -> ext 1 (sizes ds) (hphi ds) (modm (sizes ds) m) = Hphi ds m.
Proof.
  intros G F. unfold ext. destruct (inhalf _ _); [apply hphi_mod; auto|].
  unfold neg. rewrite modm_negm_modm by (apply dims_pos; auto). rewrite hphi_mod by (auto using fits_neg). rewrite Hphi_neg. ring.
Qed.

Definition comp (ds : list dim) (j : nat) (m : midx) : R := IZR (nth j m 0%Z) * match nth_error ds j with Some d => fourier_step d | None => 0 end.
Lemma nth_error_modm Ns : forall m j N, nth_error Ns j = Some N -> length m = length Ns ->
  nth_error (modm Ns m) j = Some ((nth j m 0) mod N)%Z.
Proof.
  induction Ns as [|M t IH]; intros [|a m] [|j] N E L; simpl in L; try discriminate; cbn in *.
  - congruence.
  - apply IH; auto.
Qed.
Lemma nth_negm j m : nth j (negm m) 0%Z = (- nth j m 0)%Z.
Proof. unfold negm. change 0%Z with (- 0)%Z at 1. apply map_nth. Qed.

Lemma hE_mod ds j m : dims_ok ds -> fits (sizes ds) m -> (j < length ds)%nat ->
  (2 * Z.abs (nth j m 0) < nth j (sizes ds) 0)%Z -> hE ds j (modm (sizes ds) m) = comp ds j m * Hphi ds m.
Proof.
  intros G F Hj S. unfold hE, comp. destruct (nth_error ds j) as [d|] eqn:E; [|apply nth_error_None in E; lia].
  assert (E2 : nth_error (sizes ds) j = Some (d_n d)) by (unfold sizes; rewrite nth_error_map, E; reflexivity).
  rewrite (nth_error_modm _ m j (d_n d) E2) by (apply fits_length; auto).
  rewrite (nth_error_nth _ _ 0%Z E2) in S.
  rewrite coordinate_mod; auto.
  - rewrite hphi_mod by auto. reflexivity.
  - unfold dims_ok in G. rewrite Forall_forall in G. apply G. eapply nth_error_In; eauto.
Qed.
Lemma comp_neg ds j m : comp ds j (negm m) = - comp ds j m.
Proof. unfold comp. rewrite nth_negm, opp_IZR. ring. Qed.

Lemma ext_E ds j m : dims_ok ds -> fits (sizes ds) m -> (j < length ds)%nat ->
  (2 * Z.abs (nth j m 0) < nth j (sizes ds) 0)%Z ->
  ext (-1) (sizes ds) (hE ds j) (modm (sizes ds) m) = comp ds j m * Hphi ds m.
Proof.
  intros G F Hj S. unfold ext. destruct (inhalf _ _); [apply hE_mod; auto|].
  unfold neg. rewrite modm_negm_modm by (apply dims_pos; auto).
  rewrite hE_mod; auto using fits_neg.
  - rewrite comp_neg, Hphi_neg. ring.
  - rewrite nth_negm, Z.abs_opp. exact S.
Qed.

Lemma phi_wave ds m al n : ds <> [] -> dims_ok ds -> fits (sizes ds) m ->
  filtered (sizes ds) (hphi ds) 0 (fun x => cos (phase (sizes ds) m x + al)) n = Hphi ds m * cos (phase (sizes ds) m n + al).
Proof.
  intros N G F. rewrite (filtered_wave (sizes ds) (hphi ds) 1); auto using dims_pos, fits_length.
  - rewrite !ext_phi, Hphi_neg, Rplus_0_r by auto using fits_neg. field.
  - destruct ds; [congruence|discriminate].
  - intros x. rewrite Rminus_0_l, cos_neg, Rplus_0_r. ring.
Qed.
Lemma E_wave ds j m al n : ds <> [] -> dims_ok ds -> fits (sizes ds) m -> (j < length ds)%nat ->
  (2 * Z.abs (nth j m 0) < nth j (sizes ds) 0)%Z ->
  filtered (sizes ds) (hE ds j) (- (PI / 2)) (fun x => cos (phase (sizes ds) m x + al)) n =
  comp ds j m * Hphi ds m * sin (phase (sizes ds) m n + al).
Proof.
  intros N G F Hj S. rewrite (filtered_wave (sizes ds) (hE ds j) (-1)); auto using dims_pos, fits_length.
  - rewrite !ext_E; auto using fits_neg; [|rewrite nth_negm, Z.abs_opp; exact S].
    rewrite comp_neg, Hphi_neg.
    replace (phase (sizes ds) m n + al + - (PI / 2)) with (- (PI / 2 - (phase (sizes ds) m n + al))) by ring.
    rewrite cos_neg, cos_shift. field.
  - destruct ds; [congruence|discriminate].
  - intros x. replace (- (PI / 2) - x) with (- (x + PI / 2)) by ring. rewrite cos_neg.
    replace (x + PI / 2) with (PI / 2 + x) by ring. rewrite cos_plus, cos_PI2, sin_PI2.
    replace (x + - (PI / 2)) with (- (PI / 2 - x)) by ring. rewrite cos_neg, cos_shift. ring.
Qed.
