(** The solver against the specification. *)
From Coquelicot Require Import Coquelicot.
From Verif Require Import FftModel FftSpec RestrictProofs FftProofs FftHalf FftMain.
From Coq Require Import ZifyBool.
Open Scope R_scope.

Definition lengths (ds : list dim) : list R := map (fun d => IZR (d_n d) * d_dx d) ds.
Definition steps (ds : list dim) : list R := map d_dx ds.

(** ** sums over the grid *)
Lemma fold_app_R {A} (f : A -> R) l1 l2 :
  fold_right (fun n acc => f n + acc) 0 (l1 ++ l2) = fold_right (fun n acc => f n + acc) 0 l1 + fold_right (fun n acc => f n + acc) 0 l2.
Proof. induction l1 as [|x l IH]; simpl; [lra|]. rewrite IH. lra. Qed.
Lemma fold_map_R {A B} (g : A -> B) (f : B -> R) l :
  fold_right (fun n acc => f n + acc) 0 (map g l) = fold_right (fun n acc => f (g n) + acc) 0 l.
Proof. induction l as [|x l IH]; simpl; [lra|]. rewrite IH. lra. Qed.
Lemma total_gsum Ns : forall f, total Ns f = gsum Ns f.
Proof.
  induction Ns as [|N t IH]; intros f; [unfold total; cbn; lra|].
  unfold total in *. cbn [all_indices gsum]. induction (Z.to_nat N) as [|n IHn]; [reflexivity|].
  rewrite seq_S, flat_map_app, fold_app_R, IHn. cbn [Rsum flat_map Nat.add]. rewrite app_nil_r. f_equal.
  rewrite fold_map_R. apply (IH (fun l => f (Z.of_nat n :: l))).
Qed.
Lemma indices_vol Ns : pos_sizes Ns -> INR (length (all_indices Ns)) = vol Ns.
Proof.
  induction 1 as [|N t H P IH]; [reflexivity|]. cbn [all_indices vol fold_right]. fold (vol t). rewrite <- IH.
  rewrite <- (Z2Nat.id N) at 2 by lia. rewrite <- INR_IZR_INZ.
  induction (Z.to_nat N) as [|n IHn]; [simpl; lra|].
  rewrite seq_S, flat_map_app, app_length, plus_INR, IHn, S_INR. cbn [flat_map]. rewrite app_nil_r, map_length. lra.
Qed.
Lemma in_indices Ns : forall n, In n (all_indices Ns) <-> in_mesh Ns n = true.
Proof.
  induction Ns as [|N t IH]; intros n.
  - cbn. destruct n; split; intros; auto; try discriminate; try (destruct H; [discriminate|contradiction]).
  - cbn [all_indices]. rewrite in_flat_map. split.
    + intros [i [Hi Hn]]. apply in_seq in Hi. apply in_map_iff in Hn. destruct Hn as [l [<- Hl]].
      apply in_mesh_cons. split; [lia|]. apply IH; auto.
    + destruct n as [|a n]; [discriminate|]. intros H. apply in_mesh_cons in H. destruct H as [Ha H].
      exists (Z.to_nat a). split; [apply in_seq; lia|]. apply in_map_iff. exists n. rewrite Z2Nat.id by lia. split; auto. apply IH; auto.
Qed.

(** ** waves on the grid and in the continuum *)
Lemma angle_point ds : forall x0 m n, dims_ok ds -> length x0 = length ds -> length m = length ds -> length n = length ds ->
  angle (lengths ds) x0 m (point x0 (steps ds) n) = phase (sizes ds) m n.
Proof.
  induction ds as [|d ds IH]; intros [|o x0] [|a m] [|i n] G L1 L2 L3; simpl in *; try discriminate; auto.
  inversion G; subst. rewrite IH by (auto; lia). f_equal. destruct H1 as [Q1 Q2].
  assert (0 < IZR (d_n d)) by (apply IZR_lt; lia). rewrite mult_IZR. field. lra.
Qed.
Definition kap (ds : list dim) (j : nat) (m : midx) : R := 2 * PI * IZR (nth j m 0%Z) / nth j (lengths ds) 0.
Lemma comp_kap ds j m : dims_ok ds -> (j < length ds)%nat -> comp ds j m = kap ds j m.
Proof.
  intros G Hj. unfold comp, kap, lengths. destruct (nth_error ds j) as [d|] eqn:E; [|apply nth_error_None in E; lia].
  rewrite (nth_error_nth _ _ 0 (x := IZR (d_n d) * d_dx d)) by (rewrite nth_error_map, E; reflexivity).
  assert (GD : good_dim d).
  { unfold dims_ok in G. rewrite Forall_forall in G. apply G. eapply nth_error_In; eauto. }
  rewrite fourier_step_eq by auto. destruct GD as [Q1 Q2]. assert (0 < IZR (d_n d)) by (apply IZR_lt; lia). field. lra.
Qed.
Lemma angle_set ds : forall x0 m x j t, length x0 = length ds -> length m = length ds -> length x = length ds -> (j < length ds)%nat ->
  angle (lengths ds) x0 m (set_coord x j t) = angle (lengths ds) x0 m x + kap ds j m * (t - nth j x 0).
Proof.
  induction ds as [|d ds IH]; intros [|o x0] [|a m] [|y x] [|j] t L1 L2 L3 Hj; simpl in L1, L2, L3, Hj; try discriminate; try lia.
  - unfold kap. cbn [lengths map set_coord angle nth]. unfold Rdiv. ring.
  - cbn [lengths map set_coord angle nth]. fold (lengths ds). rewrite IH by lia.
    change (kap (d :: ds) (S j) (a :: m)) with (kap ds j m). ring.
Qed.

Definition grad_waves (ds : list dim) (x0 : list R) (ws : list wave) (j : nat) (x : list R) : R :=
  fold_right (fun w acc => - (amplitude w * kap ds j (number w)) * sin (angle (lengths ds) x0 (number w) x + shift w) + acc) 0 ws.
Definition hess_waves (ds : list dim) (x0 : list R) (ws : list wave) (j : nat) (x : list R) : R :=
  fold_right (fun w acc => - (amplitude w * (kap ds j (number w) * kap ds j (number w))) * cos (angle (lengths ds) x0 (number w) x + shift w) + acc) 0 ws.

Lemma lim_ext (f g : R -> R) x l : (forall t, f t = g t) -> derivable_pt_lim f x l -> derivable_pt_lim g x l.
Proof. intros E H e He. destruct (H e He) as [d D]. exists d. intros h Hh Hd. rewrite <- !E. apply D; auto. Qed.
Lemma lim_cos A k b x0 : derivable_pt_lim (fun t => A * cos (b + k * (t - x0))) x0 (A * (- sin b * k)).
Proof.
  apply is_derive_Reals. auto_derive; [trivial|]. replace (b + k * (x0 + - x0)) with b by ring. ring.
Qed.
Lemma lim_sin A k b x0 : derivable_pt_lim (fun t => A * sin (b + k * (t - x0))) x0 (A * (cos b * k)).
Proof.
  apply is_derive_Reals. auto_derive; [trivial|]. replace (b + k * (x0 + - x0)) with b by ring. ring.
Qed.

Definition sized (ds : list dim) (ws : list wave) := Forall (fun w => length (number w) = length ds) ws.

Lemma grad_ok ds x0 ws j : length x0 = length ds -> sized ds ws -> (j < length ds)%nat ->
  partial_derivative (length ds) j (field_at (lengths ds) x0 ws) (grad_waves ds x0 ws j).
Proof.
  intros L0 S Hj x Lx. induction S as [|w ws Hw S IH]; cbn [field_at grad_waves fold_right]; [apply derivable_pt_lim_const|].
  apply (derivable_pt_lim_plus (fun t => wave_at (lengths ds) x0 w (set_coord x j t))); [|exact IH].
  replace (- (amplitude w * kap ds j (number w)) * sin (angle (lengths ds) x0 (number w) x + shift w))
    with (amplitude w * (- sin (angle (lengths ds) x0 (number w) x + shift w) * kap ds j (number w))) by ring.
  eapply lim_ext; [|apply lim_cos]. intros t. cbn beta. unfold wave_at. rewrite angle_set by auto. f_equal. f_equal. ring.
Qed.
Lemma hess_ok ds x0 ws j : length x0 = length ds -> sized ds ws -> (j < length ds)%nat ->
  partial_derivative (length ds) j (grad_waves ds x0 ws j) (hess_waves ds x0 ws j).
Proof.
  intros L0 S Hj x Lx. induction S as [|w ws Hw S IH]; cbn [hess_waves grad_waves fold_right]; [apply derivable_pt_lim_const|].
  apply (derivable_pt_lim_plus (fun t => - (amplitude w * kap ds j (number w)) * sin (angle (lengths ds) x0 (number w) (set_coord x j t) + shift w))); [|exact IH].
  replace (- (amplitude w * (kap ds j (number w) * kap ds j (number w))) * cos (angle (lengths ds) x0 (number w) x + shift w))
    with (- (amplitude w * kap ds j (number w)) * (cos (angle (lengths ds) x0 (number w) x + shift w) * kap ds j (number w))) by ring.
  eapply lim_ext; [|apply lim_sin]. intros t. cbn beta. rewrite angle_set by auto. f_equal. f_equal. ring.
Qed.

(** the potential *)
Definition potential (ds : list dim) (ws : list wave) : list wave :=
  map (fun w => {| amplitude := amplitude w * Hphi ds (number w); number := number w; shift := shift w |}) ws.
Definition constant_part (ds : list dim) (ws : list wave) : R :=
  fold_right (fun w acc => (if midx_eqb (number w) (front ds) then amplitude w * cos (shift w) else 0) + acc) 0 ws.

Lemma symbol_sum ds : forall m, dims_ok ds -> length m = length ds ->
  symbol ds m = Rsum (length ds) (fun j => kap ds j m * kap ds j m).
Proof.
  intros m G L. rewrite (Rsum_ext _ _ (fun j => comp ds j m * comp ds j m)) by (intros; rewrite comp_kap by auto; reflexivity).
  clear G. revert m L. induction ds as [|d ds IH]; intros [|a m] L; simpl in L; try discriminate; [reflexivity|].
  cbn [length symbol]. rewrite Rsum_first. rewrite (IH m) by lia. reflexivity.
Qed.
Lemma angle_front ds : forall x0 x, angle (lengths ds) x0 (front ds) x = 0.
Proof.
  induction ds as [|d ds IH]; intros [|o x0] [|y x]; try reflexivity.
  cbn [lengths map front angle]. fold (lengths ds) (front ds). rewrite IH. unfold Rdiv. ring.
Qed.

Lemma sized_potential ds ws : sized ds ws -> sized ds (potential ds ws).
Proof. induction 1; constructor; auto. Qed.

Lemma potential_solves ds x0 ws : dims_ok ds -> length x0 = length ds -> sized ds ws ->
  poisson (length ds) (field_at (lengths ds) x0 ws) (constant_part ds ws)
    (field_at (lengths ds) x0 (potential ds ws)) (grad_waves ds x0 (potential ds ws)) (hess_waves ds x0 (potential ds ws)).
Proof.
  intros G L0 S. split.
  - intros j Hj. split; [apply grad_ok|apply hess_ok]; auto using sized_potential.
  - intros x Lx. induction S as [|w ws Hw S IH].
    + cbn. rewrite Rsum_zero by auto. ring.
    + cbn [hess_waves potential map fold_right field_at constant_part amplitude number shift].
      fold (potential ds ws). fold (field_at (lengths ds) x0 ws x). fold (constant_part ds ws).
      rewrite Rsum_plus. rewrite (Rsum_ext _ _ (fun j => - (amplitude w * Hphi ds (number w) * cos (angle (lengths ds) x0 (number w) x + shift w)) * (kap ds j (number w) * kap ds j (number w)))) by (intros; ring).
      rewrite Rsum_scal, <- symbol_sum by auto.
      rewrite Ropp_plus_distr. unfold hess_waves in IH. rewrite IH. unfold wave_at, Hphi.
      destruct (midx_eqb_spec (number w) (front ds)) as [E|E].
      * rewrite E, angle_front, Rplus_0_l. ring.
      * pose proof (symbol_pos ds (number w) G Hw E). field. lra.
Qed.

Lemma kap_period ds j m : dims_ok ds -> (j < length ds)%nat -> kap ds j m * nth j (lengths ds) 0 = 2 * IZR (nth j m 0%Z) * PI.
Proof.
  intros G Hj. unfold kap, lengths. destruct (nth_error ds j) as [d|] eqn:E; [|apply nth_error_None in E; lia].
  rewrite (nth_error_nth _ _ 0 (x := IZR (d_n d) * d_dx d)) by (rewrite nth_error_map, E; reflexivity).
  assert (GD : good_dim d).
  { unfold dims_ok in G. rewrite Forall_forall in G. apply G. eapply nth_error_In; eauto. }
  destruct GD as [Q1 Q2]. assert (0 < IZR (d_n d)) by (apply IZR_lt; lia). field. lra.
Qed.
Lemma waves_periodic ds x0 ws : dims_ok ds -> length x0 = length ds -> sized ds ws -> periodic (lengths ds) (field_at (lengths ds) x0 ws).
Proof.
  intros G L0 S x j Lx Hj. unfold lengths in Lx, Hj at 1. rewrite map_length in Lx, Hj.
  induction S as [|w ws Hw S IH]; [reflexivity|]. cbn [field_at fold_right].
  f_equal; [|exact IH]. unfold wave_at. rewrite angle_set by auto. f_equal.
  replace (nth j x 0 + nth j (lengths ds) 0 - nth j x 0) with (nth j (lengths ds) 0) by ring. rewrite kap_period by auto.
  replace (angle (lengths ds) x0 (number w) x + 2 * IZR (nth j (number w) 0%Z) * PI + shift w)
    with (angle (lengths ds) x0 (number w) x + shift w + 2 * IZR (nth j (number w) 0%Z) * PI) by ring.
  apply cos_shift_Z.
Qed.

(** ** mean values *)
Lemma front_zero ds : front ds = zero (sizes ds).
Proof. unfold front, zero, sizes. rewrite map_map. reflexivity. Qed.
Lemma zero_in_mesh Ns : pos_sizes Ns -> in_mesh Ns (zero Ns) = true.
Proof. induction 1; [reflexivity|]. apply in_mesh_cons. split; [lia|auto]. Qed.
Lemma wave_total ds m al : dims_ok ds -> fits (sizes ds) m ->
  gsum (sizes ds) (fun n => cos (phase (sizes ds) m n + al)) = if midx_eqb m (front ds) then vol (sizes ds) * cos al else 0.
Proof.
  intros G F. pose proof (dims_pos ds G) as HP. pose proof (fits_length _ _ F) as L.
  rewrite (gsum_ext _ _ (fun n => cos (al + phase (sizes ds) m n))) by (intros; f_equal; ring).
  rewrite cos_sum by auto. pose proof (congr_modm (sizes ds) (zero (sizes ds)) m HP (zero_in_mesh _ HP) L) as C.
  rewrite <- front_zero in C. pose proof (modm_front ds m G F) as M.
  rewrite <- front_zero.
  destruct (congr (sizes ds) m (front ds)) eqn:E; destruct (midx_eqb_spec m (front ds)) as [E2|E2]; auto.
  - exfalso. apply E2, M. symmetry. apply C. reflexivity.
  - exfalso. assert (false = true); [|discriminate]. apply C. symmetry. apply M. exact E2.
Qed.

Section OneField.
Variable ds : list dim.
Variable x0 : list R.
Hypothesis NE : ds <> [].
Hypothesis G : dims_ok ds.
Hypothesis L0 : length x0 = length ds.

Lemma fits_sized ws : Forall (resolved (sizes ds)) ws -> sized ds ws.
Proof. induction 1 as [|w ws H]; constructor; auto. apply fits_length in H. unfold sizes in H. rewrite map_length in H. exact H. Qed.

Definition on_grid (ws : list wave) (n : midx) : R := field_at (lengths ds) x0 ws (point x0 (steps ds) n).
Definition grid_waves (ws : list wave) (n : midx) : R :=
  fold_right (fun w acc => amplitude w * cos (phase (sizes ds) (number w) n + shift w) + acc) 0 ws.
Lemma sizes_length : length (sizes ds) = length ds.
Proof. apply map_length. Qed.
Lemma on_grid_waves ws n : sized ds ws -> length n = length ds -> on_grid ws n = grid_waves ws n.
Proof.
  intros S L. unfold on_grid. induction S as [|w ws Hw S IH]; [reflexivity|]. cbn [field_at grid_waves fold_right]. fold (field_at (lengths ds) x0 ws (point x0 (steps ds) n)).
  rewrite IH. unfold wave_at. rewrite angle_point by auto. reflexivity.
Qed.

Lemma gsum_waves ws : Forall (resolved (sizes ds)) ws -> gsum (sizes ds) (grid_waves ws) = vol (sizes ds) * constant_part ds ws.
Proof.
  induction 1 as [|w ws H HF IH].
  - cbn [grid_waves fold_right constant_part]. rewrite gsum_zero by auto. ring.
  - change (gsum (sizes ds) (fun n => amplitude w * cos (phase (sizes ds) (number w) n + shift w) + grid_waves ws n) =
      vol (sizes ds) * ((if midx_eqb (number w) (front ds) then amplitude w * cos (shift w) else 0) + constant_part ds ws)).
    rewrite (gsum_plus (sizes ds) (fun n => amplitude w * cos (phase (sizes ds) (number w) n + shift w)) (grid_waves ws)).
    rewrite IH, gsum_scal, wave_total by auto.
    destruct (midx_eqb (number w) (front ds)); ring.
Qed.

Lemma mean_waves ws rho : Forall (resolved (sizes ds)) ws ->
  (forall n, in_mesh (sizes ds) n = true -> rho n = on_grid ws n) -> mean (sizes ds) rho = constant_part ds ws.
Proof.
  intros F H. unfold mean. rewrite total_gsum, indices_vol by (apply dims_pos; auto).
  rewrite (gsum_ext _ _ (grid_waves ws)).
  2:{ intros n Hn. rewrite H by auto. apply on_grid_waves; [apply fits_sized; auto|].
      rewrite (in_mesh_length _ _ Hn). apply sizes_length. }
  rewrite gsum_waves by auto. pose proof (vol_pos (sizes ds) (dims_pos ds G)). field. lra.
Qed.

Lemma filtered_waves h be c ws : forall n,
  (forall w, In w ws -> filtered (sizes ds) h be (fun x => cos (phase (sizes ds) (number w) x + shift w)) n = c w n) ->
  filtered (sizes ds) h be (grid_waves ws) n = fold_right (fun w acc => amplitude w * c w n + acc) 0 ws.
Proof.
  intros n H. induction ws as [|w ws IH].
  - apply filtered_zero.
  - change (filtered (sizes ds) h be (fun x => amplitude w * cos (phase (sizes ds) (number w) x + shift w) + grid_waves ws x) n =
      amplitude w * c w n + fold_right (fun w acc => amplitude w * c w n + acc) 0 ws).
    rewrite (filtered_plus _ h be (fun x => amplitude w * cos (phase (sizes ds) (number w) x + shift w)) (grid_waves ws)).
    rewrite filtered_scal, H by (left; reflexivity). f_equal. apply IH. intros w' Hw'. apply H. right; auto.
Qed.

Lemma phi_field ws rho n : Forall (resolved (sizes ds)) ws ->
  (forall n, in_mesh (sizes ds) n = true -> rho n = on_grid ws n) -> in_mesh (sizes ds) n = true ->
  filtered (sizes ds) (hphi ds) 0 rho n = on_grid (potential ds ws) n.
Proof.
  intros F H Hn. pose proof (fits_sized ws F) as S.
  assert (LM : forall n, in_mesh (sizes ds) n = true -> length n = length ds).
  { intros k Hk. rewrite (in_mesh_length _ _ Hk). apply sizes_length. }
  rewrite (filtered_ext _ _ (hphi ds) 0 rho (grid_waves ws)) by (auto; intros x Hx; rewrite H by auto; apply on_grid_waves; auto).
  rewrite (filtered_waves _ _ (fun w n => Hphi ds (number w) * cos (phase (sizes ds) (number w) n + shift w))).
  2:{ intros w Hw. apply phi_wave; auto. rewrite Forall_forall in F. apply F. auto. }
  rewrite on_grid_waves by (auto using sized_potential).
  clear -ws. induction ws as [|w ws IH]; [reflexivity|]. cbn [grid_waves potential map fold_right amplitude number shift].
  fold (potential ds ws). rewrite IH. unfold grid_waves. ring.
Qed.

Lemma E_field ws rho n j : Forall (resolved (sizes ds)) ws -> (j < length ds)%nat ->
  Forall (resolved_strictly j (sizes ds)) ws ->
  (forall n, in_mesh (sizes ds) n = true -> rho n = on_grid ws n) -> in_mesh (sizes ds) n = true ->
  filtered (sizes ds) (hE ds j) (- (PI / 2)) rho n = - grad_waves ds x0 (potential ds ws) j (point x0 (steps ds) n).
Proof.
  intros F Hj FS H Hn. pose proof (fits_sized ws F) as S.
  assert (LM : forall n, in_mesh (sizes ds) n = true -> length n = length ds).
  { intros k Hk. rewrite (in_mesh_length _ _ Hk). apply sizes_length. }
  rewrite (filtered_ext _ _ (hE ds j) _ rho (grid_waves ws)) by (auto; intros x Hx; rewrite H by auto; apply on_grid_waves; auto).
  rewrite (filtered_waves _ _ (fun w n => comp ds j (number w) * Hphi ds (number w) * sin (phase (sizes ds) (number w) n + shift w))).
  2:{ intros w Hw. rewrite Forall_forall in F, FS. apply E_wave; auto. apply F; auto. apply FS; auto. }
  clear F FS H. induction S as [|w ws Hw S IH]; [cbn; ring|].
  cbn [grad_waves potential map fold_right amplitude number shift]. fold (potential ds ws).
  rewrite IH. rewrite angle_point, comp_kap by auto. unfold grad_waves. ring.
Qed.

Lemma phi_total ws rho : Forall (resolved (sizes ds)) ws ->
  (forall n, in_mesh (sizes ds) n = true -> rho n = on_grid ws n) ->
  total (sizes ds) (filtered (sizes ds) (hphi ds) 0 rho) = 0.
Proof.
  intros F H. rewrite total_gsum. rewrite (gsum_ext _ _ (grid_waves (potential ds ws))).
  2:{ intros n Hn. rewrite (phi_field ws) by auto. apply on_grid_waves; [apply sized_potential, fits_sized; auto|].
      rewrite (in_mesh_length _ _ Hn). apply sizes_length. }
  rewrite gsum_waves.
  - assert (E : constant_part ds (potential ds ws) = 0); [|rewrite E; ring].
    clear. induction ws as [|w ws IH]; [reflexivity|]. cbn [constant_part potential map fold_right amplitude number shift].
    fold (potential ds ws) (constant_part ds (potential ds ws)). rewrite IH. unfold Hphi. destruct (midx_eqb (number w) (front ds)); ring.
  - clear -F. induction F; constructor; auto.
Qed.
End OneField.

(** ** completeness: every array is the trace of a sum of resolved waves *)
Definition centre (d : dim) (k : Z) : Z := ((k + d_n d / 2) mod d_n d - d_n d / 2)%Z.
Fixpoint centres (ds : list dim) (k : midx) : midx :=
  match ds, k with
  | d :: ds', a :: k' => centre d a :: centres ds' k'
  | _, _ => []
  end.
Lemma centres_fits ds : forall k, dims_ok ds -> length k = length ds -> fits (sizes ds) (centres ds k).
Proof.
  induction ds as [|d ds IH]; intros [|a k] G L; simpl in L; try discriminate; [constructor|].
  inversion G; subst. constructor; [|apply IH; auto]. destruct H1 as [H1 _]. unfold centre.
  pose proof (Z.div_mod (d_n d) 2 ltac:(lia)). pose proof (Z.mod_pos_bound (d_n d) 2 ltac:(lia)).
  pose proof (Z.mod_pos_bound (a + d_n d / 2) (d_n d) ltac:(lia)). lia.
Qed.
Lemma centres_congr ds : forall k, dims_ok ds -> length k = length ds -> congr (sizes ds) (centres ds k) k = true.
Proof.
  induction ds as [|d ds IH]; intros [|a k] G L; simpl in L; try discriminate; [reflexivity|].
  inversion G; subst. cbn [centres sizes map congr]. rewrite IH by auto. rewrite andb_true_r.
  unfold centre. apply Z.eqb_eq. destruct H1 as [H1 _].
  rewrite <- Z.sub_add_distr, Zminus_mod_idemp_l.
  replace (a + d_n d / 2 - (d_n d / 2 + a))%Z with 0%Z by lia. apply Z.mod_0_l. lia.
Qed.
Lemma phase_sym Ns : forall k n, phase Ns k n = phase Ns n k.
Proof. induction Ns as [|N t IH]; intros [|a k] [|b n]; cbn [phase]; auto. rewrite IH, Z.mul_comm. reflexivity. Qed.

Definition spectrum (ds : list dim) (rho : midx -> R) : list wave :=
  flat_map (fun k =>
    [ {| amplitude := gsum (sizes ds) (fun n => rho n * cos (phase (sizes ds) k n)) / vol (sizes ds); number := centres ds k; shift := 0 |};
      {| amplitude := gsum (sizes ds) (fun n => rho n * sin (phase (sizes ds) k n)) / vol (sizes ds); number := centres ds k; shift := - (PI / 2) |} ])
    (all_indices (sizes ds)).

Lemma congr_eq Ns : forall a b, in_mesh Ns a = true -> in_mesh Ns b = true -> congr Ns a b = true -> a = b.
Proof.
  induction Ns as [|N t IH]; intros [|x a] [|y b] HA HB H; try discriminate; auto.
  apply in_mesh_cons in HA, HB. cbn [congr] in H. apply andb_prop in H. destruct H as [H1 H2]. apply Z.eqb_eq in H1.
  destruct (IZR_div_exact _ N ltac:(lia) H1) as [q E]. f_equal; [assert (q = 0 \/ q >= 1 \/ q <= -1)%Z as [->|[Q|Q]] by lia; [lia|nia|nia]|]. apply IH; tauto.
Qed.
Lemma congr_refl Ns : forall a, length a = length Ns -> congr Ns a a = true.
Proof. induction Ns as [|N t IH]; intros [|x a] L; simpl in L; try discriminate; auto. cbn [congr]. rewrite IH by lia. rewrite Z.sub_diag. reflexivity. Qed.

Lemma spectrum_resolved ds rho : dims_ok ds -> Forall (resolved (sizes ds)) (spectrum ds rho).
Proof.
  intros G. apply Forall_forall. intros w Hw. unfold spectrum in Hw. apply in_flat_map in Hw. destruct Hw as [k [Hk Hw]].
  apply in_indices in Hk. pose proof (in_mesh_length _ _ Hk) as L. unfold sizes in L. rewrite map_length in L.
  destruct Hw as [<-|[<-|[]]]; apply centres_fits; auto.
Qed.

Lemma spectrum_grid ds x0 rho n : dims_ok ds -> length x0 = length ds -> in_mesh (sizes ds) n = true ->
  rho n = on_grid ds x0 (spectrum ds rho) n.
Proof.
  intros G L0 Hn. pose proof (dims_pos ds G) as HP. pose proof (in_mesh_length _ _ Hn) as L. unfold sizes in L. rewrite map_length in L.
  rewrite on_grid_waves; auto; [|apply fits_sized, spectrum_resolved; auto].
  assert (E : grid_waves ds (spectrum ds rho) n =
     gsum (sizes ds) (fun k => / vol (sizes ds) * gsum (sizes ds) (fun n' => rho n' * cos (phase (sizes ds) k n + 0 - phase (sizes ds) k n')))).
  { rewrite <- total_gsum. unfold total, spectrum.
    assert (A : forall l, (forall k, In k l -> length k = length ds) ->
      grid_waves ds (flat_map (fun k =>
       [ {| amplitude := gsum (sizes ds) (fun n => rho n * cos (phase (sizes ds) k n)) / vol (sizes ds); number := centres ds k; shift := 0 |};
         {| amplitude := gsum (sizes ds) (fun n => rho n * sin (phase (sizes ds) k n)) / vol (sizes ds); number := centres ds k; shift := - (PI / 2) |} ]) l) n
      = fold_right (fun k acc => / vol (sizes ds) * gsum (sizes ds) (fun n' => rho n' * cos (phase (sizes ds) k n + 0 - phase (sizes ds) k n')) + acc) 0 l).
    { induction l as [|k l IH]; intros Hl; [reflexivity|].
      cbn [flat_map app grid_waves fold_right amplitude number shift].
      assert (IH' := IH (fun k Hk => Hl k (or_intror Hk))). unfold grid_waves in IH'. rewrite IH'. rewrite <- Rplus_assoc. f_equal.
      destruct (phase_congr (sizes ds) _ _ n HP (centres_congr ds k G (Hl k (or_introl eq_refl)))) as [q ->].
      replace (phase (sizes ds) k n + 2 * IZR q * PI + 0) with (phase (sizes ds) k n + 2 * IZR q * PI) by ring.
      replace (phase (sizes ds) k n + 2 * IZR q * PI + - (PI / 2)) with (- (PI / 2 - phase (sizes ds) k n) + 2 * IZR q * PI) by ring.
      rewrite !cos_shift_Z, cos_neg, cos_shift, gsum_cos_diff, Rplus_0_r. unfold Rdiv. ring. }
    apply A. intros k Hk. apply in_indices in Hk. rewrite (in_mesh_length _ _ Hk). apply map_length. }
  rewrite E. clear E. rewrite gsum_scal, gsum_swap.
  rewrite (gsum_ext _ _ (fun n' => rho n' * (if congr (sizes ds) n n' then vol (sizes ds) else 0))).
  2:{ intros n' Hn'. rewrite gsum_scal. f_equal. pose proof (in_mesh_length _ _ Hn') as L'. pose proof (in_mesh_length _ _ Hn) as L1.
      rewrite (gsum_ext _ _ (fun k => cos (0 + phase (sizes ds) (addm n (negm n')) k))).
      2:{ intros k _. f_equal. rewrite phase_plus by (rewrite negm_length; congruence). rewrite phase_neg, (phase_sym _ k n), (phase_sym _ k n'). ring. }
      rewrite cos_sum by (auto; rewrite addm_length; rewrite ?negm_length; congruence).
      rewrite congr_sub by congruence. rewrite cos_0. destruct (congr (sizes ds) n n'); ring. }
  rewrite (gsum_single (sizes ds) n).
  - rewrite congr_refl by (apply in_mesh_length; auto). pose proof (vol_pos (sizes ds) HP). field. lra.
  - exact Hn.
  - intros l Hl Nl. destruct (congr (sizes ds) n l) eqn:C; [|ring]. exfalso. apply Nl. symmetry. apply (congr_eq (sizes ds)); auto.
Qed.
