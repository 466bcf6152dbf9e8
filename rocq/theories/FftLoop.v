(** The batch loop, the arrays of the caller, and the final statements. *)
From Verif Require Import FftModel FftSpec RestrictProofs FftProofs FftHalf FftMain FftSolve.
From Coq Require Import ZifyBool.
Open Scope R_scope.

Lemma put_same m loc b f Ns n : in_mesh Ns n = true -> put m loc b f Ns loc b n = f n.
Proof. intros H. unfold put. rewrite !Nat.eqb_refl, H. reflexivity. Qed.
Lemma put_other m loc b f Ns l b' n : l <> loc \/ b' <> b \/ in_mesh Ns n = false -> put m loc b f Ns l b' n = m l b' n.
Proof.
  intros H. unfold put. destruct (Nat.eqb_spec l loc), (Nat.eqb_spec b' b), (in_mesh Ns n); cbn [andb]; auto.
  destruct H as [H|[H|H]]; congruence.
Qed.

Section Loop.
Variable clobber : (midx -> cplx) -> midx -> cplx.
Variable ds : list dim.

Lemma gradient_spec b chunk rho : forall comps m fd m' fd',
  Forall (fun c => (fst c < length ds)%nat) comps -> NoDup (map snd comps) ->
  get_gradient clobber ds b comps m fd (solve_poisson_equation ds chunk rho) = (m', fd') ->
  (forall j loc n, In (j, loc) comps -> in_mesh (sizes ds) n = true ->
     m' loc b n = filtered (sizes ds) (hE ds j) (- (PI / 2)) rho n) /\
  (forall l b' n, ~ In l (map snd comps) \/ b' <> b \/ in_mesh (sizes ds) n = false -> m' l b' n = m l b' n).
Proof.
  unfold get_gradient. induction comps as [|[j loc] comps IH]; intros m fd m' fd' HF ND E; cbn [fold_left] in E.
  - injection E as <- <-. split; [intros ? ? ? []|auto].
  - inversion HF; subst. inversion ND; subst. cbn [differentiate_and_invert] in E.
    destruct (IH _ _ _ _ H2 H4 E) as [A B]. split.
    + intros j' loc' n [Q|Q] Hn; [|apply A; auto]. injection Q as <- <-.
      rewrite B by (left; exact H3). rewrite put_same by auto. apply ifft_E. exact H1.
    + intros l b' n Q. rewrite B.
      * apply put_other. destruct Q as [Q|[Q|Q]]; auto. left. intros ->. apply Q. left; reflexivity.
      * destruct Q as [Q|[Q|Q]]; auto. left. intros Q2. apply Q. right; exact Q2.
Qed.

Lemma solve_phi_E_spec nb phi E rho m0 c0 f0 m c f :
  Forall (fun x => (fst x < length ds)%nat) E -> NoDup (phi :: map snd E) ->
  solve_phi_E clobber ds nb phi E rho (m0, c0, f0) = (m, c, f) ->
  (forall b n, (b < nb)%nat -> in_mesh (sizes ds) n = true ->
     m phi b n = filtered (sizes ds) (hphi ds) 0 (m0 rho b) n /\
     forall j loc, In (j, loc) E -> m loc b n = filtered (sizes ds) (hE ds j) (- (PI / 2)) (m0 rho b) n) /\
  (forall l b n, ~ In l (phi :: map snd E) \/ (nb <= b)%nat \/ in_mesh (sizes ds) n = false -> m l b n = m0 l b n).
Proof.
  intros HF ND. revert m c f. induction nb as [|k IH]; intros m c f H.
  - cbn in H. injection H as <- <- <-. split; [intros; lia|auto].
  - unfold solve_phi_E in H. cbn [for_loop] in H. fold (solve_phi_E clobber ds k phi E rho (m0, c0, f0)) in H.
    destruct (solve_phi_E clobber ds k phi E rho (m0, c0, f0)) as [[m1 c1] f1] eqn:E1.
    destruct (IH _ _ _ eq_refl) as [A B]. clear IH.
    destruct (get_gradient clobber ds k E m1 f1 (solve_poisson_equation ds c1 (m1 rho k))) as [m2 f2] eqn:E2.
    assert (HM : m = put m2 phi k (ifft (sizes ds) (solve_poisson_equation ds c1 (m1 rho k))) (sizes ds)) by congruence.
    clear H. inversion ND; subst.
    destruct (gradient_spec _ _ _ _ _ _ _ _ HF ltac:(assumption) E2) as [P Q].
    assert (RHO : forall n, m1 rho k n = m0 rho k n) by (intros; apply B; right; left; lia).
    assert (FE : forall h be n, filtered (sizes ds) h be (m1 rho k) n = filtered (sizes ds) h be (m0 rho k) n).
    { intros. apply filtered_ext; auto. }
    split.
    + intros b n Hb Hn. destruct (Nat.eq_dec b k) as [->|N].
      * split.
        -- rewrite put_same by auto. rewrite ifft_phi. apply FE.
        -- intros j loc HI. rewrite put_other.
           ++ rewrite (P j loc n HI Hn). apply FE.
           ++ left. intros ->. apply H1. apply in_map_iff. exists (j, phi). auto.
      * destruct (A b n ltac:(lia) Hn) as [A1 A2]. split.
        -- rewrite put_other by auto. rewrite Q by auto. exact A1.
        -- intros j loc HI. rewrite put_other by auto. rewrite Q by auto. apply A2; auto.
    + intros l b n Hl. rewrite put_other.
      * rewrite Q.
        -- apply B. destruct Hl as [Hl|[Hl|Hl]]; auto. right; left; lia.
        -- destruct Hl as [Hl|[Hl|Hl]]; auto; [|right; left; lia]. left. intros X. apply Hl. right; exact X.
      * destruct Hl as [Hl|[Hl|Hl]]; auto; [|right; left; lia]. left. intros ->. apply Hl. left; reflexivity.
Qed.

Lemma solve_phi_spec nb phi rho m0 c0 m c :
  solve_phi clobber ds nb phi rho (m0, c0) = (m, c) ->
  (forall b n, (b < nb)%nat -> in_mesh (sizes ds) n = true -> m phi b n = filtered (sizes ds) (hphi ds) 0 (m0 rho b) n) /\
  (forall l b n, l <> phi \/ (nb <= b)%nat \/ in_mesh (sizes ds) n = false -> m l b n = m0 l b n).
Proof.
  revert m c. induction nb as [|k IH]; intros m c H.
  - cbn in H. injection H as <- <-. split; [intros; lia|auto].
  - unfold solve_phi in H. cbn [for_loop] in H. fold (solve_phi clobber ds k phi rho (m0, c0)) in H.
    destruct (solve_phi clobber ds k phi rho (m0, c0)) as [m1 c1] eqn:E1.
    destruct (IH _ _ eq_refl) as [A B]. clear IH.
    assert (HM : m = put m1 phi k (ifft (sizes ds) (solve_poisson_equation ds c1 (m1 rho k))) (sizes ds)) by congruence.
    clear H. subst m.
    assert (RHO : forall n, m1 rho k n = m0 rho k n) by (intros; apply B; right; left; lia).
    split.
    + intros b n Hb Hn. destruct (Nat.eq_dec b k) as [->|N].
      * rewrite put_same by auto. rewrite ifft_phi. apply filtered_ext; auto.
      * rewrite put_other by auto. apply A; auto. lia.
    + intros l b n Hl. rewrite put_other.
      * apply B. destruct Hl as [Hl|[Hl|Hl]]; auto. right; left; lia.
      * destruct Hl as [Hl|[Hl|Hl]]; auto. right; left; lia.
Qed.
End Loop.

(** ** final statements *)
Lemma solver_phi_E clobber ds x0 nb phi E rho m0 c0 f0 m c f (ws : nat -> list wave) :
  ds <> [] -> Forall (fun d => (2 <= d_n d)%Z /\ 0 < d_dx d) ds -> length x0 = length ds ->
  NoDup (phi :: map snd E) -> (forall j loc, In (j, loc) E -> (j < length ds)%nat) ->
  (forall b, (b < nb)%nat -> Forall (resolved (sizes ds)) (ws b) /\
     forall n, In n (all_indices (sizes ds)) ->
       m0 rho b n = field_at (lengths ds) x0 (ws b) (point x0 (steps ds) n)) ->
  solve_phi_E clobber ds nb phi E rho (m0, c0, f0) = (m, c, f) ->
  forall b, (b < nb)%nat ->
  exists Phi grad hess,
    poisson (length ds) (field_at (lengths ds) x0 (ws b)) (mean (sizes ds) (m0 rho b)) Phi grad hess /\
    periodic (lengths ds) Phi /\
    (forall n, In n (all_indices (sizes ds)) -> m phi b n = Phi (point x0 (steps ds) n)) /\
    total (sizes ds) (m phi b) = 0 /\
    (forall j loc, In (j, loc) E -> Forall (resolved_strictly j (sizes ds)) (ws b) ->
       forall n, In n (all_indices (sizes ds)) -> m loc b n = - grad j (point x0 (steps ds) n)).
Proof.
  intros NE G L0 ND HE HW H b Hb. destruct (HW b Hb) as [RW HR].
  assert (HR' : forall n, in_mesh (sizes ds) n = true -> m0 rho b n = on_grid ds x0 (ws b) n).
  { intros n Hn. apply HR. apply in_indices. exact Hn. }
  assert (HF : Forall (fun x => (fst x < length ds)%nat) E).
  { apply Forall_forall. intros [j loc] HI. apply (HE j loc HI). }
  destruct (solve_phi_E_spec _ _ _ _ _ _ _ _ _ _ _ _ HF ND H) as [A _].
  exists (field_at (lengths ds) x0 (potential ds (ws b))), (grad_waves ds x0 (potential ds (ws b))), (hess_waves ds x0 (potential ds (ws b))).
  split; [|split; [apply waves_periodic; auto; apply sized_potential, fits_sized; auto|split; [|split]]].
  - rewrite (mean_waves ds x0 G L0 (ws b)) by auto. apply potential_solves; auto. apply fits_sized; auto.
  - intros n Hn. apply in_indices in Hn. destruct (A b n Hb Hn) as [A1 _]. rewrite A1. rewrite (phi_field ds x0 NE G L0 (ws b)) by auto. reflexivity.
  - rewrite <- (phi_total ds x0 NE G L0 (ws b) (m0 rho b)) by auto. rewrite !total_gsum. apply gsum_ext.
    intros n Hn. apply (A b n Hb Hn).
  - intros j loc HI FS n Hn. apply in_indices in Hn. destruct (A b n Hb Hn) as [_ A2]. rewrite (A2 j loc HI).
    apply E_field; auto. apply (HE j loc HI).
Qed.

Lemma solver_phi clobber ds x0 nb phi rho m0 c0 m c (ws : nat -> list wave) :
  ds <> [] -> Forall (fun d => (2 <= d_n d)%Z /\ 0 < d_dx d) ds -> length x0 = length ds ->
  (forall b, (b < nb)%nat -> Forall (resolved (sizes ds)) (ws b) /\
     forall n, In n (all_indices (sizes ds)) ->
       m0 rho b n = field_at (lengths ds) x0 (ws b) (point x0 (steps ds) n)) ->
  solve_phi clobber ds nb phi rho (m0, c0) = (m, c) ->
  forall b, (b < nb)%nat ->
  exists Phi grad hess,
    poisson (length ds) (field_at (lengths ds) x0 (ws b)) (mean (sizes ds) (m0 rho b)) Phi grad hess /\
    periodic (lengths ds) Phi /\
    (forall n, In n (all_indices (sizes ds)) -> m phi b n = Phi (point x0 (steps ds) n)) /\
    total (sizes ds) (m phi b) = 0.
Proof.
  intros NE G L0 HW H b Hb. destruct (HW b Hb) as [RW HR].
  assert (HR' : forall n, in_mesh (sizes ds) n = true -> m0 rho b n = on_grid ds x0 (ws b) n).
  { intros n Hn. apply HR. apply in_indices. exact Hn. }
  destruct (solve_phi_spec _ _ _ _ _ _ _ _ _ H) as [A _].
  exists (field_at (lengths ds) x0 (potential ds (ws b))), (grad_waves ds x0 (potential ds (ws b))), (hess_waves ds x0 (potential ds (ws b))).
  split; [|split; [apply waves_periodic; auto; apply sized_potential, fits_sized; auto|split]].
  - rewrite (mean_waves ds x0 G L0 (ws b)) by auto. apply potential_solves; auto. apply fits_sized; auto.
  - intros n Hn. apply in_indices in Hn. rewrite A by auto. rewrite (phi_field ds x0 NE G L0 (ws b)) by auto. reflexivity.
  - rewrite <- (phi_total ds x0 NE G L0 (ws b) (m0 rho b)) by auto. rewrite !total_gsum. apply gsum_ext.
    intros n Hn. apply (A b n Hb Hn).
Qed.

Lemma every_array ds x0 rho : Forall (fun d => (2 <= d_n d)%Z /\ 0 < d_dx d) ds -> length x0 = length ds ->
  exists ws, Forall (resolved (sizes ds)) ws /\
    (forall n, In n (all_indices (sizes ds)) -> rho n = field_at (lengths ds) x0 ws (point x0 (steps ds) n)) /\
    (forall j, (j < length ds)%nat -> (nth j (sizes ds) 0 mod 2 = 1)%Z -> Forall (resolved_strictly j (sizes ds)) ws).
Proof.
  intros G L0. exists (spectrum ds rho). split; [apply spectrum_resolved; auto|split].
  - intros n Hn. apply in_indices in Hn. apply (spectrum_grid ds x0); auto.
  - intros j Hj O. pose proof (spectrum_resolved ds rho G) as F. apply Forall_forall. intros w Hw.
    rewrite Forall_forall in F. specialize (F w Hw). unfold resolved in F. unfold resolved_strictly.
    assert (LE : (2 * Z.abs (nth j (number w) 0) <= nth j (sizes ds) 0)%Z).
    { assert (Hj' : (j < length (sizes ds))%nat) by (unfold sizes; rewrite map_length; exact Hj).
      clear -F Hj'. revert j Hj'. induction F; intros [|j] Hj; simpl in Hj; try lia; cbn [nth]; auto. apply IHF. lia. }
    pose proof (Z.div_mod (nth j (sizes ds) 0%Z) 2 ltac:(lia)). lia.
Qed.

Lemma untouched clobber ds nb phi E rho m0 c0 f0 m c f :
  NoDup (phi :: map snd E) -> (forall j loc, In (j, loc) E -> (j < length ds)%nat) ->
  solve_phi_E clobber ds nb phi E rho (m0, c0, f0) = (m, c, f) ->
  forall l b n, ~ In l (phi :: map snd E) \/ (nb <= b)%nat -> m l b n = m0 l b n.
Proof.
  intros ND HE H l b n Hl.
  assert (HF : Forall (fun x => (fst x < length ds)%nat) E).
  { apply Forall_forall. intros [j loc] HI. apply (HE j loc HI). }
  destruct (solve_phi_E_spec _ _ _ _ _ _ _ _ _ _ _ _ HF ND H) as [_ B]. apply B. tauto.
Qed.

Lemma division_defined ds k : Forall (fun d => (2 <= d_n d)%Z /\ 0 < d_dx d) ds ->
  In k (all_indices (half (sizes ds))) -> k <> front ds -> get_laplace_operator ds k <> 0.
Proof. intros G H. apply laplace_defined; auto. apply in_indices. exact H. Qed.

(** one wave: explicit values *)
Definition wave_vector (ds : list dim) (m : list Z) (j : nat) : R := 2 * PI * IZR (nth j m 0%Z) / nth j (lengths ds) 0.
Lemma one_wave clobber ds x0 phi E rho m0 c0 f0 m c f w :
  ds <> [] -> Forall (fun d => (2 <= d_n d)%Z /\ 0 < d_dx d) ds -> length x0 = length ds ->
  NoDup (phi :: map snd E) -> (forall j loc, In (j, loc) E -> (j < length ds)%nat) ->
  resolved (sizes ds) w -> number w <> map (fun _ => 0%Z) ds ->
  (forall n, In n (all_indices (sizes ds)) -> m0 rho 0%nat n = wave_at (lengths ds) x0 w (point x0 (steps ds) n)) ->
  solve_phi_E clobber ds 1 phi E rho (m0, c0, f0) = (m, c, f) ->
  forall n, In n (all_indices (sizes ds)) ->
    let theta := angle (lengths ds) x0 (number w) (point x0 (steps ds) n) + shift w in
    let k2 := Rsum (length ds) (fun j => wave_vector ds (number w) j ^ 2) in
    m phi 0%nat n = amplitude w / k2 * cos theta /\
    forall j loc, In (j, loc) E -> resolved_strictly j (sizes ds) w ->
      m loc 0%nat n = amplitude w / k2 * wave_vector ds (number w) j * sin theta.
Proof.
  intros NE G L0 ND HE RW NZ HR H n Hn. apply in_indices in Hn. cbv zeta.
  assert (HF : Forall (fun x => (fst x < length ds)%nat) E).
  { apply Forall_forall. intros [j loc] HI. apply (HE j loc HI). }
  destruct (solve_phi_E_spec _ _ _ _ _ _ _ _ _ _ _ _ HF ND H) as [A _].
  destruct (A 0%nat n ltac:(lia) Hn) as [A1 A2].
  assert (HR' : forall n, in_mesh (sizes ds) n = true -> m0 rho 0%nat n = on_grid ds x0 [w] n).
  { intros k Hk. rewrite HR by (apply in_indices; auto). unfold on_grid. cbn [field_at fold_right]. ring. }
  assert (RW' : Forall (resolved (sizes ds)) [w]) by (repeat constructor; exact RW).
  assert (LW : length (number w) = length ds) by (pose proof (fits_sized ds [w] RW') as S; inversion S; auto).
  assert (EK : Rsum (length ds) (fun j => wave_vector ds (number w) j ^ 2) = symbol ds (number w)).
  { rewrite symbol_sum by auto. apply Rsum_ext. intros j _. unfold wave_vector, kap. ring. }
  rewrite EK.
  assert (EH : Hphi ds (number w) = / symbol ds (number w)).
  { unfold Hphi. destruct (midx_eqb_spec (number w) (front ds)) as [Q|Q]; [|reflexivity]. exfalso. apply NZ. exact Q. }
  split.
  - rewrite A1. rewrite (phi_field ds x0 NE G L0 [w]) by auto. unfold on_grid. cbn [field_at potential map fold_right].
    unfold wave_at. cbn [amplitude number shift]. rewrite EH. unfold Rdiv. ring.
  - intros j loc HI FS. rewrite (A2 j loc HI). rewrite (E_field ds x0 NE G L0 [w]) by (auto; apply (HE j loc HI)).
    cbn [grad_waves potential map fold_right amplitude number shift]. rewrite EH.
    change (kap ds j (number w)) with (wave_vector ds (number w) j). unfold Rdiv. ring.
Qed.

(** ** a component at the Nyquist frequency of a direction: 2 x 4 points of step 1,
    rho(x, y) = cos(pi x) cos(pi y / 2) *)
Definition nyq_dims : list dim := [ {| d_n := 2; d_dx := 1 |}; {| d_n := 4; d_dx := 1 |} ].
Definition nyq_waves : list wave :=
  [ {| amplitude := 1 / 2; number := [1; 1]%Z; shift := 0 |}; {| amplitude := 1 / 2; number := [1; -1]%Z; shift := 0 |} ].
Lemma nyq_good : dims_ok nyq_dims.
Proof. repeat constructor; cbn; lra || lia. Qed.
Lemma nyq_resolved : Forall (resolved (sizes nyq_dims)) nyq_waves.
Proof. repeat constructor; cbn; lia. Qed.

Lemma nyq_constant : constant_part nyq_dims nyq_waves = 0.
Proof.
  unfold constant_part, nyq_waves. cbn [fold_right number amplitude shift].
  destruct (midx_eqb_spec [1; 1]%Z (front nyq_dims)); [discriminate|].
  destruct (midx_eqb_spec [1; -1]%Z (front nyq_dims)); [discriminate|]. ring.
Qed.

Lemma nyquist clobber m0 c0 f0 : (forall n, In n (all_indices [2; 4]%Z) -> m0 0%nat 0%nat n = field_at [2; 4] [0; 0] nyq_waves (point [0; 0] [1; 1] n)) ->
  exists m c f, solve_phi_E clobber nyq_dims 1 1 [(0%nat, 2%nat); (1%nat, 3%nat)] 0 (m0, c0, f0) = (m, c, f) /\
  m 2%nat 0%nat [0; 1]%Z <> 0 /\
  exists Phi grad hess, poisson 2 (field_at [2; 4] [0; 0] nyq_waves) 0 Phi grad hess /\ grad 0%nat (point [0; 0] [1; 1] [0; 1]%Z) = 0.
Proof.
  intros HR.
  destruct (solve_phi_E clobber nyq_dims 1 1 [(0%nat, 2%nat); (1%nat, 3%nat)] 0 (m0, c0, f0)) as [[m c] f] eqn:E.
  exists m, c, f. split; [reflexivity|].
  assert (LE : lengths nyq_dims = [2; 4]) by (cbn; repeat f_equal; ring).
  split.
  - destruct (solve_phi_E_spec clobber nyq_dims 1 1 [(0%nat, 2%nat); (1%nat, 3%nat)] 0 m0 c0 f0 m c f) as [A _]; auto.
    { repeat constructor; cbn; lia. } { repeat constructor; cbn; intuition lia. }
    destruct (A 0%nat [0; 1]%Z ltac:(lia) eq_refl) as [_ A2]. rewrite (A2 0%nat 2%nat (or_introl eq_refl)).
    rewrite (filtered_ext _ _ (hE nyq_dims 0) _ (m0 0%nat 0%nat) (grid_waves nyq_dims nyq_waves)); auto.
    2:{ intros x Hx. rewrite HR by (apply in_indices; exact Hx). rewrite <- LE.
        apply (on_grid_waves nyq_dims [0; 0] nyq_good eq_refl nyq_waves).
        - repeat constructor.
        - rewrite (in_mesh_length _ _ Hx). reflexivity. }
    rewrite (filtered_waves nyq_dims (hE nyq_dims 0) (- (PI / 2))
       (fun w n => (ext (-1) (sizes nyq_dims) (hE nyq_dims 0) (modm (sizes nyq_dims) (number w)) + (-1) * ext (-1) (sizes nyq_dims) (hE nyq_dims 0) (modm (sizes nyq_dims) (negm (number w)))) / 2 * cos (phase (sizes nyq_dims) (number w) n + shift w + - (PI / 2)))).
    2:{ intros w Hw. apply filtered_wave; try discriminate.
        - repeat constructor; lia.
        - destruct Hw as [<-|[<-|[]]]; reflexivity.
        - intros x. replace (- (PI / 2) - x) with (- (x + PI / 2)) by ring. rewrite cos_neg.
          replace (x + PI / 2) with (PI / 2 + x) by ring. rewrite cos_plus, cos_PI2, sin_PI2.
          replace (x + - (PI / 2)) with (- (PI / 2 - x)) by ring. rewrite cos_neg, cos_shift. ring. }
    cbn [nyq_waves fold_right amplitude number shift].
    change (modm (sizes nyq_dims) [1; 1]%Z) with [1; 1]%Z. change (modm (sizes nyq_dims) (negm [1; 1]%Z)) with [1; 3]%Z.
    change (modm (sizes nyq_dims) [1; -1]%Z) with [1; 3]%Z. change (modm (sizes nyq_dims) (negm [1; -1]%Z)) with [1; 1]%Z.
    change (ext (-1) (sizes nyq_dims) (hE nyq_dims 0) [1; 1]%Z) with (hE nyq_dims 0 [1; 1]%Z).
    change (ext (-1) (sizes nyq_dims) (hE nyq_dims 0) [1; 3]%Z) with (-1 * hE nyq_dims 0 [1; 1]%Z).
    assert (P1 : phase (sizes nyq_dims) [1; 1]%Z [0; 1]%Z + 0 + - (PI / 2) = 0) by (cbn; field).
    assert (P2 : phase (sizes nyq_dims) [1; -1]%Z [0; 1]%Z + 0 + - (PI / 2) = - PI) by (cbn; field).
    rewrite P1, P2, cos_0, cos_neg, cos_PI.
    assert (HH : hE nyq_dims 0 [1; 1]%Z <> 0).
    { unfold hE. cbn [nth_error nyq_dims]. apply Rmult_integral_contrapositive. split.
      - unfold coordinate, fourier_step. cbn [d_n d_dx]. change ((1 + 2 / 2) mod 2 - 2 / 2)%Z with (-1)%Z. change (2 - 1)%Z with 1%Z.
        replace (IZR (-1) * ((2 * 1 / 2 * PI / 1 - 0) / 1)) with (- PI) by field. pose proof PI_RGT_0. lra.
      - unfold hphi. destruct (midx_eqb_spec [1; 1]%Z (front nyq_dims)) as [Q|Q]; [discriminate|].
        apply Rinv_neq_0_compat. apply laplace_defined; auto using nyq_good. }
    intros Q. apply HH. lra.
  - exists (field_at [2; 4] [0; 0] (potential nyq_dims nyq_waves)), (grad_waves nyq_dims [0; 0] (potential nyq_dims nyq_waves)), (hess_waves nyq_dims [0; 0] (potential nyq_dims nyq_waves)).
    split.
    + pose proof (potential_solves nyq_dims [0; 0] nyq_waves nyq_good eq_refl ltac:(repeat constructor)) as P.
      rewrite nyq_constant, LE in P. exact P.
    + cbn [grad_waves potential nyq_waves map fold_right amplitude number shift].
      assert (HS : Hphi nyq_dims [1; -1]%Z = Hphi nyq_dims [1; 1]%Z).
      { unfold Hphi. change (midx_eqb [1; 1]%Z (front nyq_dims)) with false. change (midx_eqb [1; -1]%Z (front nyq_dims)) with false.
        cbn [symbol nyq_dims]. f_equal. change (-1)%Z with (- (1))%Z. rewrite (opp_IZR 1). ring. }
      rewrite HS. change (kap nyq_dims 0 [1; -1]%Z) with (kap nyq_dims 0 [1; 1]%Z).
      assert (A1 : angle (lengths nyq_dims) [0; 0] [1; 1]%Z (point [0; 0] [1; 1] [0; 1]%Z) + 0 = PI / 2) by (cbn; field).
      assert (A2 : angle (lengths nyq_dims) [0; 0] [1; -1]%Z (point [0; 0] [1; 1] [0; 1]%Z) + 0 = - (PI / 2)) by (cbn; field).
      rewrite A1, A2, sin_neg, sin_PI2. ring.
Qed.
