(** The spectral Poisson solver ignores constants of the charge density. *)
From Coq Require Import Lia Lra ZifyBool.
From Verif Require Import XyvFftModel FftProofs FftHalf FftMain FftLoop PpfVolume.
Open Scope R_scope.

Lemma filtered_const Ns h be c n : pos_sizes Ns -> Ns <> [] -> h (zero Ns) = 0 -> filtered Ns h be (fun _ => c) n = 0.
Proof.
  intros HP HN H0. unfold filtered. rewrite gsum_zero; [unfold Rdiv; ring|]. intros k Hk.
  assert (Hm : in_mesh Ns k = true) by (apply half_in_mesh in Hk; tauto).
  assert (Hz : in_mesh Ns (zero Ns) = true).
  { clear - HP. unfold zero. induction HP; cbn; auto. rewrite IHHP. lia. }
  rewrite (gsum_ext Ns _ (fun n' => c * cos ((phase Ns k n + be) + phase Ns (negm k) n'))).
  2:{ intros x _. rewrite phase_neg. f_equal. }
  rewrite gsum_scal, cos_sum; auto; [|rewrite negm_length; apply in_mesh_length; auto].
  destruct (congr Ns (negm k) (zero Ns)) eqn:E; [|ring].
  assert (k = zero Ns).
  { assert (HL : length k = length Ns) by (apply in_mesh_length; auto).
    clear - E Hm HP HL. revert k E Hm HL. induction HP as [|N t HN HP IH]; intros [|a k] E Hm HL; try discriminate; [reflexivity|].
    cbn in E. apply Bool.andb_true_iff in E. destruct E as [E1 E2]. apply in_mesh_cons in Hm. destruct Hm as [Ha Hm].
    unfold zero. cbn [map]. f_equal; [|apply IH; auto].
    rewrite Z.sub_0_r in E1. apply Z.eqb_eq in E1. apply Z.mod_divide in E1; [|lia].
    destruct E1 as [q Eq]. assert (q = 0 \/ q <= -1 \/ 1 <= q)%Z as [->|[Hq|Hq]] by lia; nia. }
  subst k. rewrite H0. ring.
Qed.

Section Landau.
Variables (clobber : (midx -> cplx) -> midx -> cplx) (nx ny : nat) (dx dy : R).
Variables (m0 : memory) (c0 f0 : midx -> cplx).
Hypothesis Hx : (0 < nx)%nat.
Hypothesis Hy : (0 < ny)%nat.

Lemma grid_list_ext f h : (forall i j, (i < nx)%nat -> (j < ny)%nat -> f [Z.of_nat i; Z.of_nat j] = h [Z.of_nat i; Z.of_nat j]) ->
  grid_list nx ny f = grid_list nx ny h.
Proof.
  intros H. unfold grid_list. rewrite !flat_map_concat_map. f_equal. apply map_ext_in. intros i Hi. apply in_seq in Hi.
  apply map_ext_in. intros j Hj. apply in_seq in Hj. apply H; lia.
Qed.

Lemma grid_list_length f : length (grid_list nx ny f) = (nx * ny)%nat.
Proof. unfold grid_list. apply (flat_length (fun i j => f [Z.of_nat i; Z.of_nat j])). Qed.

Let ds := [ {| d_n := Z.of_nat nx; d_dx := dx |}; {| d_n := Z.of_nat ny; d_dx := dy |} ].

Lemma fft_values rho : fft_poisson clobber nx ny dx dy m0 c0 f0 rho =
  Ok (grid_list nx ny (filtered (sizes ds) (hphi ds) 0 (of_list ny rho)),
     (grid_list nx ny (filtered (sizes ds) (hE ds 0) (- (PI / 2)) (of_list ny rho)),
      grid_list nx ny (filtered (sizes ds) (hE ds 1) (- (PI / 2)) (of_list ny rho)))).
Proof.
  unfold fft_poisson. fold ds. cbv zeta.
  destruct (solve_phi_E clobber ds 1 0 [(0%nat, 1%nat); (1%nat, 2%nat)] 3 (put m0 3 0 (of_list ny rho) (sizes ds), c0, f0)) as [[m c] f] eqn:E.
  apply solve_phi_E_spec in E.
  - destruct E as [E _].
    assert (FE : forall h be n, filtered (sizes ds) h be (put m0 3 0 (of_list ny rho) (sizes ds) 3%nat 0%nat) n =
                 filtered (sizes ds) h be (of_list ny rho) n).
    { intros h be n. apply filtered_ext; auto. intros x Hxx. unfold put. cbn [Nat.eqb andb]. rewrite Hxx. reflexivity. }
    assert (HI : forall i j, (i < nx)%nat -> (j < ny)%nat -> in_mesh (sizes ds) [Z.of_nat i; Z.of_nat j] = true)
      by (intros; cbn; lia).
    f_equal. f_equal; [|f_equal].
    + apply grid_list_ext. intros i j Hi Hj. destruct (E 0%nat _ ltac:(lia) (HI i j Hi Hj)) as [-> _]. apply FE.
    + apply grid_list_ext. intros i j Hi Hj. destruct (E 0%nat _ ltac:(lia) (HI i j Hi Hj)) as [_ A].
      rewrite (A 0%nat 1%nat) by (left; reflexivity). apply FE.
    + apply grid_list_ext. intros i j Hi Hj. destruct (E 0%nat _ ltac:(lia) (HI i j Hi Hj)) as [_ A].
      rewrite (A 1%nat 2%nat) by (right; left; reflexivity). apply FE.
  - repeat constructor; cbn; lia.
  - repeat constructor; cbn; intuition lia.
Qed.

Lemma fft_total rho : exists phi ex ey, fft_poisson clobber nx ny dx dy m0 c0 f0 rho = Ok (phi, (ex, ey)) /\
  length phi = (nx * ny)%nat /\ length ex = (nx * ny)%nat /\ length ey = (nx * ny)%nat.
Proof.
  rewrite fft_values. do 3 eexists. split; [reflexivity|]. rewrite !grid_list_length. auto.
Qed.

Lemma fft_shift rho c : length rho = (nx * ny)%nat ->
  fft_poisson clobber nx ny dx dy m0 c0 f0 (map (fun r => r + c) rho) = fft_poisson clobber nx ny dx dy m0 c0 f0 rho.
Proof.
  intros L. rewrite !fft_values.
  assert (HF : forall h be n, h (zero (sizes ds)) = 0 ->
     filtered (sizes ds) h be (of_list ny (map (fun r => r + c) rho)) n = filtered (sizes ds) h be (of_list ny rho) n).
  { intros h be n H0. rewrite (filtered_ext (sizes ds) h h be _ (fun x => of_list ny rho x + c)); auto.
    - rewrite filtered_plus, filtered_const; auto; [ring| |discriminate].
      repeat constructor; cbn; lia.
    - intros x Hin. destruct x as [|i [|j [|z x]]]; cbn in Hin; try (exfalso; lia).
      unfold of_list. set (k := (Z.to_nat i * ny + Z.to_nat j)%nat).
      assert (Hk : (k < length rho)%nat).
      { assert (H1 : (Z.to_nat i < nx)%nat) by lia. assert (H2 : (Z.to_nat j < ny)%nat) by lia. rewrite L. unfold k.
        assert (S (Z.to_nat i) * ny <= nx * ny)%nat by (apply Nat.mul_le_mono_r; lia). lia. }
      rewrite (nth_indep _ 0 (0 + c)) by (rewrite map_length; auto). rewrite (map_nth (fun r => r + c) rho 0 k). reflexivity. }
  assert (H0 : hphi ds (zero (sizes ds)) = 0).
  { unfold hphi, midx_eqb. cbn [front ds map sizes zero]. unfold zero, sizes, ds, front. cbn [map].
    destruct (list_eq_dec Z.eq_dec [0%Z; 0%Z] [0%Z; 0%Z]); congruence. }
  assert (H1 : forall j, hE ds j (zero (sizes ds)) = 0).
  { intros j. unfold hE. destruct (nth_error ds j); auto. destruct (nth_error (zero (sizes ds)) j); auto. rewrite H0. ring. }
  f_equal. f_equal; [|f_equal]; apply grid_list_ext; intros; apply HF; auto.
Qed.
End Landau.
