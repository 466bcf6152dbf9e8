(** The solution of the finite element problem. *)
From Coq Require Import ZifyBool.
From Verif Require Import Lib LagDerivSpec DerivModel DerivRanges QuadModel FemModel FemSolve QuadProofs OnionEval FemMain MappingModel MappingSpec MappingVec PspModel PspSpec PspBasis PspProofs PspMain PspTheorems PspEval PspPole PpfModel PpfSpec PpfRows PpfPattern PpfCsr PpfBasis PpfWin PpfForm PpfAsm PpfRhs PpfMain.
Open Scope R_scope.

(** ** Reached states *)
Theorem progress_theorem p tr tt m x0 y0 : fem_setup p tr tt m x0 y0 ->
  (forall sched, any_order sched -> exists s, solver_make p sched = Ok s) /\
  forall o s q al be sched, reached p o s -> fem_equation p q al be -> any_order sched -> exists s', update_coefficients p q sched s = Ok s'.
Proof.
  intros FS. split.
  - intros sched HO. unfold solver_make. rewrite (setup_ok p sched (fe_sizes p tr tt m x0 y0 FS) HO). cbn [bind]. eexists. reflexivity.
  - intros o s q al be sched RS FE HO. destruct (elements_hold p tr tt m x0 y0 FS) as [V HV]. destruct (reached_made p tr tt m x0 y0 FS V HV o s RS) as [M _].
    rewrite (update_eq p tr tt m x0 y0 FS V HV q al be sched s FE HO M). eexists. reflexivity.
Qed.
Theorem function_theorem p tr tt m x0 y0 : fem_setup p tr tt m x0 y0 -> forall q al be x, fem_equation p q al be -> length x = n_interior p ->
  exists u ux uy, fem_function p (eq_map q) x u ux uy.
Proof.
  intros FS q al be x FE HL. destruct (elements_hold p tr tt m x0 y0 FS) as [V HV].
  exact (function_exists p tr tt m x0 y0 FS V HV q x (fq_map p q al be FE) HL).
Qed.
Theorem form_theorem p tr tt m x0 y0 : fem_setup p tr tt m x0 y0 -> forall q al be s x u ux uy y v vx vy,
  fem_equation p q al be -> reached p (Some q) s -> fem_function p (eq_map q) x u ux uy -> fem_function p (eq_map q) y v vx vy ->
  csr_form (n_interior p) s y x = weak_form p al be u ux uy v vx vy.
Proof.
  intros FS q al be s x u ux uy y v vx vy FE PR FX FY. destruct (elements_hold p tr tt m x0 y0 FS) as [V HV].
  exact (form_eq p tr tt m x0 y0 FS V HV q al be s x u ux uy y v vx vy FE PR FX FY).
Qed.
Theorem symmetric_theorem p tr tt m x0 y0 : fem_setup p tr tt m x0 y0 -> forall q s, reached p (Some q) s ->
  csr_pattern (n_interior p) (share_cell p) (st_nnz s) (st_cols s) /\
  forall i j, (i < n_interior p)%nat -> (j < n_interior p)%nat ->
    csr_element (st_nnz s) (st_cols s) (st_vals s) i j = csr_element (st_nnz s) (st_cols s) (st_vals s) j i.
Proof.
  intros FS q s PR. destruct (elements_hold p tr tt m x0 y0 FS) as [V HV].
  assert (FE : exists al be, fem_equation p q al be).
  { remember (Some q) as o eqn:EO. revert EO. induction PR; intros EO; [discriminate|injection EO as ->; eauto|auto]. }
  destruct FE as [al [be FE]]. destruct (reached_eq p tr tt m x0 y0 FS V HV q al be s FE PR) as [E1 [E2 E3]].
  rewrite E1, E2, E3. split; [exact (pattern_ok p (fe_sizes p tr tt m x0 y0 FS))|].
  intros i j Hi Hj. rewrite !(element_eq p tr tt m x0 y0 FS V) by assumption. apply ent_sym.
Qed.
(** ** Positivity *)
Lemma Rsum_zero_nonneg n F : (forall i, (i < n)%nat -> 0 <= F i) -> Rsum n F = 0 -> forall i, (i < n)%nat -> F i = 0.
Proof.
  induction n as [|n IH]; intros HP HZ i Hi; [lia|]. cbn [Rsum] in HZ.
  assert (P1 : 0 <= Rsum n F) by (apply Rsum_nonneg; intros k Hk; apply HP; lia). pose proof (HP n ltac:(lia)) as P2.
  assert (i = n \/ i < n)%nat as [->|Hi'] by lia; [lra|]. apply IH; [intros k Hk; apply HP; lia|lra|exact Hi'].
Qed.
Theorem positive_theorem p tr tt m x0 y0 : fem_setup p tr tt m x0 y0 -> forall q al be s x u ux uy,
  fem_equation p q al be -> reached p (Some q) s -> fem_function p (eq_map q) x u ux uy ->
  (forall w, In w (pf_vol p) -> 0 <= w) -> at_points p (fun r th => 0 <= al r th /\ 0 <= be r th) ->
  0 <= csr_form (n_interior p) s x x /\
  ((forall w, In w (pf_vol p) -> 0 < w) -> csr_form (n_interior p) s x x = 0 ->
   at_points p (fun r th => (0 < al r th -> ux r th = 0 /\ uy r th = 0) /\ (0 < be r th -> u r th = 0))).
Proof.
  intros FS q al be s x u ux uy FE PR FX HW HA. rewrite (form_theorem p tr tt m x0 y0 FS q al be s x u ux uy x u ux uy FE PR FX FX).
  set (F := fun r th => al r th * (ux r th * ux r th + uy r th * uy r th) + be r th * u r th * u r th).
  assert (PF : at_points p (fun r th => 0 <= F r th)).
  { intros r th Hr Ht. destruct (HA r th Hr Ht) as [H1 H2]. unfold F. pose proof (Rle_0_sqr (ux r th)). pose proof (Rle_0_sqr (uy r th)). pose proof (Rle_0_sqr (u r th)). unfold Rsqr in *.
    apply Rplus_le_le_0_compat; [apply Rmult_le_pos; [exact H1|lra]|rewrite Rmult_assoc; apply Rmult_le_pos; assumption]. }
  assert (HV : forall a b, (a < length (pf_qr p))%nat -> (b < length (pf_qt p))%nat -> In (nth (a * length (pf_qt p) + b) (pf_vol p) 0) (pf_vol p)).
  { intros a b Ha Hb. apply nth_In. rewrite (fe_vol p tr tt m x0 y0 FS). nia. }
  unfold weak_form, quadrature_sum. fold F. split.
  - apply Rsum_nonneg. intros a Ha. apply Rsum_nonneg. intros b Hb. apply Rmult_le_pos; [apply HW, HV; assumption|]. apply PF; apply nth_In; assumption.
  - intros HW' HZ.
    assert (Z : forall a b, (a < length (pf_qr p))%nat -> (b < length (pf_qt p))%nat -> F (nth a (pf_qr p) 0) (nth b (pf_qt p) 0) = 0).
    { intros a b Ha Hb. pose proof (Rsum_zero_nonneg _ _ (fun a Ha => Rsum_nonneg _ _ (fun b Hb => Rmult_le_pos _ _ (HW _ (HV a b Ha Hb)) (PF _ _ (nth_In _ 0 Ha) (nth_In _ 0 Hb)))) HZ a Ha) as Z1.
      cbv beta in Z1. pose proof (Rsum_zero_nonneg _ _ (fun b Hb => Rmult_le_pos _ _ (HW _ (HV a b Ha Hb)) (PF _ _ (nth_In _ 0 Ha) (nth_In _ 0 Hb))) Z1 b Hb) as Z2. cbv beta in Z2.
      apply Rmult_integral in Z2. destruct Z2 as [Z2|Z2]; [|exact Z2]. pose proof (HW' _ (HV a b Ha Hb)). lra. }
    intros r th Hr Ht. destruct (HA r th Hr Ht) as [H1 H2].
    assert (ZF : F r th = 0). { apply (In_nth _ _ 0) in Hr. apply (In_nth _ _ 0) in Ht. destruct Hr as [a [Ha <-]]. destruct Ht as [b [Hb <-]]. apply Z; assumption. }
    unfold F in ZF. pose proof (Rle_0_sqr (ux r th)) as S1. pose proof (Rle_0_sqr (uy r th)) as S2. pose proof (Rle_0_sqr (u r th)) as S3. unfold Rsqr in *.
    assert (Q1 : 0 <= al r th * (ux r th * ux r th + uy r th * uy r th)) by (apply Rmult_le_pos; [exact H1|lra]).
    assert (Q2 : 0 <= be r th * u r th * u r th) by (rewrite Rmult_assoc; apply Rmult_le_pos; assumption).
    split.
    + intros PA. assert (Z0 : al r th * (ux r th * ux r th + uy r th * uy r th) = 0) by lra. apply Rmult_integral in Z0. destruct Z0 as [Z0|Z0]; [lra|].
      split; apply Rsqr_eq_0; unfold Rsqr; lra.
    + intros PB. assert (Z0 : be r th * (u r th * u r th) = 0) by lra. apply Rmult_integral in Z0. destruct Z0 as [Z0|Z0]; [lra|]. apply Rsqr_eq_0; unfold Rsqr; lra.
Qed.
(** ** The solution *)
Lemma load_eq p tr tt m x0 y0 V y v f q : fem_setup p tr tt m x0 y0 -> holds (pf_c1 p) (b_size (pf_t p)) (pf_el p) V ->
  forall vx vy, fem_function p (eq_map q) y v vx vy -> Rsum (n_interior p) (fun i => nth i y 0 * load p V f i) = load_form p f v.
Proof.
  intros FS HV vx vy [Ly Uy _]. rewrite n_eq in *. unfold load_form. rewrite (quad_sum_eq p tr tt m x0 y0 FS). unfold load.
  set (n := (pf_ns p + pf_nr p * pf_nt p)%nat) in *. set (na := (b_cells (pf_r p) * (pf_d p + 1))%nat). set (nb := (pf_nt p * (pf_d p + 1))%nat).
  transitivity (Rsum n (fun i => Rsum na (fun a => Rsum nb (fun b => nth i y 0 * L p V f i a b)))).
  { apply Rsum_ext. intros i _. rewrite <- Rsum_scal. apply Rsum_ext. intros a _. rewrite <- Rsum_scal. reflexivity. }
  rewrite (Rsum3_swap n na nb). apply Rsum_ext. intros a Ha. apply Rsum_ext. intros b Hb.
  pose proof (in_points p tr tt m x0 y0 FS _ Uy a b Ha Hb) as VV. cbv beta in VV. rewrite (spline_sum p tr tt m x0 y0 FS V HV y 0 0 a b Ly Ha Hb) in VV. fold n in VV.
  assert (A2 : v (nth a (pf_qr p) 0) (nth b (pf_qt p) 0) = Rsum n (fun i => nth i y 0 * Bv p V i 0%nat 0%nat a b)) by congruence. rewrite A2.
  transitivity (Rsum n (fun i => (vol p a b * f (nth a (pf_qr p) 0) (nth b (pf_qt p) 0)) * (nth i y 0 * Bv p V i 0%nat 0%nat a b))).
  { apply Rsum_ext. intros i _. unfold L. ring. }
  rewrite Rsum_scal. ring.
Qed.
Theorem solve_theorem p tr tt m x0 y0 : fem_setup p tr tt m x0 y0 -> forall q al be s cg eps sched rhs f s' spline,
  fem_equation p q al be -> reached p (Some q) s -> any_order sched -> cg_solves eps cg -> at_points p (fun r th => rhs r th = Ok (f r th)) ->
  solve_spline p cg sched s rhs = Ok (s', spline) ->
  exists x, length x = n_interior p /\ spline = dirichlet p x /\
    forall u ux uy y v vx vy, fem_function p (eq_map q) x u ux uy -> fem_function p (eq_map q) y v vx vy ->
      Rabs (weak_form p al be u ux uy v vx vy - load_form p f v) <= eps * Rsum (n_interior p) (fun i => Rabs (nth i y 0)).
Proof.
  intros FS q al be s cg eps sched rhs f s' spline FE PR HO CG HF E. destruct (elements_hold p tr tt m x0 y0 FS) as [V HV].
  destruct (reached_eq p tr tt m x0 y0 FS V HV q al be s FE PR) as [E1 [E2 E3]].
  unfold solve_spline in E. rewrite (rhs_ok p tr tt m x0 y0 sched FS HO V HV rhs f (in_points p tr tt m x0 y0 FS _ HF)) in E. cbn [bind] in E.
  set (n := (pf_ns p + pf_nr p * pf_nt p)%nat) in *. set (bv := map (bF p V f) (seq 0 n)) in *.
  destruct (st_solvers s) as [|pc sv]; [discriminate E|]. destruct (cg pc (st_nnz s) (st_cols s) (st_vals s) (st_x s) bv) as [x| | |] eqn:EX; try discriminate E. cbn [bind] in E.
  destruct (CG _ _ _ _ _ _ _ EX) as [LX RX]. assert (LB : length bv = n) by (unfold bv; rewrite map_length, seq_length; reflexivity). rewrite LB in LX, RX.
  assert (SP : map_res (fun k => rd x (Z.of_nat k)) (seq 0 (pf_size p)) = Ok x).
  { rewrite (size_eq p (fe_sizes p tr tt m x0 y0 FS)). fold n. rewrite (map_res_map _ (fun k => nth k x 0)) by (intros k Hk; apply in_seq in Hk; apply rd_nth; lia).
    f_equal. apply (nth_ext _ _ 0 0); [rewrite map_length, seq_length; lia|]. intros k Hk. rewrite map_length, seq_length in Hk.
    rewrite (nth_indep _ 0 (nth 0 x 0)) by (rewrite map_length, seq_length; lia). rewrite (map_nth (fun k => nth k x 0)), seq_nth by lia. reflexivity. }
  rewrite SP in E. cbn [bind] in E. exists x. split; [exact LX|].
  split. { assert (X := f_equal (fun r => match r with Ok s => snd s | _ => spline end) E). cbv beta iota in X. cbn [snd] in X. rewrite <- X. reflexivity. }
  intros u ux uy y v vx vy FX FY. rewrite <- (form_theorem p tr tt m x0 y0 FS q al be s x u ux uy y v vx vy FE PR FX FY).
  rewrite <- (load_eq p tr tt m x0 y0 V y v f q FS HV vx vy FY). rewrite n_eq. fold n. unfold csr_form.
  rewrite <- Rsum_minus.
  apply Rle_trans with (Rsum n (fun i => Rabs (nth i y 0 * (Rsum n (fun j => csr_element (st_nnz s) (st_cols s) (st_vals s) i j * nth j x 0) - load p V f i)))).
  - rewrite (Rsum_ext n _ (fun i => nth i y 0 * (Rsum n (fun j => csr_element (st_nnz s) (st_cols s) (st_vals s) i j * nth j x 0) - load p V f i))).
    + apply Rabs_Rsum.
    + intros i _. rewrite Rmult_minus_distr_l, <- Rsum_scal. f_equal. apply Rsum_ext. intros j _. ring.
  - rewrite <- Rsum_scal. apply Rsum_le. intros i Hi. rewrite Rabs_mult, Rmult_comm. apply Rmult_le_compat_r; [apply Rabs_pos|]. apply RX.
    unfold bv. rewrite (nth_indep _ None (bF p V f 0)) by (rewrite map_length, seq_length; lia). rewrite map_nth, seq_nth by lia. reflexivity.
Qed.
(** ** The boundary *)
Theorem boundary_theorem p tr tt m x0 y0 : fem_setup p tr tt m x0 y0 -> clamped_end (pf_r p) tr -> forall x th,
  length x = n_interior p -> b_rmin (pf_t p) <= th <= b_rmax (pf_t p) ->
  derivative (pf_c1 p) (pf_r p) (pf_t p) (pf_el p) (dirichlet p x) 0 0 (b_rmax (pf_r p)) th = Ok 0.
Proof.
  intros FS CE x th HL Hth. destruct (elements_hold p tr tt m x0 y0 FS) as [V HV]. set (HS := fe_sizes p tr tt m x0 y0 FS).
  pose proof (fe_polar p tr tt m x0 y0 FS) as PS. pose proof (ps_r _ _ _ _ _ _ _ _ PS) as SR. pose proof (ps_t _ _ _ _ _ _ _ _ PS) as ST.
  assert (HR : b_rmin (pf_r p) <= b_rmax (pf_r p) <= b_rmax (pf_r p)). { split; [|lra]. rewrite <- (bs_first _ _ SR), <- (bs_last _ _ SR). apply (bs_mono _ _ SR). lia. }
  destruct (basis_at (pf_r p) tr 0 (b_rmax (pf_r p)) SR HR) as [c [v [E [BV Hc]]]]. destruct (basis_at (pf_t p) tt 0 th ST Hth) as [ct [vt [Et [BVt Hct]]]].
  pose proof (cell_last _ _ _ _ _ SR BV) as CL.
  assert (VJ : forall j, (j <= b_deg (pf_r p))%nat -> v j = if (j =? b_deg (pf_r p))%nat then 1 else 0).
  { intros j Hj. rewrite (basis_value_0 _ _ _ _ _ j BV Hj). set (mm := (b_deg (pf_r p) + c)%nat).
    assert (EM : (mm + 1 = b_deg (pf_r p) + b_cells (pf_r p))%nat) by (unfold mm; lia).
    rewrite <- (bs_last _ _ SR), <- EM. apply cdb_last.
    - unfold mm. lia.
    - intros a b Hab. apply (bs_mono _ _ SR). unfold mm in Hab. lia.
    - replace (mm + 1)%nat with (b_deg (pf_r p) + c + 1)%nat by (unfold mm; lia). apply (bs_breaks _ _ SR). exact Hc.
    - intros i Hi. rewrite EM, (bs_last _ _ SR). replace (mm + i)%nat with (b_deg (pf_r p) + b_cells (pf_r p) + (i - 1))%nat by lia. apply CE. lia. }
  pose proof (fs_radial p HS) as HRAD. destruct (dirichlet_ok p tr tt m x0 y0 FS x HL) as [D1 [D2 _]].
  unfold derivative. rewrite (eval_no_bc_ok _ _ _ _ V _ 0 0 _ _ c v ct vt HV E Et Hc Hct); [|exact (c1_le p tr tt m x0 y0 FS)|exact (ps_deg _ _ _ _ _ _ _ _ PS)|lia|exact D1].
  f_equal. unfold tensor_spline. cbn [fst snd]. apply Rsum_zero. intros i Hi. apply Rsum_zero. intros j Hj. rewrite VJ by lia.
  destruct (i =? b_deg (pf_r p))%nat eqn:EI; [|ring]. assert (i = b_deg (pf_r p)) by lia. subst i.
  unfold expand. replace (c + b_deg (pf_r p) <? pf_c1 p)%nat with false by lia.
  rewrite D2; [ring|]. rewrite D1. change (b_cells (pf_t p)) with (pf_nt p). unfold polar_nbasis. fold (pf_ns p). change (nbasis_t (pf_t p)) with (pf_nt p).
  pose proof (H_nt p HS) as HNT. pose proof (Nat.mod_upper_bound (ct + j) (pf_nt p) ltac:(lia)) as MB.
  assert (K1 : (c + b_deg (pf_r p) - pf_c1 p = pf_nr p)%nat) by (unfold pf_nr, nbasis_r; lia).
  assert (K2 : (nbasis_r (pf_r p) - pf_c1 p = S (pf_nr p))%nat) by (unfold pf_nr, nbasis_r; lia).
  unfold pf_ns. rewrite K1, K2. cbn [Nat.mul]. lia.
Qed.
(** the values on the grid are those of the spline; outside of the domain they are 0 *)
Theorem grid_theorem p cg sched s rhs grid s' phi : solve_grid p cg sched s rhs grid = Ok (s', phi) ->
  exists spline, solve_spline p cg sched s rhs = Ok (s', spline) /\ length phi = length grid /\
    forall k r th, nth_error grid k = Some (r, th) ->
      (r <= b_rmax (pf_r p) -> b_rmin (pf_t p) <= th <= b_rmax (pf_t p) -> derivative (pf_c1 p) (pf_r p) (pf_t p) (pf_el p) spline 0 0 r th = Ok (nth k phi 0)) /\
      (b_rmax (pf_r p) < r -> nth k phi 0 = 0).
Proof.
  unfold solve_grid. destruct (solve_spline p cg sched s rhs) as [[s1 sp]| | |]; try discriminate. cbn [bind].
  destruct (map_res _ grid) as [ph| | |] eqn:EM; try discriminate. cbn [bind]. intros E. assert (s1 = s' /\ ph = phi) as [-> ->] by (split; congruence). exists sp. split; [reflexivity|].
  destruct (map_res_inv _ 0 _ _ EM) as [HI HN]. split; [rewrite HN; apply map_length|]. intros k r th Hk.
  destruct (HI (r, th) (nth_error_In _ _ Hk)) as [y Hy]. cbn [fst snd] in Hy.
  assert (NK : nth k phi 0 = y).
  { apply (map_nth_error (fun x => match evaluate (pf_c1 p) (pf_r p) (pf_t p) (pf_el p) (fun _ _ _ => Ok 0) sp (fst x) (snd x) with Ok y => y | _ => 0 end)) in Hk.
    rewrite <- HN in Hk. cbn [fst snd] in Hk. rewrite Hy in Hk. exact (nth_error_nth _ _ 0 Hk). }
  rewrite NK. split.
  - intros H1 H2. rewrite (evaluate_inside _ _ _ _ _ _ _ _ H1 H2) in Hy. exact Hy.
  - intros H1. rewrite (evaluate_outside _ _ _ _ _ _ _ _ H1) in Hy. congruence.
Qed.
