(** Concrete instances of the hypotheses of C78 - C80. *)
From Coq Require Import ZifyBool.
From Verif Require Import Lib LagDerivSpec DerivModel QuadModel FemModel FemSolve FemMain MappingModel MappingSpec MatrixModel MatrixSpec MatrixOracle PspModel PspSpec PspBasis PspExamples PpfModel PpfSpec PpfRows PpfPattern PpfCsr PpfBasis PpfRhs PpfMain PpfSolve PpfLimits PpfDefinite PpfUnique PpfVolume PpfExamples.
Open Scope R_scope.

Lemma third_distinct h n : 0 < h -> NoDup (third_points h n).
Proof.
  intros Hh. apply (NoDup_nth _ 0). assert (L : length (third_points h n) = (n * 3)%nat) by (unfold third_points; rewrite map_length, seq_length; reflexivity). rewrite L.
  assert (LT : forall i j, (i < j)%nat -> (j < n * 3)%nat -> nth i (third_points h n) 0 < nth j (third_points h n) 0).
  { intros i j Hi Hj. pose proof (Nat.div_mod i 3 ltac:(lia)) as D1. pose proof (Nat.div_mod j 3 ltac:(lia)) as D2. pose proof (Nat.mod_upper_bound i 3 ltac:(lia)). pose proof (Nat.mod_upper_bound j 3 ltac:(lia)).
    rewrite D1, D2, !(Nat.mul_comm 3). rewrite !third_nth by lia. apply Rmult_lt_compat_l; [exact Hh|].
    pose proof (quarter (i mod 3) ltac:(lia)). pose proof (quarter (j mod 3) ltac:(lia)).
    assert (i / 3 < j / 3 \/ (i / 3 = j / 3 /\ i mod 3 < j mod 3))%nat as [Q|[Q1 Q2]] by lia.
    - assert (S (i / 3) <= j / 3)%nat as Q' by lia. apply le_INR in Q'. rewrite S_INR in Q'. lra.
    - rewrite Q1. apply lt_INR in Q2. lra. }
  intros i j Hi Hj E. destruct (lt_eq_lt_dec i j) as [[Q|Q]|Q]; [|exact Q|]; [pose proof (LT i j Q Hj)|pose proof (LT j i Q Hi)]; lra.
Qed.
Lemma disc_distinct c1 e : distinct_points (fem_disc c1 e).
Proof. pose proof PI_RGT_0. split; [cbn; lia|]. split; apply third_distinct; lra. Qed.
Lemma disc_elliptic c1 e : elliptic (fem_disc c1 e) (fun _ _ => 2) (fun _ _ => 1).
Proof.
  split; [|split].
  - intros w Hw. apply repeat_spec in Hw. lra.
  - intros r th _ _. lra.
  - left. intros r th _ _. lra.
Qed.
Lemma ring_spans : row1_spans ring_t (ring 5) 0 0.
Proof.
  exists 0%nat, 2%nat. split; [cbn; lia|]. split; [cbn; lia|]. unfold ctrl_x, ctrl_y. cbn [ring dm_x dm_y]. rewrite !field8_value by lia. unfold sx, sy. cbn. lra.
Qed.
Lemma disc_clamped_end c1 e : clamped_end (pf_r (fem_disc c1 e)) (knots_r 5).
Proof.
  intros i Hi. cbn [fem_disc pf_r disc_r cdb_space b_deg b_cells b_rmax] in *. unfold knots_r. f_equal. lia.
Qed.
(** a state of the solver of the disc after a call of update_coefficients *)
Lemma disc_reached : exists e s, fem_setup (fem_disc 2 e) (knots_r 5) knots8 (ring 5) 0 0 /\ reached (fem_disc 2 e) (Some disc_equation) s.
Proof.
  destruct (fem_disc_setup 2 ltac:(lia)) as [e FS]. destruct (progress_theorem _ _ _ _ _ _ FS) as [P1 P2].
  destruct (P1 rev_sched rev_sched_ok) as [s0 E0]. pose proof (reached_make _ rev_sched s0 rev_sched_ok E0) as R0.
  destruct (P2 None s0 disc_equation _ _ id_sched R0 (disc_equation_ok 2 e) id_sched_ok) as [s1 E1].
  exists e, s1. split; [exact FS|]. exact (reached_update _ _ _ _ _ _ _ _ R0 (disc_equation_ok 2 e) id_sched_ok E1).
Qed.
(** and the solution of - div (2 grad u) + u = 1 - r, with an exact solver *)
Lemma disc_solved : exists e s s' spline, fem_setup (fem_disc 2 e) (knots_r 5) knots8 (ring 5) 0 0 /\ reached (fem_disc 2 e) (Some disc_equation) s /\
  solve_spline (fem_disc 2 e) (elim_cg 0) id_sched s (fun r _ => Ok (1 - r)) = Ok (s', spline).
Proof.
  destruct disc_reached as [e [s [FS RS]]]. exists e, s. set (p := fem_disc 2 e) in *.
  pose proof (regular_matrix p _ _ _ _ _ FS (disc_distinct 2 e) (fun _ => ring_spans) disc_equation _ _ s (disc_equation_ok 2 e) RS (disc_elliptic 2 e)) as REG.
  destruct (elements_hold p _ _ _ _ _ FS) as [V HV]. destruct (reached_made p _ _ _ _ _ FS V HV _ s RS) as [_ [HN _]].
  assert (HF : at_points p (fun r th => (fun r _ => Ok (1 - r)) r th = Ok ((fun r _ => 1 - r) r th))) by (intros r th _ _; reflexivity).
  unfold solve_spline. rewrite (rhs_ok p _ _ _ _ _ id_sched FS id_sched_ok V HV _ _ (in_points p _ _ _ _ _ FS _ HF)). cbn [bind].
  destruct (st_solvers s) as [|pc sv]; [discriminate (proj1 HN eq_refl)|].
  set (n := (pf_ns p + pf_nr p * pf_nt p)%nat). set (f := fun r _ : R => 1 - r).
  unfold elim_cg. rewrite map_length, seq_length. set (A := csr_element (st_nnz s) (st_cols s) (st_vals s)).
  set (b := fun i => match nth i (map (bF p V f) (seq 0 n)) None with Some v => v | None => 0 end).
  assert (NB : forall i, (i < n)%nat -> nth i (map (bF p V f) (seq 0 n)) None = bF p V f i).
  { intros i Hi. rewrite (nth_indep _ None (bF p V f 0)) by (rewrite map_length, seq_length; exact Hi). rewrite map_nth, seq_nth by exact Hi. reflexivity. }
  set (x := map (gauss n A b) (seq 0 n)).
  assert (NX : forall k, (k < n)%nat -> nth k x 0 = gauss n A b k). { intros k Hk. unfold x. rewrite (nth_indep _ 0 (gauss n A b 0%nat)) by (rewrite map_length, seq_length; exact Hk). rewrite map_nth, seq_nth by exact Hk. reflexivity. }
  match goal with |- context [forallb ?F ?L] => assert (FB : forallb F L = true) end.
  { apply forallb_forall. intros i Hi. apply in_seq in Hi. rewrite NB by lia. unfold bF. destruct (Rle_dec _ 0) as [_|N]; [reflexivity|]. exfalso. apply N. clear N.
    pose proof (gauss_spec n A REG b i ltac:(lia)) as G. unfold is_solution, mat_vec in G.
    rewrite (Rsum_ext n _ (fun j => A i j * gauss n A b j)) by (intros j Hj; rewrite (NX j Hj); reflexivity).
    match goal with |- Rabs (?a - ?c) <= 0 => replace (a - c) with 0 end; [rewrite Rabs_R0; lra|].
    symmetry. apply Rminus_diag_eq. etransitivity; [exact G|]. unfold b. rewrite NB by lia. reflexivity. }
  rewrite FB. cbn [bind].
  rewrite (map_res_map _ (fun k => nth k x 0)); [cbn [bind]; eauto|]. intros k Hk. apply in_seq in Hk. apply rd_nth. unfold x. rewrite map_length, seq_length. rewrite (size_eq p (fe_sizes p _ _ _ _ _ FS)) in Hk. fold n in Hk. lia.
Qed.
(** the tables of three points, and a mapping *)
Lemma gauss_3 : gauss_table 3 [-0.5; 0; 0.5] [1; 1; 1].
Proof.
  constructor; try reflexivity.
  - intros x [<-|[<-|[<-|[]]]]; lra.
  - repeat constructor; cbn; intros H; repeat destruct H as [H|H]; lra.
  - intros x [<-|[<-|[<-|[]]]]; lra.
Qed.
