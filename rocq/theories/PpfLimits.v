(** What the finite element solver does not do. *)
From Coq Require Import ZifyBool.
From Verif Require Import Lib LagDerivSpec DerivModel DerivRanges QuadModel FemModel FemSolve QuadProofs OnionEval FemMain MappingModel MappingSpec MappingVec PspModel PspSpec PspBasis PspProofs PspMain PspTheorems PspEval PspPole PpfModel PpfSpec PpfRows PpfPattern PpfCsr PpfBasis PpfWin PpfForm PpfAsm PpfRhs PpfMain PpfSolve.
Open Scope R_scope.

(** ** No result depends on the order of the parallel iterations *)
Theorem deterministic_theorem p tr tt m x0 y0 : fem_setup p tr tt m x0 y0 -> forall sched sched', any_order sched -> any_order sched' ->
  solver_make p sched = solver_make p sched' /\
  (forall o s q al be, reached p o s -> fem_equation p q al be -> update_coefficients p q sched s = update_coefficients p q sched' s) /\
  (forall s cg rhs f, at_points p (fun r th => rhs r th = Ok (f r th)) -> solve_spline p cg sched s rhs = solve_spline p cg sched' s rhs).
Proof.
  intros FS sched sched' HO HO'. destruct (elements_hold p tr tt m x0 y0 FS) as [V HV]. split; [|split].
  - unfold solver_make. rewrite (setup_ok p sched (fe_sizes p tr tt m x0 y0 FS) HO), (setup_ok p sched' (fe_sizes p tr tt m x0 y0 FS) HO'). reflexivity.
  - intros o s q al be RS FE. destruct (reached_made p tr tt m x0 y0 FS V HV o s RS) as [M _].
    rewrite (update_eq p tr tt m x0 y0 FS V HV q al be sched s FE HO M), (update_eq p tr tt m x0 y0 FS V HV q al be sched' s FE HO' M). reflexivity.
  - intros s cg rhs f HF. unfold solve_spline.
    rewrite (rhs_ok p tr tt m x0 y0 sched FS HO V HV rhs f (in_points p tr tt m x0 y0 FS _ HF)), (rhs_ok p tr tt m x0 y0 sched' FS HO' V HV rhs f (in_points p tr tt m x0 y0 FS _ HF)). reflexivity.
Qed.
(** ** operator() fails only if the conjugate gradient fails, or if no equation was given *)
Theorem solve_progress p tr tt m x0 y0 : fem_setup p tr tt m x0 y0 -> forall o s cg sched rhs f, reached p o s -> any_order sched ->
  at_points p (fun r th => rhs r th = Ok (f r th)) ->
  (o = None -> solve_spline p cg sched s rhs = Ub) /\
  (forall q, o = Some q -> (forall prec nnz cols vals guess b, exists x, cg prec nnz cols vals guess b = Ok x /\ length x = length b) ->
     exists s' spline, solve_spline p cg sched s rhs = Ok (s', spline)).
Proof.
  intros FS o s cg sched rhs f RS HO HF. destruct (elements_hold p tr tt m x0 y0 FS) as [V HV].
  destruct (reached_made p tr tt m x0 y0 FS V HV o s RS) as [_ [HN _]]. unfold solve_spline.
  rewrite (rhs_ok p tr tt m x0 y0 sched FS HO V HV rhs f (in_points p tr tt m x0 y0 FS _ HF)). cbn [bind]. split.
  - intros ->. destruct (st_solvers s) as [|pc sv]; [reflexivity|]. discriminate (proj2 HN eq_refl).
  - intros q -> HC. destruct (st_solvers s) as [|pc sv]; [discriminate (proj1 HN eq_refl)|].
    destruct (HC pc (st_nnz s) (st_cols s) (st_vals s) (st_x s) (map (bF p V f) (seq 0 (pf_ns p + pf_nr p * pf_nt p)))) as [x [-> LX]].
    rewrite map_length, seq_length in LX. cbn [bind].
    rewrite (map_res_map _ (fun k => nth k x 0)); [cbn [bind]; eauto|]. intros k Hk. apply in_seq in Hk. apply rd_nth. rewrite (size_eq p (fe_sizes p tr tt m x0 y0 FS)) in Hk. lia.
Qed.
(** ** The preconditioner is the one of the first equation *)
Theorem stale_theorem p tr tt m x0 y0 : fem_setup p tr tt m x0 y0 -> forall q s sched s', reached p (Some q) s -> any_order sched ->
  forall q' al be, fem_equation p q' al be -> update_coefficients p q' sched s = Ok s' ->
  length (st_solvers s') = S (length (st_solvers s)) /\
  forall cg rhs f, at_points p (fun r th => rhs r th = Ok (f r th)) -> exists prec b, hd_error (st_solvers s) = Some prec /\
    forall x, cg prec (st_nnz s') (st_cols s') (st_vals s') (st_x s') b = Ok x -> length x = n_interior p ->
      exists s'', solve_spline p cg sched s' rhs = Ok (s'', dirichlet p x).
Proof.
  intros FS q s sched s' RS HO q' al be FE U. destruct (elements_hold p tr tt m x0 y0 FS) as [V HV].
  destruct (reached_made p tr tt m x0 y0 FS V HV _ s RS) as [M [HN _]]. rewrite (update_eq p tr tt m x0 y0 FS V HV q' al be sched s FE HO M) in U.
  assert (X := f_equal (fun r => match r with Ok s => s | _ => s' end) U). cbv beta iota in X. clear U.
  split; [rewrite <- X; cbn [st_solvers]; rewrite app_length; cbn [length]; lia|].
  intros cg rhs f HF. destruct (st_solvers s) as [|pc sv] eqn:ES; [discriminate (proj1 HN eq_refl)|]. cbn [app] in X.
  exists pc, (map (bF p V f) (seq 0 (pf_ns p + pf_nr p * pf_nt p))). split; [reflexivity|]. intros x EX LX.
  unfold solve_spline. rewrite (rhs_ok p tr tt m x0 y0 sched FS HO V HV rhs f (in_points p tr tt m x0 y0 FS _ HF)). cbn [bind].
  rewrite <- X in EX |- *. cbn [st_solvers] in *. rewrite EX. cbn [bind].
  rewrite n_eq in LX. rewrite (map_res_map _ (fun k => nth k x 0)).
  - cbn [bind]. eexists. f_equal. f_equal. unfold dirichlet. f_equal. rewrite (size_eq p (fe_sizes p tr tt m x0 y0 FS)).
    apply (nth_ext _ _ 0 0); [rewrite map_length, seq_length; lia|]. intros k Hk. rewrite map_length, seq_length in Hk.
    rewrite (nth_indep _ 0 (nth 0 x 0)) by (rewrite map_length, seq_length; lia). rewrite (map_nth (fun k => nth k x 0)), seq_nth by lia. reflexivity.
  - intros k Hk. apply in_seq in Hk. apply rd_nth. rewrite (size_eq p (fe_sizes p tr tt m x0 y0 FS)) in Hk. lia.
Qed.
(** ** Too few radial cells *)
Theorem radial_theorem p sched : (pf_c1 p < b_cells (pf_r p))%nat -> (b_cells (pf_r p) < b_deg (pf_r p) + pf_c1 p + 1)%nat -> forall s, solver_make p sched <> Ok s.
Proof.
  intros H0 H1 s. unfold solver_make, setup_sparse_matrix, init_nnz.
  destruct (par (sched 0%nat (pf_ns p)) _ _) as [l0| | |]; cbn [bind]; try discriminate.
  destruct (par (sched 1%nat _) _ _) as [l1| | |]; cbn [bind]; try discriminate.
  replace (stencil_rows p <? 0)%Z with true; [cbn [bind]; discriminate|]. symmetry. apply Z.ltb_lt. unfold stencil_rows, pf_nr, nbasis_r, pf_d. lia.
Qed.
(** ** Different degrees *)
Lemma par_fails {A} ord (body : nat -> A -> res A) k s s' : In k ord -> (forall s s', body k s <> Ok s') -> par ord body s <> Ok s'.
Proof.
  revert s. induction ord as [|a t IH]; intros s Hk HF; [destruct Hk|]. cbn [par]. destruct (body a s) as [s1| | |] eqn:E; cbn [bind]; try discriminate.
  destruct Hk as [->|Hk]; [destruct (HF _ _ E)|]. apply IH; assumption.
Qed.
Lemma for_res_fails {A} n (f : nat -> A -> res A) s s' : (0 < n)%nat -> (forall s s', f 0%nat s <> Ok s') -> for_res n f s <> Ok s'.
Proof.
  intros Hn HF. revert s'. induction n as [|n IH]; intros s'; [lia|]. cbn [for_res]. destruct n as [|n].
  - cbn [for_res bind]. apply HF.
  - destruct (for_res (S n) f s) as [s1| | |] eqn:E; cbn [bind]; try discriminate. destruct (IH ltac:(lia) s1 eq_refl).
Qed.
Theorem degree_theorem p sched : (1 <= pf_c1 p)%nat -> (1 <= b_cells (pf_t p))%nat -> b_deg (pf_t p) <> b_deg (pf_r p) -> any_order sched ->
  (forall q s s', update_coefficients p q sched s <> Ok s') /\ (forall cg s rhs s', solve_spline p cg sched s rhs <> Ok s').
Proof.
  intros H1 H2 HD HO.
  assert (SE : forall n m r th, span_eval p n m r th = AssertFail).
  { intros. unfold span_eval. replace (pf_d p + 1 =? pf_dt p + 1)%nat with false by (unfold pf_d, pf_dt; lia). reflexivity. }
  assert (NS : (0 < pf_ns p)%nat).
  { unfold pf_ns, n_singular. apply Nat.div_str_pos. split; [lia|]. clear - H1. destruct (pf_c1 p) as [|c]; [lia|]. cbn [Nat.mul]. lia. }
  assert (P1 : (0 < Z.to_nat (Z.of_nat (pf_c1 p * (pf_d p + 1))))%nat). { rewrite Nat2Z.id. apply Nat.mul_pos_pos; lia. }
  assert (P2 : (0 < Z.to_nat (Z.of_nat (pf_nqt p)))%nat). { rewrite Nat2Z.id. unfold pf_nqt. apply Nat.mul_pos_pos; lia. }
  split.
  - intros q s s'. unfold update_coefficients, assemble.
    destruct (par (sched 7%nat _) _ _) as [v| | |] eqn:E; cbn [bind]; try discriminate. exfalso. revert E. apply par_fails with 0%nat.
    + apply (Permutation_in 0%nat (Permutation_sym (HO 7%nat (pf_ns p * pf_ns p)%nat))). apply in_seq. split; [lia|]. apply Nat.mul_pos_pos; lia.
    + intros a a'. unfold val_sing_sing, sing_sing_element, sum_points. destruct (for_res _ _ _) as [x| | |] eqn:E; cbn [bind]; try discriminate. exfalso. revert E. apply for_res_fails; [exact P1|].
      intros b b'. apply for_res_fails; [exact P2|]. intros c c'. unfold weak_integral_element.
      destruct (rd (pf_qr p) _); cbn [bind]; try discriminate. destruct (rd (pf_qt p) _); cbn [bind]; try discriminate.
      destruct (eq_alpha q _ _); cbn [bind]; try discriminate. destruct (eq_beta q _ _); cbn [bind]; try discriminate. unfold bspline_derivs at 1. rewrite SE. discriminate.
  - intros cg s rhs s'. unfold solve_spline, right_hand_side.
    destruct (par (sched 10%nat _) _ _) as [v| | |] eqn:E; cbn [bind]; try discriminate. exfalso. revert E. apply par_fails with 0%nat.
    + apply (Permutation_in 0%nat (Permutation_sym (HO 10%nat (pf_ns p)))). apply in_seq. lia.
    + intros a a'. unfold rhs_singular, sum_points. destruct (for_res _ _ _) as [x| | |] eqn:E; cbn [bind]; try discriminate. exfalso. revert E. apply for_res_fails; [exact P1|].
      intros b b'. apply for_res_fails; [exact P2|]. intros c c'. unfold rhs_point.
      destruct (rd (pf_qr p) _); cbn [bind]; try discriminate. destruct (rd (pf_qt p) _); cbn [bind]; try discriminate.
      destruct (rhs _ _); cbn [bind]; try discriminate. unfold bspline_val. rewrite SE. discriminate.
Qed.
