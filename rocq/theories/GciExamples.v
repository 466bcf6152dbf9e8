(** Instances for the non-vacuity of C90 - C94. *)
From Verif Require Import Lib DerivModel MathModel GciModel PcrSpec PcrProofs GciSpec GciDio GciEq GciXY.
Open Scope R_scope.

Definition ring_example : diocotron := {| W1 := 0; R1 := 1; R2 := 2; W2 := 4; charge := 1; mode := 3; amplitude := 1 / 10 |}.
Lemma ring_example_ok : ring_ok ring_example 3.
Proof. unfold ring_ok, ring_example; cbn [W1 R1 R2 W2 mode]. repeat split; try lra; try lia. unfold int_max; lia. Qed.
(** a solver with a fixed point of the iteration: multiplication by 2 *)
Lemma double_homogeneous : homogeneous double_solver.
Proof. intros c rho phi [= <-]. unfold double_solver, times. f_equal. rewrite !map_map. apply map_ext. intros. ring. Qed.
(** one cell: E = (rho, rho), advection by -dt A *)
Definition cell : xy_operators := {|
  x_poisson := fun f => Ok (f, map (fun x => (x, 2 * x)) f, f);
  x_advect_x := fun f a h => Ok (map (fun p => fst p - h * snd p) (combine f a));
  x_advect_y := fun f a h => Ok (map (fun p => fst p + h * h * snd p) (combine f a)) |}.
Lemma cell_keeps : keeps_rhs cell.
Proof. intros f p E g [= _ _ <-]. reflexivity. Qed.
Lemma cell_total f dt : exists f', xy_step cell dt f f'.
Proof.
  unfold xy_step, electric, strang. do 4 eexists. split; [do 2 eexists; reflexivity|]. split; [do 2 eexists; repeat split; reflexivity|].
  split; [do 2 eexists; reflexivity|]. do 2 eexists; repeat split; reflexivity.
Qed.
Lemma cell_runs f dt nbiter : (nbiter < int_max)%Z -> exists r, predcorr_xy cell f dt nbiter = Ok r.
Proof.
  intros L. unfold predcorr_xy. apply Z.ltb_lt in L. rewrite L. generalize (f, @nil xy_event), 1%Z. generalize (Z.to_nat nbiter).
  induction n as [|n IH]; intros p z; cbn [xy_loop]; [eauto|]. unfold xy_body at 1. destruct (cell_total (fst p) dt) as (f' & E). rewrite <- rk2_iff in E. rewrite E. cbn [bind x_poisson cell]. apply IH.
Qed.
Lemma cell_value : xy_step cell 2 [1] [33].
Proof.
  exists [(1, 2 * 1)], [4], [(4, 2 * 4)]. split; [exists [1], [1]; reflexivity|]. split; [|split; [exists [4], [4]; reflexivity|]].
  - exists [2], [3]. cbn [cell x_advect_x x_advect_y map combine fst snd]. split; [do 2 f_equal; field|]. split; do 2 f_equal; field.
  - exists [9], [25]. cbn [cell x_advect_x x_advect_y map combine fst snd]. split; [do 2 f_equal; field|]. split; do 2 f_equal; field.
Qed.
(** the same, with a solver that overwrites the density with its potential 2 rho *)
Definition scratch : xy_operators := {| x_poisson := fun f => Ok (f, map (fun x => (0, 0)) f, map (fun x => 2 * x) f); x_advect_x := fun f a h => Ok f; x_advect_y := fun f a h => Ok f |}.
Lemma saving_refuted : ~ (forall o dt f nbiter f' evs, predcorr_xy o f dt nbiter = Ok (f', evs) ->
  exists fs, trajectory (xy_step o dt) (count nbiter) f fs /\ f' = fs (count nbiter)).
Proof.
  intros H. assert (L : (1 <? int_max)%Z = true) by reflexivity.
  assert (E : predcorr_xy scratch [1] 1 1 = Ok ([2 * 1], [{| xe_iter := 1; xe_time := 1 * 1; xe_f := [2 * 1]; xe_phi := [1]; xe_E := [(0, 0)] |}])).
  { unfold predcorr_xy. rewrite L. reflexivity. }
  destruct (H _ _ _ _ _ _ E) as (fs & (T0 & T) & F). change (count 1) with 1%nat in *. specialize (T 0%nat ltac:(lia)). rewrite T0, <- F in T.
  destruct T as (E1 & fP & EP & _ & _ & _ & (f1 & f2 & X & Y & Z)). cbn [scratch x_advect_x x_advect_y] in *.
  assert (Q : [1] = [2 * 1]) by congruence. injection Q as Q. lra.
Qed.
Lemma initial_examples : vortex_density 1 (1 / 2) 1 0 0 0 0 0 0 = 2 /\ snd (kelvin_helmholtz (1 / 2) 1 0 0) = 1 / 2.
Proof.
  split.
  - unfold vortex_density. replace (- ((0 - 0) * (0 - 0) + (0 - 0) * (0 - 0)) / (2 * 1 * 1)) with 0 by field. rewrite exp_0. field.
  - cbn [kelvin_helmholtz snd]. rewrite sin_0, Rmult_0_r, cos_0. field.
Qed.
