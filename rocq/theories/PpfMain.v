(** The finite element solver: the bilinear form, the solution and its boundary values. *)
From Coq Require Import ZifyBool.
From Verif Require Import Lib LagDerivSpec DerivModel QuadModel FemModel FemSolve QuadProofs OnionEval FemMain MappingModel MappingSpec MappingVec PspModel PspSpec PspBasis PspProofs PspMain PspEval PpfModel PpfSpec PpfRows PpfPattern PpfCsr PpfBasis PpfWin PpfForm PpfAsm PpfRhs.
Open Scope R_scope.

Section Main.
  Variables (p : pfem) (tr tt : nat -> R) (m : dmap) (x0 y0 : R).
  Hypothesis FS : fem_setup p tr tt m x0 y0.
  Notation ns := (pf_ns p).
  Notation d := (pf_d p).
  Notation nt := (pf_nt p).
  Notation N := (pf_nr p).
  Notation c1 := (pf_c1 p).
  Notation z := Z.of_nat.
  Notation qr a := (nth a (pf_qr p) 0).
  Notation qt b := (nth b (pf_qt p) 0).
  Notation g := (d + 1)%nat.
  Notation cells := (b_cells (pf_r p)).
  Notation n := (ns + N * nt)%nat.
  Notation rw := (row ns d nt N).
  Notation up := (upto nat rw).
  Notation nnzl := (map (nnz_at p) (seq 0 (n + 1))).
  Notation cols := (map (colF p) (seq 0 (up n))).
  Let HS := fe_sizes p tr tt m x0 y0 FS.
  Lemma n_eq : n_interior p = n.
  Proof. reflexivity. Qed.
  Lemma in_points (P : R -> R -> Prop) : at_points p P -> forall a b, (a < cells * g)%nat -> (b < nt * g)%nat -> P (qr a) (qt b).
  Proof.
    intros H a b Ha Hb. apply H; apply nth_In; [rewrite (len_r p tr tt m x0 y0 FS)|rewrite (len_t p tr tt m x0 y0 FS)]; assumption.
  Qed.
  Lemma points_in (P : R -> R -> Prop) : (forall a b, (a < cells * g)%nat -> (b < nt * g)%nat -> P (qr a) (qt b)) -> at_points p P.
  Proof.
    intros H r th Hr Ht. apply (In_nth _ _ 0) in Hr. apply (In_nth _ _ 0) in Ht. destruct Hr as [a [Ha <-]]. destruct Ht as [b [Hb <-]].
    apply H; [rewrite <- (len_r p tr tt m x0 y0 FS)|rewrite <- (len_t p tr tt m x0 y0 FS)]; assumption.
  Qed.
  (** the inverse of the metric tensor, K K^T *)
  Definition kmat (q : equation) (r th : R) : nat -> nat -> R := match inverse_jacobian_matrix 2 (eq_map q) (c2 r th) with Ok K => K | _ => fun _ _ => 0 end.
  Definition gmat (q : equation) (r th : R) (i k : nat) : R := Rsum 2 (fun j => kmat q r th i j * kmat q r th k j).
  Lemma gmat_ok q r th : invertible_at 2 (eq_map q) (c2 r th) ->
    metric_inverse 2 (eq_map q) (c2 r th) = Ok (gmat q r th) /\ inverse_of 2 (kmat q r th) (m_J (eq_map q) (c2 r th)).
  Proof. intros [K [E I]]. unfold metric_inverse, gmat, kmat. rewrite E. cbn [bind]. split; [reflexivity|exact I]. Qed.
  Lemma chain_rule q r th dr dt gx gy dr' dt' gx' gy' : invertible_at 2 (eq_map q) (c2 r th) ->
    cartesian_gradient (eq_map q) r th dr dt gx gy -> cartesian_gradient (eq_map q) r th dr' dt' gx' gy' ->
    Rsum 2 (fun x => Rsum 2 (fun y => c2 dr dt x * gmat q r th x y * c2 dr' dt' y)) = gx * gx' + gy * gy'.
  Proof.
    intros I [A1 A2] [B1 B2]. destruct (gmat_ok q r th I) as [_ [_ L]]. unfold gmat. set (K := kmat q r th) in *. set (J := m_J (eq_map q) (c2 r th)) in *.
    assert (I00 : J 0%nat 0%nat * K 0%nat 0%nat + J 0%nat 1%nat * K 1%nat 0%nat = 1) by (pose proof (L 0%nat 0%nat ltac:(lia) ltac:(lia)) as X; unfold mmul in X; cbn in X; lra).
    assert (I01 : J 0%nat 0%nat * K 0%nat 1%nat + J 0%nat 1%nat * K 1%nat 1%nat = 0) by (pose proof (L 0%nat 1%nat ltac:(lia) ltac:(lia)) as X; unfold mmul in X; cbn in X; lra).
    assert (I10 : J 1%nat 0%nat * K 0%nat 0%nat + J 1%nat 1%nat * K 1%nat 0%nat = 0) by (pose proof (L 1%nat 0%nat ltac:(lia) ltac:(lia)) as X; unfold mmul in X; cbn in X; lra).
    assert (I11 : J 1%nat 0%nat * K 0%nat 1%nat + J 1%nat 1%nat * K 1%nat 1%nat = 1) by (pose proof (L 1%nat 1%nat ltac:(lia) ltac:(lia)) as X; unfold mmul in X; cbn in X; lra).
    assert (GX : dr * K 0%nat 0%nat + dt * K 1%nat 0%nat = gx).
    { rewrite A1, A2. transitivity (gx * (J 0%nat 0%nat * K 0%nat 0%nat + J 0%nat 1%nat * K 1%nat 0%nat) + gy * (J 1%nat 0%nat * K 0%nat 0%nat + J 1%nat 1%nat * K 1%nat 0%nat)); [ring|]. rewrite I00, I10. ring. }
    assert (GY : dr * K 0%nat 1%nat + dt * K 1%nat 1%nat = gy).
    { rewrite A1, A2. transitivity (gx * (J 0%nat 0%nat * K 0%nat 1%nat + J 0%nat 1%nat * K 1%nat 1%nat) + gy * (J 1%nat 0%nat * K 0%nat 1%nat + J 1%nat 1%nat * K 1%nat 1%nat)); [ring|]. rewrite I01, I11. ring. }
    assert (GX' : dr' * K 0%nat 0%nat + dt' * K 1%nat 0%nat = gx').
    { rewrite B1, B2. transitivity (gx' * (J 0%nat 0%nat * K 0%nat 0%nat + J 0%nat 1%nat * K 1%nat 0%nat) + gy' * (J 1%nat 0%nat * K 0%nat 0%nat + J 1%nat 1%nat * K 1%nat 0%nat)); [ring|]. rewrite I00, I10. ring. }
    assert (GY' : dr' * K 0%nat 1%nat + dt' * K 1%nat 1%nat = gy').
    { rewrite B1, B2. transitivity (gx' * (J 0%nat 0%nat * K 0%nat 1%nat + J 0%nat 1%nat * K 1%nat 1%nat) + gy' * (J 1%nat 0%nat * K 0%nat 1%nat + J 1%nat 1%nat * K 1%nat 1%nat)); [ring|]. rewrite I01, I11. ring. }
    rewrite <- GX, <- GY, <- GX', <- GY'. cbn [Rsum c2]. unfold c2. cbn. ring.
  Qed.
  Variable V : nat -> nat -> nat -> R.
  Hypothesis HV : holds c1 (b_size (pf_t p)) (pf_el p) V.
  Notation B := (Bv p V).
  Notation ent q al be := (entry p V al be (gmat q)).
  Lemma ent_sym q al be i j : ent q al be i j = ent q al be j i.
  Proof.
    unfold entry. apply Rsum_ext. intros a _. apply Rsum_ext. intros b _. unfold W, gmat. cbn [Rsum]. ring.
  Qed.
  Lemma ent_off q al be i j : (i < n)%nat -> (j < n)%nat -> ~ In j (rw i) -> ent q al be i j = 0.
  Proof.
    intros Hi Hj H. unfold entry. apply Rsum_zero. intros a Ha. apply Rsum_zero. intros b Hb. apply (weak_off p tr tt m x0 y0 FS V); try assumption.
    intros [T1 T2]. apply H. apply (row_in p HS); [assumption|assumption|]. destruct (div_lt a cells g Ha) as [HA _]. destruct (div_lt b nt g Hb) as [HB _].
    exists (a / g)%nat, (b / g)%nat. auto.
  Qed.
  Lemma assemble_eq q al be sched v : fem_equation p q al be -> any_order sched -> length v = up n ->
    assemble p q sched nnzl cols v = Ok (map (valF p (ent q al be)) (seq 0 (up n))).
  Proof.
    intros [F1 F2 F3] HO HL. apply (assemble_ok p sched q (ent q al be) HS HO); [| | | |exact HL].
    - intros i j Hi Hj. apply (sing_sing_ok p tr tt m x0 y0 FS V HV q al be (gmat q)); try assumption; intros a b Ha Hb; try (apply (in_points _ F1)); try (apply (in_points _ F2)); try assumption.
      apply gmat_ok. apply (in_points _ F3); assumption.
    - intros i q' jt Hi Hq Hj. apply (sing_tensor_ok p tr tt m x0 y0 FS V HV q al be (gmat q)); try assumption; intros a b Ha Hb; try (apply (in_points _ F1)); try (apply (in_points _ F2)); try assumption.
      apply gmat_ok. apply (in_points _ F3); assumption.
    - intros q1 it q2 jt H1 H2 H3 H4 H5 H6 H7. apply (stencil_ok p tr tt m x0 y0 FS V HV q al be (gmat q)); try assumption; intros a b Ha Hb; try (apply (in_points _ F1)); try (apply (in_points _ F2)); try assumption.
      apply gmat_ok. apply (in_points _ F3); assumption.
    - apply ent_sym.
  Qed.
  Definition matrix_of (q : equation) al be : list (option R) := map (valF p (ent q al be)) (seq 0 (up n)).
  Lemma element_eq q al be i j : (i < n)%nat -> (j < n)%nat -> csr_element nnzl cols (matrix_of q al be) i j = ent q al be i j.
  Proof. intros Hi Hj. apply (element_ok p (ent q al be) HS); [apply ent_off|exact Hi|exact Hj]. Qed.
  (** the states of the solver *)
  Definition made (s : pstate) : Prop := st_nnz s = nnzl /\ st_cols s = cols /\ length (st_vals s) = up n.
  Lemma make_made sched s : any_order sched -> solver_make p sched = Ok s -> made s /\ st_solvers s = [] /\ st_x s = repeat 0 n.
  Proof.
    intros HO. unfold solver_make. rewrite (setup_ok p sched HS HO). cbn [bind]. intros E. assert (X := f_equal (fun r => match r with Ok s => s | _ => s end) E). cbv beta iota in X. subst s.
    unfold made. cbn [st_nnz st_cols st_vals st_solvers st_x]. rewrite (size_eq p HS). split; [|split; reflexivity]. split; [reflexivity|]. split; [reflexivity|]. rewrite repeat_length. apply cols_len.
  Qed.
  Lemma update_eq q al be sched s : fem_equation p q al be -> any_order sched -> made s ->
    update_coefficients p q sched s =
    Ok {| st_nnz := nnzl; st_cols := cols; st_vals := matrix_of q al be; st_solvers := st_solvers s ++ [matrix_of q al be]; st_x := st_x s |}.
  Proof.
    intros FE HO [M1 [M2 M3]]. unfold update_coefficients. rewrite M1, M2. rewrite (assemble_eq q al be sched (st_vals s) FE HO M3). reflexivity.
  Qed.
  Lemma matrix_made q al be : length (matrix_of q al be) = up n.
  Proof. unfold matrix_of. rewrite map_length, seq_length. reflexivity. Qed.
  Lemma reached_made o s : reached p o s -> made s /\ (length (st_solvers s) = 0%nat <-> o = None) /\
    forall q, o = Some q -> forall al be, fem_equation p q al be -> st_vals s = matrix_of q al be.
  Proof.
    induction 1 as [sched s HO E|o s q al be sched s' _ [M _] FE HO E|o s cg sched rhs s' spline _ [M [SV IH]] E].
    - destruct (make_made sched s HO E) as [M [SV _]]. split; [exact M|]. split; [rewrite SV; split; reflexivity|discriminate].
    - rewrite (update_eq q al be sched s FE HO M) in E. assert (X := f_equal (fun r => match r with Ok s => s | _ => s end) E). cbv beta iota in X. rewrite <- X.
      cbn [st_nnz st_cols st_vals st_solvers]. split; [split; [reflexivity|]; split; [reflexivity|apply matrix_made]|]. split; [rewrite app_length; cbn; split; [lia|discriminate]|].
      intros q' [= <-] al' be' FE'. pose proof (assemble_eq q al be sched (st_vals s) FE HO (proj2 (proj2 M))) as A1. rewrite (assemble_eq q al' be' sched (st_vals s) FE' HO (proj2 (proj2 M))) in A1.
      unfold matrix_of. congruence.
    - unfold solve_spline in E. destruct (right_hand_side p rhs sched) as [b| | |]; try discriminate E. cbn [bind] in E. destruct (st_solvers s) as [|pc sv] eqn:ES; [discriminate E|].
      destruct (cg _ _ _ _ _ _) as [x| | |]; try discriminate E. cbn [bind] in E. destruct (map_res _ _) as [sp| | |]; try discriminate E. cbn [bind] in E.
      assert (X := f_equal (fun r => match r with Ok s => fst s | _ => s' end) E). cbv beta iota in X. cbn [fst] in X. rewrite <- X. cbn [st_nnz st_cols st_vals st_solvers].
      split; [exact M|]. split; [exact SV|exact IH].
  Qed.
  Lemma reached_eq q al be s : fem_equation p q al be -> reached p (Some q) s -> st_nnz s = nnzl /\ st_cols s = cols /\ st_vals s = matrix_of q al be.
  Proof. intros FE RS. destruct (reached_made _ s RS) as [[M1 [M2 _]] [_ M3]]. split; [exact M1|]. split; [exact M2|]. exact (M3 q eq_refl al be FE). Qed.
  (** the functions of the space *)
  Lemma dirichlet_ok x : length x = n -> length (dirichlet p x) = polar_nbasis c1 (pf_r p) (pf_t p) /\
    (forall i, (n <= i < length (dirichlet p x))%nat -> nth i (dirichlet p x) 0 = 0) /\ forall i, (i < n)%nat -> nth i (dirichlet p x) 0 = nth i x 0.
  Proof.
    intros HL. pose proof (fs_radial p HS) as HR. fold d in HR. unfold dirichlet. split; [|split].
    - rewrite app_length, repeat_length, HL. unfold polar_nbasis. fold ns. change (nbasis_t (pf_t p)) with nt. change (b_cells (pf_t p)) with nt.
      unfold pf_nr. set (k := (nbasis_r (pf_r p) - c1 - 1)%nat). replace (nbasis_r (pf_r p) - c1)%nat with (S k) by (unfold k, nbasis_r; fold d; lia). lia.
    - intros i [H1 H2]. rewrite app_length, repeat_length in H2. rewrite app_nth2 by lia. rewrite HL. apply nth_repeat.
    - intros i Hi. apply app_nth1. lia.
  Qed.
  Lemma spline_sum x k l a b : length x = n -> (a < cells * g)%nat -> (b < nt * g)%nat ->
    derivative c1 (pf_r p) (pf_t p) (pf_el p) (dirichlet p x) k l (qr a) (qt b) = Ok (Rsum n (fun i => nth i x 0 * B i k l a b)).
  Proof.
    intros HL Ha Hb. destruct (dirichlet_ok x HL) as [H1 [H2 H3]].
    rewrite (Bv_spline p tr tt m x0 y0 FS V HV (dirichlet p x) k l a b Ha Hb H1 H2). f_equal. apply Rsum_ext. intros i Hi. rewrite H3 by exact Hi. reflexivity.
  Qed.
  Lemma function_exists q x : at_points p (fun r th => invertible_at 2 (eq_map q) (c2 r th)) -> length x = n_interior p -> exists u ux uy, fem_function p (eq_map q) x u ux uy.
  Proof.
    intros HI HL. rewrite n_eq in HL.
    set (D := fun k l r th => match derivative c1 (pf_r p) (pf_t p) (pf_el p) (dirichlet p x) k l r th with Ok v => v | _ => 0 end).
    exists (D 0%nat 0%nat), (fun r th => D 1%nat 0%nat r th * kmat q r th 0%nat 0%nat + D 0%nat 1%nat r th * kmat q r th 1%nat 0%nat),
      (fun r th => D 1%nat 0%nat r th * kmat q r th 0%nat 1%nat + D 0%nat 1%nat r th * kmat q r th 1%nat 1%nat).
    constructor.
    - exact HL.
    - apply points_in. intros a b Ha Hb. unfold D. rewrite spline_sum by assumption. reflexivity.
    - apply points_in. intros a b Ha Hb. pose proof (in_points _ HI a b Ha Hb) as I. cbv beta in I.
      destruct (gmat_ok q _ _ I) as [_ [L _]]. exists (D 1%nat 0%nat (qr a) (qt b)), (D 0%nat 1%nat (qr a) (qt b)).
      split; [unfold D; rewrite spline_sum by assumption; reflexivity|]. split; [unfold D; rewrite spline_sum by assumption; reflexivity|].
      unfold cartesian_gradient. set (K := kmat q (qr a) (qt b)) in *. set (J := m_J (eq_map q) (c2 (qr a) (qt b))) in *.
      set (dr := D 1%nat 0%nat (qr a) (qt b)). set (dt := D 0%nat 1%nat (qr a) (qt b)).
      assert (I00 : K 0%nat 0%nat * J 0%nat 0%nat + K 0%nat 1%nat * J 1%nat 0%nat = 1) by (pose proof (L 0%nat 0%nat ltac:(lia) ltac:(lia)) as X; unfold mmul in X; cbn in X; lra).
      assert (I01 : K 0%nat 0%nat * J 0%nat 1%nat + K 0%nat 1%nat * J 1%nat 1%nat = 0) by (pose proof (L 0%nat 1%nat ltac:(lia) ltac:(lia)) as X; unfold mmul in X; cbn in X; lra).
      assert (I10 : K 1%nat 0%nat * J 0%nat 0%nat + K 1%nat 1%nat * J 1%nat 0%nat = 0) by (pose proof (L 1%nat 0%nat ltac:(lia) ltac:(lia)) as X; unfold mmul in X; cbn in X; lra).
      assert (I11 : K 1%nat 0%nat * J 0%nat 1%nat + K 1%nat 1%nat * J 1%nat 1%nat = 1) by (pose proof (L 1%nat 1%nat ltac:(lia) ltac:(lia)) as X; unfold mmul in X; cbn in X; lra).
      split.
      + transitivity (dr * (K 0%nat 0%nat * J 0%nat 0%nat + K 0%nat 1%nat * J 1%nat 0%nat) + dt * (K 1%nat 0%nat * J 0%nat 0%nat + K 1%nat 1%nat * J 1%nat 0%nat)); [rewrite I00, I10; ring|ring].
      + transitivity (dr * (K 0%nat 0%nat * J 0%nat 1%nat + K 0%nat 1%nat * J 1%nat 1%nat) + dt * (K 1%nat 0%nat * J 0%nat 1%nat + K 1%nat 1%nat * J 1%nat 1%nat)); [rewrite I01, I11; ring|ring].
  Qed.
  Lemma quad_sum_eq F : quadrature_sum p F = Rsum (cells * g) (fun a => Rsum (nt * g) (fun b => vol p a b * F (qr a) (qt b))).
  Proof. unfold quadrature_sum, vol. rewrite (len_r p tr tt m x0 y0 FS), (len_t p tr tt m x0 y0 FS). reflexivity. Qed.
  Lemma Rsum_prod2 k (f1 f2 : nat -> R) : Rsum k f1 * Rsum k f2 = Rsum k (fun i => Rsum k (fun j => f1 i * f2 j)).
  Proof. rewrite <- Rsum_scal_r. apply Rsum_ext. intros i _. rewrite Rsum_scal. reflexivity. Qed.
  Lemma form_eq q al be s x u ux uy y v vx vy : fem_equation p q al be -> reached p (Some q) s -> fem_function p (eq_map q) x u ux uy -> fem_function p (eq_map q) y v vx vy ->
    csr_form (n_interior p) s y x = weak_form p al be u ux uy v vx vy.
  Proof.
    intros FE PR [Lx Ux Gx] [Ly Uy Gy]. rewrite n_eq in *. destruct (reached_eq q al be s FE PR) as [E1 [E2 E3]]. unfold csr_form. rewrite E1, E2, E3.
    transitivity (Rsum n (fun i => Rsum n (fun j => nth i y 0 * ent q al be i j * nth j x 0))).
    { apply Rsum_ext. intros i Hi. apply Rsum_ext. intros j Hj. rewrite element_eq by assumption. reflexivity. }
    unfold weak_form. rewrite quad_sum_eq. unfold entry.
    transitivity (Rsum n (fun i => Rsum n (fun j => Rsum (cells * g) (fun a => Rsum (nt * g) (fun b => nth i y 0 * W p V al be (gmat q) i j a b * nth j x 0))))).
    { apply Rsum_ext. intros i Hi. apply Rsum_ext. intros j Hj. rewrite <- Rsum_scal, <- Rsum_scal_r. apply Rsum_ext. intros a _. rewrite <- Rsum_scal, <- Rsum_scal_r. reflexivity. }
    transitivity (Rsum n (fun i => Rsum (cells * g) (fun a => Rsum (nt * g) (fun b => Rsum n (fun j => nth i y 0 * W p V al be (gmat q) i j a b * nth j x 0))))).
    { apply Rsum_ext. intros i Hi. apply (Rsum3_swap n (cells * g) (nt * g)). }
    rewrite (Rsum3_swap n (cells * g) (nt * g)). apply Rsum_ext. intros a Ha. apply Rsum_ext. intros b Hb.
    pose proof (in_points _ Ux a b Ha Hb) as VU. pose proof (in_points _ Uy a b Ha Hb) as VV. cbv beta in VU, VV. rewrite spline_sum in VU by assumption. rewrite spline_sum in VV by assumption.
    destruct (in_points _ Gx a b Ha Hb) as [ur [ut [GX1 [GX2 GX3]]]]. destruct (in_points _ Gy a b Ha Hb) as [vr [vt [GY1 [GY2 GY3]]]].
    rewrite spline_sum in GX1, GX2, GY1, GY2 by assumption.
    set (r := qr a) in *. set (th := qt b) in *.
    assert (A1 : u r th = Rsum n (fun i => nth i x 0 * B i 0%nat 0%nat a b)) by congruence. assert (A2 : v r th = Rsum n (fun i => nth i y 0 * B i 0%nat 0%nat a b)) by congruence.
    assert (A3 : ur = Rsum n (fun i => nth i x 0 * B i 1%nat 0%nat a b)) by congruence. assert (A4 : ut = Rsum n (fun i => nth i x 0 * B i 0%nat 1%nat a b)) by congruence.
    assert (A5 : vr = Rsum n (fun i => nth i y 0 * B i 1%nat 0%nat a b)) by congruence. assert (A6 : vt = Rsum n (fun i => nth i y 0 * B i 0%nat 1%nat a b)) by congruence.
    rewrite (Rmult_comm (ux r th)), (Rmult_comm (uy r th)). rewrite <- (chain_rule q r th vr vt (vx r th) (vy r th) ur ut (ux r th) (uy r th) (in_points _ (fq_map p q al be FE) a b Ha Hb) GY3 GX3).
    unfold W. fold r th. cbn [Rsum]. unfold c2. cbn [Nat.eqb]. set (G := gmat q r th).
    transitivity (vol p a b * (al r th * (vr * G 0%nat 0%nat * ur + vr * G 0%nat 1%nat * ut + (vt * G 1%nat 0%nat * ur + vt * G 1%nat 1%nat * ut)) + be r th * u r th * v r th)).
    2:{ rewrite !Rplus_0_l. ring. }
    rewrite A1, A2, A3, A4, A5, A6.
    transitivity (Rsum n (fun i => Rsum n (fun j => vol p a b * al r th * G 0%nat 0%nat * ((nth i y 0 * B i 1%nat 0%nat a b) * (nth j x 0 * B j 1%nat 0%nat a b))
      + vol p a b * al r th * G 0%nat 1%nat * ((nth i y 0 * B i 1%nat 0%nat a b) * (nth j x 0 * B j 0%nat 1%nat a b))
      + vol p a b * al r th * G 1%nat 0%nat * ((nth i y 0 * B i 0%nat 1%nat a b) * (nth j x 0 * B j 1%nat 0%nat a b))
      + vol p a b * al r th * G 1%nat 1%nat * ((nth i y 0 * B i 0%nat 1%nat a b) * (nth j x 0 * B j 0%nat 1%nat a b))
      + vol p a b * be r th * ((nth i y 0 * B i 0%nat 0%nat a b) * (nth j x 0 * B j 0%nat 0%nat a b))))).
    { apply Rsum_ext. intros i _. apply Rsum_ext. intros j _. ring. }
    assert (SP : forall c f1 f2, Rsum n (fun i => Rsum n (fun j => c * (f1 i * f2 j))) = c * (Rsum n f1 * Rsum n f2)).
    { intros c f1 f2. rewrite Rsum_prod2. rewrite <- Rsum_scal. apply Rsum_ext. intros i _. rewrite Rsum_scal. reflexivity. }
    rewrite (Rsum_ext n _ (fun i => Rsum n (fun j => vol p a b * al r th * G 0%nat 0%nat * ((nth i y 0 * B i 1%nat 0%nat a b) * (nth j x 0 * B j 1%nat 0%nat a b)))
      + Rsum n (fun j => vol p a b * al r th * G 0%nat 1%nat * ((nth i y 0 * B i 1%nat 0%nat a b) * (nth j x 0 * B j 0%nat 1%nat a b)))
      + Rsum n (fun j => vol p a b * al r th * G 1%nat 0%nat * ((nth i y 0 * B i 0%nat 1%nat a b) * (nth j x 0 * B j 1%nat 0%nat a b)))
      + Rsum n (fun j => vol p a b * al r th * G 1%nat 1%nat * ((nth i y 0 * B i 0%nat 1%nat a b) * (nth j x 0 * B j 0%nat 1%nat a b)))
      + Rsum n (fun j => vol p a b * be r th * ((nth i y 0 * B i 0%nat 0%nat a b) * (nth j x 0 * B j 0%nat 0%nat a b))))) by (intros i _; rewrite !Rsum_plus; reflexivity).
    rewrite !Rsum_plus. rewrite !SP. ring.
  Qed.
End Main.
