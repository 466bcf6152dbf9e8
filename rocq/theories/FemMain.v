(** The finite element Poisson solver as a whole. *)
From Coq Require Import Permutation ZifyBool FunctionalExtensionality.
From Verif Require Import Lib DerivModel DerivRanges QuadModel OnionEval MatrixModel MatrixSpec MatrixProofs MatrixSolveModel MatrixLinkModel MatrixLinkProofs
  FemModel FemSpec FemAsm FemForm FemSolve.
Open Scope R_scope.

Lemma solve_view_ok lapack m swap row start size x : (start + size <= length row)%nat ->
  msolve lapack m swap (fun i => nth (start + i) row 0) = Ok x ->
  exists c, solve_view lapack m swap row start size = Ok c /\ length c = length row /\
    forall i, nth i c 0 = if ((start <=? i) && (i <? start + size))%nat%bool then x (i - start)%nat else nth i row 0.
Proof.
  intros Hl Hx. unfold solve_view. replace (start + size <=? length row)%nat with true by lia. rewrite Hx. cbn [bind].
  eexists. split; [reflexivity|].
  assert (L1 : length (firstn start row) = start) by (rewrite firstn_length; lia).
  split; [rewrite !app_length, L1, map_length, seq_length, skipn_length; lia|].
  intros i. destruct (Nat.lt_ge_cases i start) as [H1|H1].
  - rewrite app_nth1 by lia. replace ((start <=? i) && (i <? start + size))%nat%bool with false by lia.
    transitivity (nth i (firstn start row ++ skipn start row) 0); [rewrite app_nth1 by lia; reflexivity|].
    rewrite firstn_skipn. reflexivity.
  - rewrite app_nth2 by lia. rewrite L1. destruct (Nat.lt_ge_cases i (start + size)) as [H2|H2].
    + rewrite app_nth1 by (rewrite map_length, seq_length; lia).
      replace ((start <=? i) && (i <? start + size))%nat%bool with true by lia.
      apply nth_error_nth. rewrite nth_error_map, (nth_error_nth' (seq 0 size) 0%nat) by (rewrite seq_length; lia).
      rewrite seq_nth by lia. reflexivity.
    + rewrite app_nth2 by (rewrite map_length, seq_length; lia). rewrite map_length, seq_length.
      replace ((start <=? i) && (i <? start + size))%nat%bool with false by lia.
      transitivity (nth i (firstn (start + size) row ++ skipn (start + size) row) 0).
      * rewrite app_nth2 by (rewrite firstn_length; lia). rewrite firstn_length. f_equal. lia.
      * rewrite firstn_skipn. reflexivity.
Qed.

Lemma eval_with_ok b jv c (g : nat -> R) : 
  (forall j, (j <= deg b)%nat -> (fst jv + j < length c)%nat /\ nth (fst jv + j) c 0 = g j) ->
  eval_with b jv c = Ok (Rsum (S (deg b)) (fun j => g j * snd jv j)).
Proof.
  intros H. unfold eval_with.
  rewrite (for_res_ext _ _ (fun j acc => let* a := (let* a := rd c (Z.of_nat (fst jv + j)) in Ok (a * snd jv j)) in Ok (acc + a))).
  - rewrite (for_res_sum _ _ (fun j => g j * snd jv j)); [f_equal; lra|]. intros j Hj.
    destruct (H j ltac:(lia)) as [Hl Hn]. rewrite (rd_nth c _ 0) by exact Hl. cbn [bind]. rewrite Hn. reflexivity.
  - intros j acc Hj. destruct (H j ltac:(lia)) as [Hl Hn]. rewrite (rd_nth c _ 0) by exact Hl. reflexivity.
Qed.

(** the coefficients seen through the modulo *)
Definition wrapped (b : basis) (c : list R) : Prop :=
  length c = nfull b /\ (per b = true -> forall i, (i < deg b)%nat -> nth (nbas b + i) c 0 = nth i c 0).

Lemma wrapped_nth b c a j : bspline_basis b -> wrapped b c -> (a + (if per b then 0 else deg b) < nbas b)%nat -> (j <= deg b)%nat ->
  (a + j < length c)%nat /\ nth (a + j) c 0 = nth ((a + j) mod nbas b) c 0.
Proof.
  intros [Hd _] [L W] Ha Hj. unfold nfull in L. destruct (per b).
  - split; [lia|]. destruct (mod_cases (nbas b) a j) as [[H E]|[H E]]; try lia; rewrite E; [reflexivity|].
    rewrite <- (W eq_refl (a + j - nbas b)%nat) by lia. f_equal. lia.
  - split; [lia|]. rewrite Nat.mod_small by lia. reflexivity.
Qed.

Lemma fem_point_ok b c x : bspline_basis b -> wrapped b c ->
  fem_point b c x = Ok (sfun b (fun i => nth i c 0) x, - dsfun b (fun i => nth i c 0) x).
Proof.
  intros Hb Hw. unfold fem_point. pose proof Hb as [_ [Hj _]]. destruct (Hj x) as [H1 H2].
  rewrite (eval_with_ok b (ev b x) c (fun j => nth ((fst (ev b x) + j) mod nbas b) c 0)); [|intros j Hjj; apply wrapped_nth; auto]. cbn [bind].
  rewrite (eval_with_ok b (dv b x) c (fun j => nth ((fst (dv b x) + j) mod nbas b) c 0)); [|intros j Hjj; apply wrapped_nth; auto]. cbn [bind].
  rewrite sfun_table, dsfun_table by exact Hb. reflexivity.
Qed.

Lemma finish_periodic lapack lapackT b q m0 m h swap f row :
  lapack_correct lapack lapackT -> bspline_basis b -> per b = true -> good_quadrature b q -> sint b (fun _ => 1) <> 0 ->
  make 0 (req_per b) = Ok m0 -> set_all R tinyR m0 h = Ok m ->
  Forall (legal_write tinyR (shape_of m0)) h ->
  (forall i j, (0 <= i < Z.of_nat (nbas b) + 1)%Z -> (0 <= j < Z.of_nat (nbas b) + 1)%Z -> get R 0 m i j = Ok (Kper b q i j)) ->
  length row = nfull b ->
  (forall i, nth i row 0 = if (i <? nbas b)%nat then quad q (fun x => f x * bfun b i x) else 0) ->
  exists c, finish_row lapack b m swap row = Ok c /\ wrapped b c /\
    sint b (fun i => nth i c 0) = 0 /\
    forall v, quad q (fun x => dsfun b (fun i => nth i c 0) x * dsfun b v x) =
              quad q (fun x => f x * sfun b v x) - quad q f / sint b (fun _ => 1) * sint b v.
Proof.
  intros HL Hb Hper Hq Hs Em Eh Hl Hg Lr Hr. pose proof Hb as [Hd _].
  destruct (factory_solves_regular_gen lapack lapackT (req_per b) (Kper b q) h m0 m HL) with (swap := swap) (b := fun i => nth (0 + i) row 0)
    as [[x [Ex Hx]] _]; try assumption.
  { cbn. lia. } { discriminate. } { left; reflexivity. } { apply Kper_solvable; assumption. }
  cbn [req_per req_n] in Hx. replace (Z.to_nat (Z.of_nat (nbas b) + 1)) with (S (nbas b)) in Hx by lia.
  assert (Hw := weak_periodic b q Hb x f Hs). destruct Hw as [W1 W2].
  { intros i Hi. rewrite (Hx i Hi). cbn [plus]. apply Hr. }
  unfold finish_row. rewrite Hper. unfold matrix_size. rewrite Hper.
  replace (Z.to_nat (Z.of_nat (nbas b) + 1)) with (S (nbas b)) by lia.
  unfold nfull in Lr. rewrite Hper in Lr.
  destruct (solve_view_ok lapack m swap row 0 (S (nbas b)) x) as [c [Ec [Lc Nc]]]; [lia|exact Ex|].
  rewrite Ec. cbn [bind].
  destruct (for_res_step (fun k c' => length c' = length c /\ forall i, nth i c' 0 = if ((nbas b <=? i) && (i <? nbas b + k))%nat%bool then nth (i - nbas b) c 0 else nth i c 0)
    (deg b) (fun i c => let* a := rd c (Z.of_nat i) in wr c (Z.of_nat (nbas b + i)) a) c) as [c' [Ec' [Lc' Nc']]].
  - split; [reflexivity|]. intros i. replace ((nbas b <=? i) && (i <? nbas b + 0))%nat%bool with false by lia. reflexivity.
  - intros k t Hk [Lt Nt]. rewrite (rd_nth t k 0) by lia. cbn [bind].
    destruct (wr_nth t (nbas b + k) (nth k t 0) 0) as [t' [Et [Lt' Nt']]]; [lia|].
    exists t'. split; [exact Et|]. split; [lia|]. intros i. rewrite Nt'.
    destruct (i =? nbas b + k)%nat eqn:Ei.
    + assert (i = nbas b + k)%nat as -> by lia. rewrite Nt. replace ((nbas b <=? k) && (k <? nbas b + k))%nat%bool with false by lia.
      replace ((nbas b <=? nbas b + k) && (nbas b + k <? nbas b + S k))%nat%bool with true by lia. f_equal. lia.
    + rewrite Nt. replace ((nbas b <=? i) && (i <? nbas b + S k))%nat%bool with ((nbas b <=? i) && (i <? nbas b + k))%nat%bool by lia. reflexivity.
  - exists c'. split; [exact Ec'|].
    assert (Hc : forall i, (i < nbas b)%nat -> nth i c' 0 = x i).
    { intros i Hi. rewrite Nc'. replace ((nbas b <=? i) && (i <? nbas b + deg b))%nat%bool with false by lia. rewrite Nc.
      replace ((0 <=? i) && (i <? 0 + S (nbas b)))%nat%bool with true by lia. f_equal; lia. }
    split.
    { split; [unfold nfull; rewrite Hper; lia|]. intros _ i Hi. rewrite (Hc i) by lia. rewrite Nc'.
      replace ((nbas b <=? nbas b + i) && (nbas b + i <? nbas b + deg b))%nat%bool with true by lia.
      rewrite Nc. replace (nbas b + i - nbas b)%nat with i by lia. replace ((0 <=? i) && (i <? 0 + S (nbas b)))%nat%bool with true by lia. f_equal; lia. }
    split.
    { transitivity (sint b x); [|exact W1]. unfold sint. apply Rsum_ext. intros i Hi. rewrite Hc by exact Hi. reflexivity. }
    intros v. rewrite <- W2. apply quad_ext. intros y w _. f_equal. apply dsfun_ext. exact Hc.
Qed.

Lemma finish_dirichlet lapack lapackT b q m0 m h swap f row :
  lapack_correct lapack lapackT -> bspline_basis b -> per b = false -> good_quadrature b q -> (2 < nbas b)%nat ->
  make 0 (req_dir b) = Ok m0 -> set_all R tinyR m0 h = Ok m ->
  Forall (legal_write tinyR (shape_of m0)) h ->
  (forall i j, (0 <= i < Z.of_nat (nbas b) - 2)%Z -> (0 <= j < Z.of_nat (nbas b) - 2)%Z -> get R 0 m i j = Ok (Kdir b q i j)) ->
  length row = nfull b ->
  (forall i, nth i row 0 = if (i <? nbas b)%nat then quad q (fun x => f x * bfun b i x) else 0) ->
  exists c, finish_row lapack b m swap row = Ok c /\ wrapped b c /\
    dirichlet b (fun i => nth i c 0) /\
    forall v, dirichlet b v -> weak b q (dsfun b (fun i => nth i c 0)) f v.
Proof.
  intros HL Hb Hper Hq Hn Em Eh Hl Hg Lr Hr. pose proof Hb as [Hd _].
  destruct (factory_solves_regular_gen lapack lapackT (req_dir b) (Kdir b q) h m0 m HL) with (swap := swap) (b := fun i => nth (1 + i) row 0)
    as [[x [Ex Hx]] _]; try assumption.
  { cbn. lia. } { discriminate. } { exact I. } { apply Kdir_solvable; assumption. }
  cbn [req_dir req_n] in Hx. replace (Z.to_nat (Z.of_nat (nbas b) - 2)) with (nbas b - 2)%nat in Hx by lia.
  assert (Hw := weak_dirichlet b q x f Hn). cbv zeta in Hw.
  unfold finish_row. rewrite Hper. unfold matrix_size. rewrite Hper.
  replace (Z.to_nat (Z.of_nat (nbas b) - 2)) with (nbas b - 2)%nat by lia.
  unfold nfull in Lr. rewrite Hper in Lr.
  destruct (solve_view_ok lapack m swap row 1 (nbas b - 2) x) as [c [Ec [Lc Nc]]]; [lia|exact Ex|].
  rewrite Ec. cbn [bind].
  destruct (wr_nth c 0 0 0) as [c1 [E1 [L1 N1]]]; [lia|]. change (Z.of_nat 0) with 0%Z in E1. rewrite E1. cbn [bind].
  destruct (wr_nth c1 (nbas b - 1) 0 0) as [c2 [E2 [L2 N2]]]; [lia|].
  replace (Z.of_nat (length c1) - 1)%Z with (Z.of_nat (nbas b - 1)) by lia.
  exists c2. split; [exact E2|].
  assert (Hc : forall i, (i < nbas b)%nat -> nth i c2 0 = if ((1 <=? i) && (i <? nbas b - 1))%nat%bool then x (i - 1)%nat else 0).
  { intros i Hi. rewrite N2. destruct (i =? nbas b - 1)%nat eqn:Ei.
    - replace ((1 <=? i) && (i <? nbas b - 1))%nat%bool with false by lia. reflexivity.
    - rewrite N1. destruct (i =? 0)%nat eqn:E0.
      + replace ((1 <=? i) && (i <? nbas b - 1))%nat%bool with false by lia. reflexivity.
      + rewrite Nc. replace ((1 <=? i) && (i <? 1 + (nbas b - 2)))%nat%bool with true by lia.
        replace ((1 <=? i) && (i <? nbas b - 1))%nat%bool with true by lia. reflexivity. }
  split; [split; [unfold nfull; rewrite Hper; lia|congruence]|]. split.
  { split; rewrite Hc by lia; [reflexivity|]. replace ((1 <=? nbas b - 1) && (nbas b - 1 <? nbas b - 1))%nat%bool with false by lia. reflexivity. }
  intros v Hv. unfold weak. rewrite <- (Hw ltac:(intros i Hi; rewrite (Hx i Hi), Hr; replace (1 + i <? nbas b)%nat with true by lia; reflexivity) v Hv).
  apply quad_ext. intros y w _. f_equal. apply dsfun_ext. exact Hc.
Qed.

Lemma map_res_map {A B} (g : A -> res B) (f : A -> B) l : (forall x, In x l -> g x = Ok (f x)) -> map_res g l = Ok (map f l).
Proof.
  induction l as [|x l IH]; intros H; cbn [map_res map]; [reflexivity|].
  rewrite H by (left; reflexivity). cbn [bind]. rewrite IH by (intros; apply H; right; assumption). reflexivity.
Qed.
Lemma map_res_nth {A B} (g : A -> res B) (P : nat -> B -> Prop) (dA : A) (dB : B) l :
  (forall i, (i < length l)%nat -> exists y, g (nth i l dA) = Ok y /\ P i y) ->
  exists ys, map_res g l = Ok ys /\ length ys = length l /\ forall i, (i < length l)%nat -> P i (nth i ys dB).
Proof.
  revert P. induction l as [|x l IH]; intros P H; cbn [map_res].
  - exists []. split; [reflexivity|]. split; [reflexivity|]. cbn; intros; lia.
  - destruct (H 0%nat) as [y [Ey Py]]; [cbn; lia|]. cbn [nth] in Ey. rewrite Ey. cbn [bind].
    destruct (IH (fun i => P (S i))) as [ys [E [L N]]].
    { intros i Hi. apply (H (S i)). cbn [length]; lia. }
    rewrite E. cbn [bind]. exists (y :: ys). split; [reflexivity|]. split; [cbn [length]; lia|].
    intros [|i] Hi; cbn [nth]; [exact Py|]. apply N. cbn [length] in Hi. lia.
Qed.

Lemma fem_generic lapack b q swap nbatch rho_h sched grid m (P : nat -> (nat -> R) -> Prop) :
  bspline_basis b -> Permutation sched (all_tasks b q nbatch) ->
  build_matrix b q = Ok m ->
  (forall ib row, (ib < nbatch)%nat -> length row = nfull b ->
     (forall i, nth i row 0 = if (i <? nbas b)%nat then quad q (fun x => rho_h ib x * bfun b i x) else 0) ->
     exists c, finish_row lapack b m swap row = Ok c /\ wrapped b c /\ P ib (fun i => nth i c 0)) ->
  fem_output b grid nbatch P (fem_poisson lapack b q swap nbatch rho_h sched grid).
Proof.
  intros Hb Hp Em Hf. unfold fem_output, fem_poisson. rewrite Em. cbn [bind]. unfold solve_matrix_system.
  destruct (rhs_ok b q rho_h nbatch sched Hb Hp) as [rows [Er [Lr Nr]]]. rewrite Er. cbn [bind].
  destruct (map_res_nth (finish_row lapack b m swap) (fun ib c => wrapped b c /\ P ib (fun i => nth i c 0)) [] [] rows) as [cs [Ec [Lc Nc]]].
  { intros ib Hib. rewrite Lr in Hib. destruct (Nr ib Hib) as [H1 H2]. apply Hf; assumption. }
  rewrite Ec. cbn [bind].
  destruct (map_res_nth (fun c => map_res (fem_point b c) grid)
    (fun ib l => l = map (fun x => (sfun b (fun i => nth i (nth ib cs []) 0) x, - dsfun b (fun i => nth i (nth ib cs []) 0) x)) grid) [] [] cs) as [out [Eo [Lo No]]].
  { intros ib Hib. destruct (Nc ib ltac:(lia)) as [H1 _].
    eexists. split; [|reflexivity]. apply map_res_map. intros x _. apply fem_point_ok; assumption. }
  exists out, (fun ib i => nth i (nth ib cs []) 0). split; [exact Eo|]. split; [lia|].
  intros ib Hib. split; [apply No; lia|]. apply Nc. lia.
Qed.

Theorem fem_periodic lapack lapackT b q swap nbatch rho_h sched grid :
  lapack_correct lapack lapackT -> bspline_basis b -> per b = true -> good_quadrature b q -> sint b (fun _ => 1) <> 0 ->
  Permutation sched (all_tasks b q nbatch) ->
  fem_output b grid nbatch (fun ib c => sint b c = 0 /\
      forall v, quad q (fun x => dsfun b c x * dsfun b v x) =
                quad q (fun x => rho_h ib x * sfun b v x) - quad q (rho_h ib) / sint b (fun _ => 1) * sint b v)
    (fem_poisson lapack b q swap nbatch rho_h sched grid).
Proof.
  intros HL Hb Hper Hq Hs Hp. destruct (build_periodic_ok b q Hb Hper) as [m0 [m [h [Em [Eh [Ebm [Hl Hg]]]]]]].
  apply fem_generic with (m := m); [exact Hb|exact Hp|unfold build_matrix; rewrite Hper; exact Ebm|].
  intros ib row Hib Lr Hr. eapply finish_periodic; eauto.
Qed.

Theorem fem_dirichlet lapack lapackT b q swap nbatch rho_h sched grid :
  lapack_correct lapack lapackT -> bspline_basis b -> per b = false -> good_quadrature b q -> (2 < nbas b)%nat ->
  Permutation sched (all_tasks b q nbatch) ->
  fem_output b grid nbatch (fun ib c => dirichlet b c /\ forall v, dirichlet b v -> weak b q (dsfun b c) (rho_h ib) v)
    (fem_poisson lapack b q swap nbatch rho_h sched grid).
Proof.
  intros HL Hb Hper Hq Hs Hp. destruct (build_dirichlet_ok b q Hb Hper Hs) as [m0 [m [h [Em [Eh [Ebm [Hl Hg]]]]]]].
  apply fem_generic with (m := m); [exact Hb|exact Hp|unfold build_matrix; rewrite Hper; exact Ebm|].
  intros ib row Hib Lr Hr. eapply finish_dirichlet; eauto.
Qed.
