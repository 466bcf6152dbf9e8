(** Properties C07, C08, C41, C42: the batched matrices of src/matrix_tools.
    Vocabulary: BatchSpec.v ([tridiag], [pivot], [coo_matrix], [csr_matrix]) and
    MatrixSpec.v ([is_solution]). *)
From Verif Require Import Lib MatrixSpec BatchModel BatchSpec BatchProofs CsrProofs.
Open Scope R_scope.

(** ** C07: MatrixBatchTridiag::solve *)
(** Every system of the batch is replaced by the solution of its own tridiagonal system;
    nothing else is modified.  a k 0 and c k (n-1) are not used. *)
Theorem C07_tridiagonal_solve : forall batch n a d c b, (0 < n)%nat ->
  (forall k i, (k < batch)%nat -> (i < n)%nat -> pivot (a k) (d k) (c k) i <> 0) ->
  exists x, tridiag_solve batch n a d c b = Ok x /\
    (forall k, (k < batch)%nat -> is_solution n (tridiag (a k) (d k) (c k)) (x k) (b k)) /\
    (forall k i, (batch <= k)%nat \/ (n <= i)%nat -> x k i = b k i).
Proof. exact tridiag_solve_correct. Qed.
Print Assumptions C07_tridiagonal_solve.

Theorem C07_strictly_dominant_no_zero_pivot : forall n a d c,
  (forall i, (i < n)%nat -> Rabs (a i) + Rabs (c i) < Rabs (d i)) ->
  forall i, (i < n)%nat -> pivot a d c i <> 0.
Proof. exact strictly_dominant_pivots. Qed.
Print Assumptions C07_strictly_dominant_no_zero_pivot.

Theorem C07_weakly_dominant_no_zero_pivot : forall n a d c,
  Rabs (c 0%nat) < Rabs (d 0%nat) ->
  (forall i, (i < n)%nat -> Rabs (a i) + Rabs (c i) <= Rabs (d i)) ->
  (forall i, (0 < i < n)%nat -> a i <> 0) ->
  forall i, (i < n)%nat -> pivot a d c i <> 0.
Proof. exact weakly_dominant_pivots. Qed.
Print Assumptions C07_weakly_dominant_no_zero_pivot.

Theorem C07_positive_definite_no_zero_pivot : forall n a d c,
  (forall i, (S i < n)%nat -> a (S i) = c i) ->
  posdef n (tridiag a d c) ->
  forall i, (i < n)%nat -> 0 < pivot a d c i.
Proof. exact posdef_pivots. Qed.
Print Assumptions C07_positive_definite_no_zero_pivot.

(** what setup_solver's stability check accepts: dominance of every row of every system,
    or "symmetry" comparing a(i) with c(i) of the same row *)
Theorem C07_stability_check_meaning : forall batch n a d c,
  check_stability batch n a d c = true <->
  (forall k i, (k < batch)%nat -> (i < n)%nat -> Rabs (a k i) + Rabs (c k i) <= Rabs (d k i)) \/
  (forall k i, (k < batch)%nat -> (i < n)%nat -> Rabs (a k i - c k i) < 1 / 10 ^ 16).
Proof. exact check_stability_spec. Qed.
Print Assumptions C07_stability_check_meaning.

(** Findings: the check accepts matrices on which the algorithm divides by zero, accepts a
    non-symmetric non-dominant matrix and rejects a symmetric positive definite one. *)
Theorem C07_stability_check_sound_refuted :
  exists n a d c, (0 < n)%nat /\ check_stability 1 n (fun _ => a) (fun _ => d) (fun _ => c) = true /\
    exists i, (i < n)%nat /\ pivot a d c i = 0.
Proof. exact check_stability_accepts_zero_pivot. Qed.
Print Assumptions C07_stability_check_sound_refuted.

Theorem C07_stability_check_symmetry_refuted :
  (exists n a d c, check_stability 1 n (fun _ => a) (fun _ => d) (fun _ => c) = true /\
    (exists i, (S i < n)%nat /\ a (S i) <> c i) /\
    (exists i, (i < n)%nat /\ Rabs (d i) < Rabs (a i) + Rabs (c i))) /\
  (exists n a d c, (forall i, (S i < n)%nat -> a (S i) = c i) /\ posdef n (tridiag a d c) /\
    check_stability 1 n (fun _ => a) (fun _ => d) (fun _ => c) = false).
Proof. exact (conj check_stability_accepts_nonsymmetric check_stability_rejects_spd). Qed.
Print Assumptions C07_stability_check_symmetry_refuted.

(** the pivots of two different 3x3 systems are non-zero *)
Example C07_example : forall k i, (k < 2)%nat -> (i < 3)%nat ->
  pivot (fun _ => 1) (fun _ => INR k + 3) (fun _ => 1) i <> 0.
Proof.
  intros k i Hk Hi. apply (strictly_dominant_pivots 3); [|exact Hi].
  intros j _. pose proof (pos_INR k). rewrite Rabs_R1, Rabs_pos_eq; lra.
Qed.

(** ** C08: convert_coo_to_csr *)
(** [vals] holds batch * nnz values.  The first matrix is always right; the others are
    when the triplets are sorted by row (rows inside the matrix). *)
Theorem C08_coo_to_csr_partial : forall batch n len vals row col, (0 < batch)%nat ->
  let nnz := (len / batch)%nat in
  exists m, convert_coo_to_csr batch n len vals row col = Ok m /\
    (forall i j, (i < n)%nat -> csr_matrix m 0 i j = coo_matrix nnz row col vals i j) /\
    ((forall k, (k < nnz)%nat -> (row k < n)%nat) /\
     (forall k, (S k < nnz)%nat -> (row k <= row (S k))%nat) ->
     forall b i j, (b < batch)%nat -> (i < n)%nat ->
       csr_matrix m b i j = coo_matrix nnz row col (fun k => vals (b * nnz + k)%nat) i j) /\
    ((0 < n)%nat -> row_ptr m 0 = 0%nat /\ (row_ptr m n <= nnz)%nat /\
       forall i, (i < n)%nat -> (row_ptr m i <= row_ptr m (i + 1))%nat).
Proof. exact convert_correct. Qed.
Print Assumptions C08_coo_to_csr_partial.

(** Finding: with unsorted rows every matrix but the first is wrong. *)
Theorem C08_unsorted_triplets_refuted :
  let row := (fun k => match k with O => 1%nat | _ => 0%nat end) in
  let col := (fun _ : nat => 0%nat) in
  let vals := (fun k => match k with O => 10 | 1 => 20 | 2 => 30 | _ => 40 end%nat) in
  let vals := fun k => INR (vals k) in
  exists m, convert_coo_to_csr 2 2 4 vals row col = Ok m /\
    csr_matrix m 1%nat 0%nat 0%nat <> coo_matrix 2%nat row col (fun k => vals (1 * 2 + k)%nat) 0%nat 0%nat.
Proof. exact convert_unsorted_wrong. Qed.
Print Assumptions C08_unsorted_triplets_refuted.

(** sorted rows exist for a batch of two 2x2 matrices; element (1,0) of the second *)
Example C08_example : exists m,
  convert_coo_to_csr 2 2 6 (fun k => INR k) (fun k => Nat.div k 2) (fun k => Nat.modulo k 2) = Ok m /\
  csr_matrix m 1%nat 1%nat 0%nat = 5.
Proof. eexists; split; [reflexivity|]. unfold csr_matrix. cbn [row_ptr col_idx values]. unfold upd. cbn. lra. Qed.

(** the infinity norm of one matrix of the batch *)
Theorem C08_csr_norm : forall n m b, (0 < n)%nat ->
  (forall i t, (i < n)%nat -> (row_ptr m i <= t < row_ptr m (i + 1))%nat -> (col_idx m t < n)%nat) ->
  (forall i s t, (i < n)%nat -> (row_ptr m i <= s < row_ptr m (i + 1))%nat ->
     (row_ptr m i <= t < row_ptr m (i + 1))%nat -> col_idx m s = col_idx m t -> s = t) ->
  (forall i, (i < n)%nat -> Rsum n (fun j => Rabs (csr_matrix m b i j)) <= csr_norm n m b) /\
  (exists i, (i < n)%nat /\ csr_norm n m b = Rsum n (fun j => Rabs (csr_matrix m b i j))).
Proof. exact csr_norm_correct. Qed.
Print Assumptions C08_csr_norm.

(** ** C41: element access of MatrixBatchEll *)
Theorem C41_ell_access_faithful : forall batch n nnz (buf : list R) b line col x,
  Z.of_nat (length buf) = (batch * n * nnz)%Z ->
  (0 <= b < batch)%Z -> (0 <= line < n)%Z -> (0 <= col < nnz)%Z ->
  exists buf', ell_set n nnz buf b line col x = Ok buf' /\
    length buf' = length buf /\
    ell_get n nnz buf' b line col = Ok x /\
    forall b' line' col', (0 <= b' < batch)%Z -> (0 <= line' < n)%Z -> (0 <= col' < nnz)%Z ->
      (b', line', col') <> (b, line, col) ->
      ell_get n nnz buf' b' line' col' = ell_get n nnz buf b' line' col'.
Proof. exact ell_faithful. Qed.
Print Assumptions C41_ell_access_faithful.

(** the view handed out by get_batch_ell addresses the same elements *)
Theorem C41_view_same_elements : forall n nnz b line col,
  ell_offset n nnz b line col = ell_view_offset n nnz b line col.
Proof. exact ell_offset_view. Qed.
Print Assumptions C41_view_same_elements.

Theorem C41_ell_norm : forall batch n nnz buf b, (0 < n)%nat ->
  Z.of_nat (length buf) = (batch * Z.of_nat n * Z.of_nat nnz)%Z -> (0 <= b < batch)%Z ->
  let stored i k := match ell_get (Z.of_nat n) (Z.of_nat nnz) buf b (Z.of_nat i) (Z.of_nat k) with Ok x => x | _ => 0 end in
  (forall i, (i < n)%nat -> Rsum nnz (fun k => Rabs (stored i k)) <= ell_norm n nnz buf b) /\
  (exists i, (i < n)%nat /\ ell_norm n nnz buf b = Rsum nnz (fun k => Rabs (stored i k))).
Proof. exact ell_norm_correct. Qed.
Print Assumptions C41_ell_norm.

(** Finding: the range assertion accepts column nnz: the access leaves the buffer for the
    last matrix, and addresses column 0 of the next matrix otherwise. *)
Theorem C41_range_check_refuted : forall batch n nnz buf line,
  Z.of_nat (length buf) = (batch * n * nnz)%Z ->
  (0 < batch)%Z -> (0 <= line < n)%Z -> (0 < nnz)%Z ->
  ell_get n nnz buf (batch - 1) line nnz = Ub /\
  forall b, (0 <= b < batch - 1)%Z -> ell_get n nnz buf b line nnz = ell_get n nnz buf (b + 1) line 0.
Proof. exact ell_off_by_one. Qed.
Print Assumptions C41_range_check_refuted.

Example C41_example : (Z.of_nat (length (repeat 0 12)) = 2 * 3 * 2)%Z.
Proof. reflexivity. Qed.

(** ** C42: MatrixBatchCsr::setup_solver sorts the columns *)
Theorem C42_sorted_columns_untouched : forall batch m,
  forallb (fun r => sortedb (scols r)) m = true -> setup_sort batch m = m.
Proof. exact setup_sort_sorted. Qed.
Print Assumptions C42_sorted_columns_untouched.

Theorem C42_single_matrix_sorted_partial : forall m, batch_ok 1 m ->
  forallb (fun r => sortedb (scols r)) (setup_sort 1 m) = true /\
  forall i j, row_elem (nth i (setup_sort 1 m) (Build_srow [] [])) 0 j
            = row_elem (nth i m (Build_srow [] [])) 0 j.
Proof. exact setup_sort_single. Qed.
Print Assumptions C42_single_matrix_sorted_partial.

(** Finding: with two or more matrices the shared column indices are sorted together with
    the values of the first matrix only. *)
Theorem C42_batch_preserved_refuted :
  let m := [ {| scols := [1; 0]%nat; svals := [[1; 2]; [3; 4]] |} ] in
  batch_ok 2 m /\
  row_elem (nth 0 (setup_sort 2 m) (Build_srow [] [])) 1 0 <> row_elem (nth 0 m (Build_srow [] [])) 1 0.
Proof. exact setup_sort_batch_wrong. Qed.
Print Assumptions C42_batch_preserved_refuted.

Example C42_example : batch_ok 1 [ {| scols := [2; 0]%nat; svals := [[1; 2]] |} ].
Proof. repeat constructor. Qed.
