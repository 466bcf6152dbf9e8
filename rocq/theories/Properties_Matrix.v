(** Properties C01-C06: the matrix classes of src/matrix_tools.
    Vocabulary: MatrixSpec.v (shapes, stored positions, last write, requests). *)
From Verif Require Import Lib MatrixModel MatrixSpec MatrixProofs MatrixSolveModel
  MatrixSolveProofs MatrixLinkModel MatrixLinkProofs MatrixOracle MatrixExtraProofs.
Open Scope Z_scope.

(** ** C01 *)
(** After any legal history on any constructed matrix, each element reads as the last
    value written to it (0 if never written, 0 outside the storable positions), and
    neither a write nor a read leaves its buffer (the result is [Ok], never [Ub]). *)
Theorem C01_storage_faithful :
  forall (A : Type) (zero : A) (tiny : A -> bool) (m : matrix A) (h : list (Z * Z * A)),
  constructed A zero m ->
  Forall (legal_write tiny (shape_of m)) h ->
  exists m', set_all A tiny m h = Ok m' /\
    forall i j, 0 <= i < order (shape_of m) -> 0 <= j < order (shape_of m) ->
      get A zero m' i j =
      Ok (if stored (shape_of m) i j then last_write (shape_of m) h i j zero else zero).
Proof. exact storage_faithful. Qed.
Print Assumptions C01_storage_faithful.

Theorem C01_illegal_write_detected :
  forall (A : Type) (zero : A) (tiny : A -> bool) m h m' i j x,
  constructed A zero m ->
  Forall (legal_write tiny (shape_of m)) h -> set_all A tiny m h = Ok m' ->
  0 <= i < order (shape_of m) -> 0 <= j < order (shape_of m) ->
  stored (shape_of m) i j = false -> tiny x = false ->
  set A tiny m' i j x = AssertFail.
Proof. exact illegal_write_asserts. Qed.
Print Assumptions C01_illegal_write_detected.

(** Finding: Matrix_Dense::set_element checks no bound; writing the non-existent element
    (n,0) succeeds and changes element (0,1). *)
Theorem C01_dense_range_check_refuted :
  forall (A : Type) (zero : A) tiny n (x : A), 1 < n ->
  exists m m', new_dense A zero n = Ok m /\ set A tiny m n 0 x = Ok m' /\
    get A zero m 0 1 = Ok zero /\ get A zero m' 0 1 = Ok x.
Proof. exact @dense_unchecked_write. Qed.
Print Assumptions C01_dense_range_check_refuted.

(** the premises hold: a banded block inside a centre matrix, two writes to one element,
    an out-of-band write of a negligible value *)
Example C01_example :
  exists q m, new_banded Z 0 4 1 1 = Ok q /\ new_centre Z 0 7 1 2 q = Ok m /\
    constructed Z 0 m /\
    Forall (legal_write (Z.eqb 0) (shape_of m)) [(2,2,5); (0,6,7); (2,2,9); (1,4,0)] /\
    stored (shape_of m) 1 4 = false /\
    (let* m' := set_all Z (Z.eqb 0) m [(2,2,5); (0,6,7); (2,2,9); (1,4,0)] in
     let* a := get Z 0 m' 2 2 in let* b := get Z 0 m' 0 6 in let* c := get Z 0 m' 1 4 in Ok (a, b, c))
    = Ok (9, 7, 0).
Proof.
  do 2 eexists. split; [reflexivity|]. split; [reflexivity|]. split; [|split; [|split; reflexivity]].
  - eapply (c_centre Z 0 7 1 2 (Banded Z 4 1 1 (zeros Z 0 16))); [|lia|lia|reflexivity].
    eapply (c_banded Z 0 4 1 1). reflexivity.
  - repeat (constructor; [cbn; repeat split; try lia; try (left; reflexivity); try (right; reflexivity)|]).
    constructor.
Qed.

(** ** C02 *)
Theorem C02_factories_interchangeable :
  forall (A : Type) (zero : A) tiny r1 r2 M h1 h2,
  tiny zero = true -> req_n r1 = req_n r2 ->
  admissible r1 -> admissible r2 -> fits zero r1 M -> fits zero r2 M ->
  lists_elements zero (req_n r1) M h1 -> lists_elements zero (req_n r2) M h2 ->
  exists m1 m1' m2 m2', make zero r1 = Ok m1 /\ make zero r2 = Ok m2 /\
    set_all A tiny m1 h1 = Ok m1' /\ set_all A tiny m2 h2 = Ok m2' /\
    forall i j, 0 <= i < req_n r1 -> 0 <= j < req_n r1 ->
      get A zero m1' i j = Ok (M i j) /\ get A zero m2' i j = Ok (M i j).
Proof. exact @factories_interchangeable. Qed.
Print Assumptions C02_factories_interchangeable.

(** the same tridiagonal matrix as symmetric-tridiagonal, banded, periodic or dense *)
Example C02_example :
  tinyR 0 = true /\
  admissible (ReqBanded 8 1 1 true) /\ admissible (ReqBanded 8 1 1 false) /\
  admissible (ReqBanded 8 7 7 false) /\
  fits 0%R (ReqBanded 8 1 1 true) ex_P /\ fits 0%R (ReqBanded 8 1 1 false) ex_P /\
  fits 0%R (ReqBanded 8 7 7 false) ex_P /\ lists_elements 0%R 8 ex_P (all_writes 8 ex_P) /\
  (exists m1 m2 m3, make 0%R (ReqBanded 8 1 1 true) = Ok m1 /\ make 0%R (ReqBanded 8 1 1 false) = Ok m2 /\
     make 0%R (ReqBanded 8 7 7 false) = Ok m3 /\
     shape_of m1 = SPds 8 /\ shape_of m2 = SBanded 8 1 1 /\ shape_of m3 = SDense 8).
Proof.
  split; [exact tiny_zero|]. repeat (split; [cbn; lia|]).
  split; [apply ex_P_fits|]. split; [split; [discriminate|apply ex_P_fits; exact 8]|].
  split; [split; [discriminate|intros i j H; apply (ex_P_fits 8); unfold band in *; lia]|].
  split; [exact (all_writes_lists 8 ex_P)|].
  do 3 eexists. repeat split; reflexivity.
Qed.

(** ** C03: matrices with a banded region (block and centre classes) *)
(** End to end: factory, any history listing the elements of M, factorise, solve_inplace;
    [lapack] is any correct linear solver. *)
Theorem C03_block_solve :
  forall lapack lapackT n kl ku pds b1 b2 M h m m',
  let r := ReqBlock n kl ku pds b1 b2 in
  lapack_correct lapack lapackT ->
  admissible r -> fits 0%R r M -> lists_elements 0%R n M h -> no_overlap r ->
  solvable r M ->
  make 0%R r = Ok m -> set_all R tinyR m h = Ok m' ->
  forall swap b,
    exists x, msolve lapack m' swap b = Ok x /\ is_solution (Z.to_nat n) (natmat M) x b.
Proof.
  intros lapack lapackT n kl ku pds b1 b2 M h m m' r H1 H2 H3 H4 H5 H6 H7 H8 swap b.
  exact (proj1 (factory_solves_regular lapack lapackT r M h m m' H1 H2 H3 H4 H5 H6 H7 H8 swap b)).
Qed.
Print Assumptions C03_block_solve.

(** For any solvers of the diagonal block Q and of the Schur complement. *)
Theorem C03_corner_solve :
  forall (B : blocks) (Q : mat) (qs ds : vec -> vec),
  solves (nb B) Q qs ->
  solves (kk B) (delta_to_factorise FullLambda B qs) ds ->
  solves (nb B + kk B) (block (nb B) Q (fun i j => gam B j i) (fun i j => lam B j i) (del B))
    (corner_solve FullLambda B qs ds).
Proof. intros B Q qs ds H1 H2. exact (corner_solve_correct FullLambda B Q qs ds I H1 H2). Qed.
Print Assumptions C03_corner_solve.

(** The system handed to the second solver is regular whenever the whole matrix is. *)
Theorem C03_schur_regular :
  forall (B : blocks) (Q : mat) (qs : vec -> vec),
  solves (nb B) Q qs ->
  regular (nb B + kk B) (block (nb B) Q (fun i j => gam B j i) (fun i j => lam B j i) (del B)) ->
  regular (kk B) (delta_to_factorise FullLambda B qs).
Proof.
  intros B Q qs Hq Hr. apply regular_injective. apply (schur_regular FullLambda B Q qs I Hq).
  apply regular_injective. exact Hr.
Qed.
Print Assumptions C03_schur_regular.

Example C03_example :
  lapack_correct exact_lapack exact_lapackT /\
  let r := ReqBlock 6 0 0 false 1 2 in
  admissible r /\ fits 0%R r ex_B /\ lists_elements 0%R 6 ex_B (all_writes 6 ex_B) /\
  no_overlap r /\ solvable r ex_B /\
  exists m, make 0%R r = Ok m /\ shape_of m = SCentre 6 1 2 (SBanded 3 0 0).
Proof.
  split; [exact exact_lapack_correct|]. cbv zeta.
  split; [cbn; lia|]. split; [exact ex_B_fits|]. split; [exact (all_writes_lists 6 ex_B)|].
  split; [cbn; lia|]. split; [apply ex_B_solvable; lia|].
  eexists. split; reflexivity.
Qed.

(** Finding: solve_multiple_inplace of the block classes cannot be called with the
    documented layout (number of systems x n) unless there are exactly n systems... *)
Theorem C03_corner_solve_multiple_refuted :
  forall n nsystems s bx, nsystems <> n -> corner_solve_multiple n nsystems n s bx = AssertFail.
Proof. intros; apply corner_multiple_assert; assumption. Qed.
Print Assumptions C03_corner_solve_multiple_refuted.
(** ... whereas the base class accepts it and solves every system. *)
Theorem C03_base_solve_multiple :
  forall n nsystems M s bx, solves n M s ->
  exists x, base_solve_multiple n nsystems n s bx = Ok x /\
    forall r i, (r < nsystems)%nat -> (i < n)%nat ->
      mulv n M (fun j => x (n * r + j)%nat) i = bx (n * r + i)%nat.
Proof. exact base_multiple_ok. Qed.
Print Assumptions C03_base_solve_multiple.

(** ** C04: transposed systems, for every factory *)
Theorem C04_transposed_solve :
  forall lapack lapackT r M h m m',
  lapack_correct lapack lapackT ->
  admissible r -> fits 0%R r M -> lists_elements 0%R (req_n r) M h -> no_overlap r ->
  solvable r M ->
  make 0%R r = Ok m -> set_all R tinyR m h = Ok m' ->
  forall swap b,
    exists x, msolveT lapack lapackT m' swap b = Ok x /\
              is_solution (Z.to_nat (req_n r)) (transp (natmat M)) x b.
Proof.
  intros lapack lapackT r M h m m' H1 H2 H3 H4 H5 H6 H7 H8 swap b.
  exact (proj2 (factory_solves_regular lapack lapackT r M h m m' H1 H2 H3 H4 H5 H6 H7 H8 swap b)).
Qed.
Print Assumptions C04_transposed_solve.

Theorem C04_corner_solve_transpose :
  forall (B : blocks) (Q : mat) (qs qsT dsT : vec -> vec),
  solves (nb B) Q qs -> solves (nb B) (transp Q) qsT ->
  solves (kk B) (transp (delta_to_factorise FullLambda B qs)) dsT ->
  solves (nb B + kk B)
    (transp (block (nb B) Q (fun i j => gam B j i) (fun i j => lam B j i) (del B)))
    (corner_solve_transpose FullLambda B qs qsT dsT).
Proof.
  intros B Q qs qsT dsT H1 H2 H3.
  exact (corner_solve_transpose_correct FullLambda B Q qs qsT dsT I H1 H2 H3).
Qed.
Print Assumptions C04_corner_solve_transpose.

Example C04_example :
  lapack_correct exact_lapack exact_lapackT /\
  (let r := ReqBanded 3 1 1 true in
   admissible r /\ fits 0%R r ex_P /\ lists_elements 0%R 3 ex_P (all_writes 3 ex_P) /\
   no_overlap r /\ solvable r ex_P) /\
  (let r := ReqBlock 6 0 0 false 1 2 in
   admissible r /\ fits 0%R r ex_B /\ lists_elements 0%R 6 ex_B (all_writes 6 ex_B) /\
   no_overlap r /\ solvable r ex_B).
Proof.
  split; [exact exact_lapack_correct|]. split; cbv zeta.
  - split; [cbn; lia|]. split; [apply ex_P_fits|]. split; [exact (all_writes_lists 3 ex_P)|].
    split; [exact I|exact ex_P_solvable].
  - split; [cbn; lia|]. split; [exact ex_B_fits|]. split; [exact (all_writes_lists 6 ex_B)|].
    split; [cbn; lia|apply ex_B_solvable; lia].
Qed.

(** ** C05: periodic banded matrices (storage faithfulness is C01_storage_faithful with
    the shape SPeriodic) *)
Theorem C05_periodic_store :
  forall (A : Type) (zero : A) tiny n kl ku pds M h,
  let r := ReqPeriodic n kl ku pds in
  tiny zero = true -> admissible r -> fits zero r M -> lists_elements zero n M h ->
  exists m m', make zero r = Ok m /\ set_all A tiny m h = Ok m' /\
    forall i j, 0 <= i < n -> 0 <= j < n -> get A zero m' i j = Ok (M i j).
Proof. intros A zero tiny n kl ku pds M h. exact (factory_stores zero tiny (ReqPeriodic n kl ku pds) M h). Qed.
Print Assumptions C05_periodic_store.

Theorem C05_periodic_solve :
  forall lapack lapackT n kl ku pds M h m m',
  let r := ReqPeriodic n kl ku pds in
  lapack_correct lapack lapackT ->
  admissible r -> fits 0%R r M -> lists_elements 0%R n M h ->
  solvable r M ->
  make 0%R r = Ok m -> set_all R tinyR m h = Ok m' ->
  forall swap b,
    (exists x, msolve lapack m' swap b = Ok x /\ is_solution (Z.to_nat n) (natmat M) x b) /\
    (exists x, msolveT lapack lapackT m' swap b = Ok x /\
               is_solution (Z.to_nat n) (transp (natmat M)) x b).
Proof.
  intros lapack lapackT n kl ku pds M h m m' r H1 H2 H3 H4 H6 H7 H8 swap b.
  exact (factory_solves_regular lapack lapackT r M h m m' H1 H2 H3 H4 I H6 H7 H8 swap b).
Qed.
Print Assumptions C05_periodic_solve.

Example C05_example :
  lapack_correct exact_lapack exact_lapackT /\
  let r := ReqPeriodic 8 1 1 false in
  admissible r /\ fits 0%R r ex_M /\ lists_elements 0%R 8 ex_M (all_writes 8 ex_M) /\
  solvable r ex_M /\
  exists m, make 0%R r = Ok m /\ shape_of m = SPeriodic 8 1 1 (SBanded 7 1 1).
Proof.
  split; [exact exact_lapack_correct|]. cbv zeta. split; [cbn; lia|].
  split; [exact ex_fits|]. split; [exact (all_writes_lists 8 ex_M)|]. split; [exact ex_solvable|].
  eexists; split; reflexivity.
Qed.

(** ** C06: banded region in the middle *)
(** The centre solve solves the permuted system for any solver of the corner ordering. *)
Theorem C06_centre_solve :
  forall q top bot (Mc : mat) s swap b,
  (top <= q)%nat -> solves (top + q + bot) Mc s ->
  exists x, centre_solve (top + q + bot) q top s swap b = Ok x /\
    forall i, (i < top + q + bot)%nat ->
      mulv (top + q + bot) (fun i j => Mc (to_corner q top i) (to_corner q top j)) x i = b i.
Proof. exact centre_solve_correct. Qed.
Print Assumptions C06_centre_solve.

(** Finding: when the first block is larger than the banded region, solve_inplace calls
    memcpy on overlapping ranges, for every right-hand side. *)
Theorem C06_large_first_block_refuted :
  forall lapack lapackT n kl ku b1 b2 M h m m',
  let r := ReqBlock n kl ku false b1 b2 in
  admissible r -> 0 < b2 -> 2 * kl + 1 + ku < n - b1 - b2 < b1 ->
  fits 0%R r M -> lists_elements 0%R n M h ->
  make 0%R r = Ok m -> set_all R tinyR m h = Ok m' ->
  forall swap b, msolve lapack m' swap b = Ub /\ msolveT lapack lapackT m' swap b = Ub.
Proof. exact centre_overlap_reached. Qed.
Print Assumptions C06_large_first_block_refuted.

Example C06_large_first_block_example :
  let r := ReqBlock 6 0 0 false 3 1 in
  admissible r /\ 2 * 0 + 1 + 0 < 6 - 3 - 1 < 3 /\ fits 0%R r ex_D /\
  lists_elements 0%R 6 ex_D (all_writes 6 ex_D) /\ solvable r ex_D /\
  exists m, make 0%R r = Ok m.
Proof.
  cbv zeta. split; [cbn; lia|]. split; [lia|]. split; [exact ex_D_fits|].
  split; [exact (all_writes_lists 6 ex_D)|]. split; [exact ex_D_solvable|]. eexists; reflexivity.
Qed.

(** Finding: with several right-hand sides the scratch array (one column long) overflows. *)
Theorem C06_centre_solve_multiple_refuted :
  forall n e0 e1 q top s swap bx, (0 < q)%nat -> (2 <= e1)%nat ->
  centre_solve_multiple n e0 e1 q top s swap bx = Ub.
Proof. exact centre_multiple_overflow. Qed.
Print Assumptions C06_centre_solve_multiple_refuted.

(** Finding: matrix.hpp documents block1_size as the size of the top-left dense block A;
    with the default block2_size = 0 the banded region is stored top-left instead, so an
    element of the first row (inside the dense blocks A, B) is rejected. *)
Theorem C06_block1_position_refuted :
  forall (A : Type) (zero : A) tiny n kl ku b1 x m,
  0 <= kl -> 0 <= ku -> 0 < b1 -> 2 * kl + 1 + ku < n - b1 -> tiny x = false ->
  make zero (ReqBlock n kl ku false b1 0) = Ok m ->
  set A tiny m 0 (ku + 1) x = AssertFail.
Proof. exact @block_position_rejected. Qed.
Print Assumptions C06_block1_position_refuted.
Example C06_block1_position_example :
  exists m, make 0 (ReqBlock 8 1 1 false 2 0) = Ok m /\ set Z (Z.eqb 0) m 0 2 1 = AssertFail.
Proof. eexists; split; reflexivity. Qed.
