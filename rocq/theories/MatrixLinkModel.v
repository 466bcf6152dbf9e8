(** End-to-end model of Matrix: storage (MatrixModel, element type R) + solvers
    (MatrixSolveModel).  What LAPACK returns for a given matrix is the oracle
    [lapack] / [lapackT] (trusted: see DESIGN.md). *)
From Verif Require Import Lib MatrixModel MatrixSpec MatrixSolveModel.
Open Scope R_scope.

Definition Rmatrix := matrix R.
Definition val (r : res R) : R := match r with Ok x => x | _ => 0 end.

(** fabs(x) < 1e-20 of the assertions (matrix_banded.cpp:55, matrix_pds_tridiag.cpp:47,
    matrix_periodic_banded.cpp:63) *)
Definition tinyR (x : R) : bool := if Rlt_dec (Rabs x) (1 / 10 ^ 20) then true else false.

Definition Rget := get R 0.
Definition Rset_all := set_all R tinyR.

(** all the elements readable through get_element *)
Definition elems (m : Rmatrix) : mat := fun i j => val (Rget m (Z.of_nat i) (Z.of_nat j)).

(** the members of a block matrix as 2-D views (matrix_corner_block.hpp) *)
Definition blocks_of (n k : Z) (gamma lambda : list R) (l1 l2 : Z) (delta : list R) : blocks :=
  {| nb := Z.to_nat (n - k); kk := Z.to_nat k;
     gam := fun a b => val (rd2 R gamma k (n - k) (Z.of_nat a) (Z.of_nat b));
     lam := fun a b => val (rd2 R lambda l1 l2 (Z.of_nat a) (Z.of_nat b));
     del := fun i j => val (rd delta (Z.of_nat j * k + Z.of_nat i)%Z) |}.

(** Which LAPACK family a class calls: dgetrf/dgetrs (matrix_dense.cpp:33-53) and
    dgbtrf/dgbtrs (matrix_banded.cpp:59-103) are [General]; dpttrf/dpttrs
    (matrix_pds_tridiag.cpp:53-72) only treat positive definite symmetric matrices. *)
Inductive routine := General | PdsRoutine.
Definition routine_of (m : Rmatrix) : routine :=
  match m with Pds _ _ _ _ => PdsRoutine | _ => General end.

Section Solve.
Variable lapack lapackT : routine -> nat -> mat -> vec -> vec.   (* size, matrix, right-hand side *)

Definition lap (m : Rmatrix) : vec -> vec :=
  lapack (routine_of m) (Z.to_nat (get_size R m)) (elems m).
Definition lapT (m : Rmatrix) : vec -> vec :=
  lapackT (routine_of m) (Z.to_nat (get_size R m)) (elems m).

Definition block_solve (kd : lambda_kind) (B : blocks) (q : Rmatrix) : vec -> vec :=
  corner_solve kd B (lap q) (lapack General (kk B) (delta_to_factorise kd B (lap q))).
Definition block_solveT (kd : lambda_kind) (B : blocks) (q : Rmatrix) : vec -> vec :=
  corner_solve_transpose kd B (lap q) (lapT q) (lapackT General (kk B) (delta_to_factorise kd B (lap q))).

(** factorise() then solve_inplace(bx): matrix.cpp:21-31 for the LAPACK classes,
    matrix_corner_block.cpp:160-196, matrix_centre_block.cpp:96-102.
    [swap] is the initial content of the scratch array of Matrix_Centre_Block. *)
Definition msolve (m : Rmatrix) (swap bx : vec) : res vec :=
  match m with
  | Dense _ n _ | Banded _ n _ _ _ | Pds _ n _ _ => Ok (on_view 0 (Z.to_nat n) (lap m) bx)
  | Corner _ n k g l l1 l2 q d =>
      Ok (block_solve FullLambda (blocks_of n k g l l1 l2 d) q bx)
  | Periodic _ n kl ku g l q d =>
      let k := Z.max kl ku in
      Ok (block_solve PeriodicLambda (blocks_of n k g l (k + 1) k d) q bx)
  | Centre _ n top bot g l q d =>
      let k := (top + bot)%Z in
      centre_solve (Z.to_nat n) (Z.to_nat (n - k)) (Z.to_nat top)
        (block_solve FullLambda (blocks_of n k g l (n - k) k d) q) swap bx
  end.

(** factorise() then solve_transpose_inplace(bx): matrix.cpp:33-42,
    matrix_corner_block.cpp:198-232, matrix_centre_block.cpp:104-110 *)
Definition msolveT (m : Rmatrix) (swap bx : vec) : res vec :=
  match m with
  | Dense _ n _ | Banded _ n _ _ _ | Pds _ n _ _ => Ok (on_view 0 (Z.to_nat n) (lapT m) bx)
  | Corner _ n k g l l1 l2 q d =>
      Ok (block_solveT FullLambda (blocks_of n k g l l1 l2 d) q bx)
  | Periodic _ n kl ku g l q d =>
      let k := Z.max kl ku in
      Ok (block_solveT PeriodicLambda (blocks_of n k g l (k + 1) k d) q bx)
  | Centre _ n top bot g l q d =>
      let k := (top + bot)%Z in
      centre_solve (Z.to_nat n) (Z.to_nat (n - k)) (Z.to_nat top)
        (block_solveT FullLambda (blocks_of n k g l (n - k) k d) q) swap bx
  end.

End Solve.

(** The oracle hypothesis: LAPACK's general routines solve every non-singular system,
    its tridiagonal routines every symmetric positive definite one. *)
Definition lapack_correct (lapack lapackT : routine -> nat -> mat -> vec -> vec) : Prop :=
  (forall n M, regular n M ->
     (forall b, is_solution n M (lapack General n M b) b) /\
     (forall b, is_solution n (transp M) (lapackT General n M b) b)) /\
  (forall n M, (forall i j, (i < n)%nat -> (j < n)%nat -> M i j = M j i) -> posdef n M ->
     (forall b, is_solution n M (lapack PdsRoutine n M b) b) /\
     (forall b, is_solution n (transp M) (lapackT PdsRoutine n M b) b)).

