(** Model of src/matrix_tools/matrix_utils.hpp and of the solve methods of matrix_batch_ell.hpp and
    matrix_batch_csr.hpp: batched iterative solves with Ginkgo.

    Simplifications: exact real arithmetic for matrices, vectors and norms, but the residual norms that
    Ginkgo reports and tolerances are doubles (NaN, infinities, finite numbers).  The iterations of
    Ginkgo's solvers (not in /repo) are an oracle.  The memory is a partial map from addresses (in units
    of a double) to values; the right-hand sides and the unknowns live in distinct memories.  The log file
    is the list of its lines. *)
From Coq Require Import Permutation.
From Verif Require Export Lib.
Open Scope nat_scope.

(** ** Doubles *)
Inductive dbl := NaN | MInf | Fin (r : R) | PInf.
(** a <= b on doubles *)
Definition dle (a b : dbl) : bool :=
  match a, b with
  | NaN, _ | _, NaN => false
  | MInf, _ | _, PInf => true
  | Fin x, Fin y => if Rle_dec x y then true else false
  | _, _ => false
  end.

(** ** Memory and Kokkos views *)
Definition memory := Z -> option R.
Definition load (m : memory) (a : Z) : res R := match m a with Some r => Ok r | None => Ub end.
Definition store (m : memory) (a : Z) (r : R) : res memory :=
  match m a with
  | Some _ => Ok (fun a' => if Z.eqb a' a then Some r else m a')
  | None => Ub
  end.
(** Kokkos::View<double**>: data pointer, extents, strides *)
Record kview := KView { kv_data : Z; kv_e0 : nat; kv_e1 : nat; kv_s0 : nat; kv_s1 : nat }.
Definition kv_addr (v : kview) (i j : nat) : Z :=
  (kv_data v + Z.of_nat i * Z.of_nat (kv_s0 v) + Z.of_nat j * Z.of_nat (kv_s1 v))%Z.
(** View::span(): the number of elements between the first one and the end of the last padded row *)
Definition kv_span (v : kview) : nat :=
  if (kv_e0 v =? 0) || (kv_e1 v =? 0) then 0 else Nat.max (kv_e0 v * kv_s0 v) (kv_e1 v * kv_s1 v).

(** reading / writing the elements (i, j), i < n0, j < n1, found at the addresses [addr] *)
Definition pairs (n0 n1 : nat) : list (nat * nat) := list_prod (seq 0 n0) (seq 0 n1).
Fixpoint load_all (m : memory) (addr : nat -> nat -> Z) (l : list (nat * nat)) : res (nat -> nat -> R) :=
  match l with
  | [] => Ok (fun _ _ => 0%R)
  | (i, j) :: l' =>
      let* r := load m (addr i j) in
      let* f := load_all m addr l' in
      Ok (fun i' j' => if (i' =? i) && (j' =? j) then r else f i' j')
  end.
Fixpoint store_all (m : memory) (addr : nat -> nat -> Z) (l : list (nat * nat)) (f : nat -> nat -> R)
  : res memory :=
  match l with
  | [] => Ok m
  | (i, j) :: l' => let* m' := store m (addr i j) (f i j) in store_all m' addr l' f
  end.

(** ** matrix_utils.hpp *)
(** gko::batch::MultiVector with one column per item: item k starts k * rows after the first element *)
Record multivector := MVec { mv_data : Z; mv_items : nat; mv_rows : nat }.
Definition mv_addr (x : multivector) (k r : nat) : Z :=
  (mv_data x + Z.of_nat k * Z.of_nat (mv_rows x) + Z.of_nat r)%Z.

(** 14-28: to_gko_multivector; MultiVector::create throws when the array is too small for the items *)
Definition to_gko_multivector (v : kview) : res multivector :=
  let* _ := check (kv_s1 v =? 1) in
  if kv_span v <? kv_e0 v * kv_e1 v then Throw
  else Ok (MVec (kv_data v) (kv_e0 v) (kv_e1 v)).

(** 38-57: check_conv.  parallel_reduce with LAnd: the indices are distributed over chunks, each chunk
    starts from true, the results are joined *)
Fixpoint reduce_chunk (tol : dbl) (resid : list dbl) (chunk : list nat) (check_tol : bool) : res bool :=
  match chunk with
  | [] => Ok check_tol
  | b :: r =>
      let* x := rd resid (Z.of_nat b) in
      reduce_chunk tol resid r (check_tol && dle x tol)
  end.
Fixpoint reduce_join (tol : dbl) (resid : list dbl) (chunks : list (list nat)) : res bool :=
  match chunks with
  | [] => Ok true
  | c :: r =>
      let* b := reduce_chunk tol resid c true in
      let* b' := reduce_join tol resid r in
      Ok (b && b')
  end.
Definition check_conv (chunks : list (list nat)) (tol : dbl) (resid : list dbl) : res unit :=
  let* has_converged := reduce_join tol resid chunks in
  if negb has_converged then Throw else Ok tt.

(** 70-88: write_log *)
Inductive line :=
  | LSystem (i : nat) | LIterations (n : Z) | LImplicit (r : dbl) | LTrue (r : dbl) | LRhs (r : dbl)
  | LNotConverged (i : nat) | LRule.
Definition write_log (batch_index : nat) (num_iterations : Z) (implicit_res_norm true_res_norm b_norm tol : dbl)
  : list line :=
  [LSystem batch_index; LIterations num_iterations; LImplicit implicit_res_norm; LTrue true_res_norm;
   LRhs b_norm] ++
  (if negb (dle true_res_norm tol) then [LNotConverged batch_index] else []) ++
  [LRule].

(** a matrix and a vector of [n] rows; Ginkgo's apply(alpha, x, beta, y) = alpha A x + beta y and
    compute_norm2 *)
Definition matrix := nat -> nat -> R.
Definition vector := nat -> R.
Definition apply4 (n : nat) (alpha : R) (A : matrix) (x : vector) (beta : R) (y : vector) : vector :=
  fun r => (alpha * Rsum n (fun c => A r c * x c) + beta * y r)%R.
Definition compute_norm2 (n : nat) (x : vector) : R := sqrt (Rsum n (fun r => x r * x r)%R).

(** 100-161: save_logger for one system *)
Definition save_logger_single (n batch_index : nat) (A : matrix) (x b : vector) (iters : Z) (resid tol : dbl)
  : list line :=
  let res := b in
  let b_norm := compute_norm2 n b in
  let res := apply4 n 1 A x (-1) res in
  let res_norm := compute_norm2 n res in
  write_log batch_index iters resid (Fin res_norm) (Fin b_norm) tol.

(** 172-228: save_logger for the batch; the multivectors are re-created from the views *)
Fixpoint save_loop (n : nat) (A : nat -> matrix) (xs bs : nat -> vector) (iters : list Z) (resid : list dbl)
  (tol : dbl) (l : list nat) : res (list line) :=
  match l with
  | [] => Ok []
  | i :: r =>
      let* it := rd iters (Z.of_nat i) in
      let* rn := rd resid (Z.of_nat i) in
      let entry := write_log i it rn
                     (Fin (compute_norm2 n (apply4 n 1 (A i) (xs i) (-1) (bs i))))
                     (Fin (compute_norm2 n (bs i))) tol in
      let* rest := save_loop n A xs bs iters resid tol r in
      Ok (entry ++ rest)
  end.
Definition save_logger (A : nat -> matrix) (x_view b_view : kview) (mx mb : memory) (iters : list Z)
  (resid : list dbl) (tol : dbl) : res (list line) :=
  let batch_size := kv_e0 x_view in
  let* x := to_gko_multivector x_view in
  let* b := to_gko_multivector b_view in
  let* xs := load_all mx (mv_addr x) (pairs (mv_items x) (mv_rows x)) in
  let* bs := load_all mb (mv_addr b) (pairs (mv_items b) (mv_rows b)) in
  save_loop (kv_e1 b_view) A xs bs iters resid tol (seq 0 batch_size).

(** ** Ginkgo's solvers: for a system (by its number), a right-hand side and an initial guess, the last
    iterate, the number of iterations, the residual norm that the logger reports and whether the logger
    says that the stopping criterion on the residual was met *)
Record answer := Answer { an_x : vector; an_iters : Z; an_resid : dbl; an_converged : bool }.
Definition solver := nat -> vector -> vector -> answer.

(** what a call leaves: outcome, memory of the unknowns, lines appended to the log file *)
Record run := Run { r_out : res unit; r_mem : memory; r_log : list line }.

(** Kokkos::deep_copy between views: throws when the extents differ *)
Definition same_extents (v w : kview) : bool := (kv_e0 v =? kv_e0 w) && (kv_e1 v =? kv_e1 w).
Definition deep_copy (mw : memory) (w : kview) (mv : memory) (v : kview) : res memory :=
  if same_extents w v
  then let* f := load_all mv (kv_addr v) (pairs (kv_e0 v) (kv_e1 v)) in
       store_all mw (kv_addr w) (pairs (kv_e0 w) (kv_e1 w)) f
  else Throw.

(** BatchedRHS x_view("x_view", batch_size, size): a fresh allocation (LayoutRight, no padding), zero *)
Definition fresh_view (batch n : nat) : kview := KView 0 batch n n 1.
Definition fresh_memory (batch n : nat) : memory :=
  fun a => if ((0 <=? a)%Z && (a <? Z.of_nat (batch * n))%Z)%bool then Some 0%R else None.

Section solve.
  (** the solver built by setup_solver, the matrices, the sizes given to the constructor, the tolerance,
      the logger option, and how the indices of check_conv are distributed *)
  Variables (slv : solver) (A : nat -> matrix) (batch n : nat) (tol : dbl) (with_logger : bool).
  Variable chunks : list (list nat).

  Definition fail (o : res unit) (m : memory) (lg : list line) : run := Run o m lg.
  Definition bindr {T} (x : res T) (m : memory) (lg : list line) (k : T -> run) : run :=
    match x with
    | Ok y => k y
    | Throw => fail Throw m lg
    | AssertFail => fail AssertFail m lg
    | Ub => fail Ub m lg
    end.

  (** m_solver->apply(b, x): batch solver, all the systems; writes the items of x *)
  Definition apply_batch (mx mb : memory) (x b : multivector) : res (memory * list Z * list dbl) :=
    if (mv_items x =? batch) && (mv_items b =? batch) && (mv_rows x =? n) && (mv_rows b =? n)
    then let* x0 := load_all mx (mv_addr x) (pairs batch n) in
         let* bs := load_all mb (mv_addr b) (pairs batch n) in
         let ans k := slv k (bs k) (x0 k) in
         let* mx' := store_all mx (mv_addr x) (pairs batch n) (fun k r => an_x (ans k) r) in
         Ok (mx', map (fun k => an_iters (ans k)) (seq 0 batch), map (fun k => an_resid (ans k)) (seq 0 batch))
    else Throw.

  (** matrix_batch_ell.hpp 197-221: solve(b).  [mb] is the memory of b *)
  Definition ell_solve (b : kview) (mb : memory) : run :=
    let x_view := fresh_view batch n in
    bindr (deep_copy (fresh_memory batch n) x_view mb b) mb [] (fun mx =>
    bindr (to_gko_multivector b) mb [] (fun gb =>
    bindr (to_gko_multivector x_view) mb [] (fun gx =>
    bindr (apply_batch mx mb gx gb) mb [] (fun r =>
    let '(mx, iters, resid) := r in
    bindr (if with_logger then save_logger A x_view b mx mb iters resid tol else Ok []) mb [] (fun lg =>
    bindr (check_conv chunks tol resid) mb lg (fun _ =>
    bindr (deep_copy mb b mx x_view) mb lg (fun mb' =>
    Run (Ok tt) mb' lg))))))).

  (** matrix_batch_csr.hpp 296-315: solve(x, b) with a batch solver *)
  Definition csr_solve_batch (x : kview) (mx : memory) (b : kview) (mb : memory) : run :=
    bindr (to_gko_multivector b) mx [] (fun gb =>
    bindr (to_gko_multivector x) mx [] (fun gx =>
    bindr (apply_batch mx mb gx gb) mx [] (fun r =>
    let '(mx', iters, resid) := r in
    bindr (if with_logger then save_logger A x b mx' mb iters resid tol else Ok []) mx' [] (fun lg =>
    bindr (check_conv chunks tol resid) mx' lg (fun _ => Run (Ok tt) mx' lg))))).

  (** matrix_batch_csr.hpp 264-295: solve(x, b) with one solver per system; [solvers]: the vector m_solver;
      the residual norm that is logged is the logger's *)
  Fixpoint csr_solve_loop (solvers : list solver) (x : kview) (b : kview) (mb : memory)
    (l : list nat) (mx : memory) (lg : list line) : run :=
    match l with
    | [] => Run (Ok tt) mx lg
    | i :: l' =>
        bindr (rd solvers (Z.of_nat i)) mx lg (fun s =>
        bindr (to_gko_multivector b) mx lg (fun gb =>
        bindr (to_gko_multivector x) mx lg (fun gx =>
        bindr (if (i <? mv_items gb) && (i <? mv_items gx) && (mv_rows gb =? n) && (mv_rows gx =? n)
               then Ok tt else Throw) mx lg (fun _ =>
        bindr (load_all mb (fun _ r => mv_addr gb i r) (pairs 1 n)) mx lg (fun bs =>
        bindr (load_all mx (fun _ r => mv_addr gx i r) (pairs 1 n)) mx lg (fun x0 =>
        let ans := s i (bs 0) (x0 0) in
        bindr (store_all mx (fun _ r => mv_addr gx i r) (pairs 1 n) (fun _ r => an_x ans r)) mx lg (fun mx' =>
        bindr (if with_logger
               then let* xi := load_all mx' (fun _ r => kv_addr x i r) (pairs 1 n) in
                    let* bi := load_all mb (fun _ r => kv_addr b i r) (pairs 1 n) in
                    Ok (save_logger_single n i (A i) (xi 0) (bi 0) (an_iters ans) (an_resid ans) tol)
               else Ok []) mx' lg (fun entry =>
        if negb (an_converged ans) then fail Throw mx' (lg ++ entry)
        else csr_solve_loop solvers x b mb l' mx' (lg ++ entry)))))))))
    end.
  Definition csr_solve_single (solvers : list solver) (x : kview) (mx : memory) (b : kview) (mb : memory) : run :=
    csr_solve_loop solvers x b mb (seq 0 batch) mx [].

  (** matrix_batch_csr.hpp 247-253: solve(b) *)
  Definition csr_solve (solve2 : kview -> memory -> kview -> memory -> run) (b : kview) (mb : memory) : run :=
    let x_view := fresh_view batch n in
    bindr (deep_copy (fresh_memory batch n) x_view mb b) mb [] (fun mx =>
    let r := solve2 x_view mx b mb in
    match r_out r with
    | Ok _ => bindr (deep_copy mb b (r_mem r) x_view) mb (r_log r) (fun mb' => Run (Ok tt) mb' (r_log r))
    | o => Run o mb (r_log r)
    end).
End solve.
