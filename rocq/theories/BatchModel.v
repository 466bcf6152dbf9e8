(** Model of the batched matrix classes: src/matrix_tools/matrix_batch_tridiag.hpp,
    matrix_batch_csr.hpp (COO conversion, column sorting), matrix_batch_ell.hpp
    (addressing, norm).  Exact reals; the iterative Ginkgo solvers are not modelled. *)
From Verif Require Import Lib.
Open Scope R_scope.

(** ** MatrixBatchTridiag *)
(** Forward step of one batch entry, matrix_batch_tridiag.hpp:167-180:
    cprim(0), dprim(0), then the loop i = 1 .. n-1. *)
Definition thomas_forward (n : nat) (a d c b : vec) : vec * vec :=
  let cp := upd (fun _ => 0) 0 (c 0%nat / d 0%nat) in
  let dp := upd (fun _ => 0) 0 (b 0%nat / d 0%nat) in
  for_loop (n - 1) (fun t s =>
    let i := S t in
    let '(cp, dp) := s in
    let cp' := upd cp i (c i / (d i - a i * cp (i - 1)%nat)) in
    (cp', upd dp i ((b i - a i * dp (i - 1)%nat) / (d i - a i * cp' (i - 1)%nat))))
    (cp, dp).

(** Backward step, matrix_batch_tridiag.hpp:181-186 *)
Definition thomas_backward (n : nat) (cp dp b : vec) : vec :=
  let b := upd b (n - 1) (dp (n - 1)%nat) in
  for_loop (n - 1) (fun t b =>
    let i := (n - 2 - t)%nat in
    upd b i (dp i - cp i * b (i + 1)%nat)) b.

(** One iteration of the parallel_for; n = 0 reads element 0 of an empty array. *)
Definition thomas (n : nat) (a d c b : vec) : res vec :=
  match n with
  | O => Ub
  | _ => let '(cp, dp) := thomas_forward n a d c b in Ok (thomas_backward n cp dp b)
  end.

(** MatrixBatchTridiag::solve, matrix_batch_tridiag.hpp:138-188.  The iterations of the
    parallel_for touch only row batch_idx of b, cprim and dprim: run in order here. *)
Definition tridiag_solve (batch n : nat) (a d c : nat -> vec) (b : nat -> vec) : res (nat -> vec) :=
  for_loop batch (fun k r =>
    let* b := r in
    let* bk := thomas n (a k) (d k) (c k) (b k) in
    Ok (upd b k bk)) (Ok b).

(** MatrixBatchTridiag::check_stability, matrix_batch_tridiag.hpp:79-120 (the reductions
    are conjunctions over batch and row). *)
Definition Rleb (x y : R) : bool := if Rle_dec x y then true else false.
Definition Rltb (x y : R) : bool := if Rlt_dec x y then true else false.
Definition check_stability (batch n : nat) (a d c : nat -> vec) : bool :=
  let all (p : nat -> nat -> bool) :=
    for_loop batch (fun k acc => for_loop n (fun i acc => (acc && p k i)%bool) acc) true in
  (all (fun k i => Rleb (Rabs (a k i) + Rabs (c k i)) (Rabs (d k i)))
   || all (fun k i => Rltb (Rabs (a k i - c k i)) (1 / 10 ^ 16)))%bool.

(** ** convert_coo_to_csr, matrix_batch_csr.hpp:364-405 *)
(** A Kokkos view of known extent: out-of-range access is Ub. *)
Definition wr_in {A} (n : nat) (f : nat -> A) (i : nat) (x : A) : res (nat -> A) :=
  if Nat.ltb i n then Ok (upd f i x) else Ub.
Definition rd_in {A} (n : nat) (f : nat -> A) (i : nat) : res A :=
  if Nat.ltb i n then Ok (f i) else Ub.

Record csr := { row_ptr : nat -> nat; col_idx : nat -> nat; values : nat -> nat -> R }.

(** inner loop over k of one row, lines 388-395 (row_coo, col_coo are int: nat here since
    a negative row index matches no row and a column index is only copied) *)
Definition coo_row (nnz : nat) (row col : nat -> nat) (vals : nat -> R) (i start : nat)
  (s : (nat -> nat) * (nat -> R)) : res (nat * (nat -> nat) * (nat -> R)) :=
  for_loop nnz (fun k r =>
    let* (cnt, idx, v) := r in
    if Nat.eqb (row k) i then
      let* idx := wr_in nnz idx (start + cnt) (col k) in
      let* v := wr_in nnz v (start + cnt) (vals k) in
      Ok (S cnt, idx, v)
    else Ok (cnt, idx, v)) (Ok (0%nat, fst s, snd s)).

Definition convert_coo_to_csr (batch n len : nat) (vals : nat -> R) (row col : nat -> nat) : res csr :=
  let nnz := (len / batch)%nat in
  let rp := upd (upd (fun _ => 0%nat) 0 0%nat) n nnz in
  let* (rp, idx, v0) :=
    for_loop n (fun i r =>
      let* (rp, idx, v) := r in
      let* (cnt, idx, v) := coo_row nnz row col vals i (rp i) (idx, v) in
      let* rp := wr_in (n + 1) rp (i + 1) (rp i + cnt)%nat in
      Ok (rp, idx, v)) (Ok (rp, fun _ => 0%nat, fun _ => 0)) in
  (* lines 398-402: batches 1 .. batch-1 are copied in the input order *)
  let* vs :=
    for_loop (batch - 1) (fun t r =>
      let* vs := r in
      let b := S t in
      for_loop nnz (fun k r =>
        let* vs := r in
        let* x := rd_in len vals (b * nnz + k) in
        let* row := wr_in nnz (vs b) k x in
        Ok (upd vs b row)) (Ok vs)) (Ok (upd (fun _ _ => 0) 0 v0)) in
  Ok {| row_ptr := rp; col_idx := idx; values := vs |}.

(** MatrixBatchCsr::norm, matrix_batch_csr.hpp:323-353: the Max reduction starts from the
    identity of Kokkos::Max (any value below all row sums); rows give non-negative sums, so
    it is modelled by a running maximum from 0 (sizes n > 0). *)
Definition csr_norm (n : nat) (m : csr) (b : nat) : R :=
  for_loop n (fun i res =>
    let row_sum := for_loop (row_ptr m (i + 1) - row_ptr m i)
                     (fun t acc => acc + Rabs (values m b (row_ptr m i + t)%nat)) 0 in
    if Rlt_dec res row_sum then row_sum else res) 0.

(** ** Column sorting in MatrixBatchCsr::setup_solver, matrix_batch_csr.hpp:188-196.
    Ginkgo (trusted semantics): create_view_for_item(i) views the column indices shared by
    all items and the values of item i; sort_by_column_index sorts the (column, value)
    pairs of each row by column.  A row is a list of columns and, per item, of values. *)
Record srow := { scols : list nat; svals : list (list R) }.   (* svals: one list per item *)

Fixpoint insert (p : nat * R) (l : list (nat * R)) : list (nat * R) :=
  match l with
  | [] => [p]
  | q :: t => if Nat.leb (fst p) (fst q) then p :: l else q :: insert p t
  end.
Definition isort (l : list (nat * R)) : list (nat * R) := fold_right insert [] l.
Fixpoint sortedb (l : list nat) : bool :=
  match l with
  | a :: ((b :: _) as t) => (Nat.leb a b && sortedb t)%bool
  | _ => true
  end.

Definition sort_row (item : nat) (r : srow) : srow :=
  let ps := isort (combine (scols r) (nth item (svals r) [])) in
  {| scols := map fst ps; svals := replace_nth (svals r) item (map snd ps) |}.
Definition sort_item (m : list srow) (item : nat) : list srow :=
  if forallb (fun r => sortedb (scols r)) m then m else map (sort_row item) m.
Definition setup_sort (batch : nat) (m : list srow) : list srow :=
  for_loop batch (fun i m => sort_item m i) m.

(** ** MatrixBatchEll element access, matrix_batch_ell.hpp:143-168 *)
Open Scope Z_scope.
Definition ell_offset (n nnz b line col : Z) : Z := b * n * nnz + col * n + line.
Definition ell_get (n nnz : Z) (buf : list R) (b line col : Z) : res R :=
  let* _ := check ((0 <=? col) && (col <=? nnz)) in rd buf (ell_offset n nnz b line col).
Definition ell_set (n nnz : Z) (buf : list R) (b line col : Z) (x : R) : res (list R) :=
  let* _ := check ((0 <=? col) && (col <=? nnz)) in wr buf (ell_offset n nnz b line col) x.
(** offset of element (b, line, col) of the strided view of get_batch_ell (matrix_batch_ell.hpp:115-133):
    LayoutStride(batch, nnz*n, n, 1, nnz, n) *)
Definition ell_view_offset (n nnz b line col : Z) : Z := b * (nnz * n) + line * 1 + col * n.

(** MatrixBatchEll::norm, matrix_batch_ell.hpp:228-259, through the strided view; all
    offsets are in bounds for b < batch (lemma ell_in_bounds); same simplification of the
    Max reduction as [csr_norm]. *)
Definition ell_norm (n nnz : nat) (buf : list R) (b : Z) : R :=
  for_loop n (fun i res =>
    let row_sum := for_loop nnz (fun k acc => (acc +
       Rabs (nth (Z.to_nat (ell_view_offset (Z.of_nat n) (Z.of_nat nnz) b (Z.of_nat i) (Z.of_nat k))) buf 0))%R) 0%R in
    if Rlt_dec res row_sum then row_sum else res) 0%R.
