(** Vocabulary of the batched-matrix properties C07, C08, C41, C42: the matrices that
    the storage formats denote. *)
From Verif Require Import Lib BatchModel.
Open Scope R_scope.

(** the tridiagonal matrix of coefficients a (below), d, c (above) *)
Definition tridiag (a d c : vec) : mat := fun i j =>
  if Nat.eqb j i then d i
  else if Nat.eqb (S j) i then a i
  else if Nat.eqb j (S i) then c i else 0.

(** elimination pivots: pivot i is the ratio of the i-th and (i-1)-th leading minors *)
Fixpoint pivot (a d c : vec) (i : nat) : R :=
  match i with
  | O => d 0%nat
  | S j => d i - a i * (c j / pivot a d c j)
  end.

(** the matrix given by (row, column, value) triplets (duplicates add up), and the one
    denoted by a CSR structure for item b *)
Definition coo_matrix (nnz : nat) (row col : nat -> nat) (vals : nat -> R) : mat :=
  fun i j => Rsum nnz (fun k => if (Nat.eqb (row k) i && Nat.eqb (col k) j)%bool then vals k else 0).
Definition csr_matrix (m : csr) (b : nat) : mat :=
  fun i j => Rsum (row_ptr m (i + 1) - row_ptr m i)
    (fun t => if Nat.eqb (col_idx m (row_ptr m i + t)%nat) j
              then values m b (row_ptr m i + t)%nat else 0).

(** the row of item b denoted by the structure: element in column j *)
Definition row_elem (r : srow) (b j : nat) : R :=
  fold_right (fun p acc => (if Nat.eqb (fst p) j then snd p else 0) + acc) 0
    (combine (scols r) (nth b (svals r) [])).
Definition batch_ok (batch : nat) (m : list srow) : Prop :=
  Forall (fun r => length (svals r) = batch /\ Forall (fun v => length v = length (scols r)) (svals r)) m.

