(** Specification vocabulary of the batched iterative solves (C112). *)
From Coq Require Import Permutation.
From Verif Require Export GkoModel.
Open Scope nat_scope.

(** comparison of doubles as IEEE 754 defines it: nothing is at most NaN, NaN is at most nothing *)
Definition at_most (a b : dbl) : Prop :=
  match a, b with
  | NaN, _ => False | _, NaN => False
  | MInf, _ => True | _, PInf => True
  | Fin x, Fin y => (x <= y)%R
  | PInf, _ => False | Fin _, MInf => False
  end.

(** a two-dimensional view of [batch] rows of [n] elements without padding *)
Definition contiguous (v : kview) (batch n : nat) : Prop :=
  kv_e0 v = batch /\ kv_e1 v = n /\ kv_s0 v = n /\ kv_s1 v = 1.
(** the elements of a view are [F] *)
Definition holds (m : memory) (v : kview) (F : nat -> nat -> R) : Prop :=
  forall i j, i < kv_e0 v -> j < kv_e1 v -> m (kv_addr v i j) = Some (F i j).
(** nothing but the elements of [v] differs *)
Definition unchanged_outside (v : kview) (m m' : memory) : Prop :=
  forall a, (forall i j, i < kv_e0 v -> j < kv_e1 v -> a <> kv_addr v i j) -> m' a = m a.

(** the indices 0, ..., batch - 1 are distributed over the chunks of the reduction *)
Definition distributes (chunks : list (list nat)) (batch : nat) : Prop :=
  Permutation (concat chunks) (seq 0 batch).

(** the solver looks only at the [n] rows of its arguments *)
Definition same_rows (n : nat) (x y : vector) : Prop := forall r, r < n -> x r = y r.
Definition same_answer (n : nat) (a a' : answer) : Prop :=
  same_rows n (an_x a) (an_x a') /\ an_iters a = an_iters a' /\ an_resid a = an_resid a' /\
  an_converged a = an_converged a'.
Definition reads_rows (n : nat) (slv : solver) : Prop :=
  forall k b b' x x', same_rows n b b' -> same_rows n x x' -> same_answer n (slv k b x) (slv k b' x').

(** the Euclidean norm and the residual || A x - b || *)
Definition norm (n : nat) (v : vector) : R := sqrt (Rsum n (fun r => v r ^ 2)%R).
Definition residual (n : nat) (A : matrix) (x b : vector) : R :=
  norm n (fun r => Rsum n (fun c => A r c * x c) - b r)%R.

(** the residual norm which the solver reports is the norm of the residual of its solution *)
Definition honest (n : nat) (A : nat -> matrix) (slv : solver) : Prop :=
  forall k b x, an_resid (slv k b x) = Fin (residual n (A k) (an_x (slv k b x)) b).
(** the solver stops as documented (reduction factor): converged iff || A x - b || <= t || b || *)
Definition reduction_factor (n : nat) (A : nat -> matrix) (t : R) (slv : solver) : Prop :=
  forall k b x, an_converged (slv k b x) = true <->
    (residual n (A k) (an_x (slv k b x)) b <= t * norm n b)%R.

(** one entry of the log file *)
Definition entry (n : nat) (A : nat -> matrix) (tol : dbl) (k : nat) (a : answer) (b : vector)
  (e : list line) : Prop :=
  exists warning,
    e = [LSystem k; LIterations (an_iters a); LImplicit (an_resid a);
         LTrue (Fin (residual n (A k) (an_x a) b)); LRhs (Fin (norm n b))] ++ warning ++ [LRule] /\
    ((at_most (Fin (residual n (A k) (an_x a) b)) tol /\ warning = []) \/
     (~ at_most (Fin (residual n (A k) (an_x a) b)) tol /\ warning = [LNotConverged k])).
(** the log holds one entry for each of the systems of [l], in this order *)
Definition logs (n : nat) (A : nat -> matrix) (tol : dbl) (ans : nat -> answer) (B : nat -> vector)
  (l : list nat) (lg : list line) : Prop :=
  exists es, lg = concat es /\ Forall2 (fun k e => entry n A tol k (ans k) (B k) e) l es.
