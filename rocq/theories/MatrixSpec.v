(** Specification vocabulary for the matrix storage properties: what the user is told
    about each kind of matrix (README of src/matrix_tools), with no reference to how
    elements are laid out in memory. *)
From Verif Require Import Lib MatrixModel.
Open Scope Z_scope.

(** Kinds of matrices a user can ask for. *)
Inductive shape : Type :=
| SDense (n : Z)
| SBanded (n kl ku : Z)
| SPds (n : Z)
| SCorner (n k : Z) (q : shape)             (* block Q is the (n-k)x(n-k) top-left block *)
| SPeriodic (n kl ku : Z) (q : shape)
| SCentre (n top bottom : Z) (q : shape).   (* block Q is in the middle *)

Definition order (s : shape) : Z :=
  match s with
  | SDense n => n | SBanded n _ _ => n | SPds n => n
  | SCorner n _ _ => n | SPeriodic n _ _ _ => n | SCentre n _ _ _ => n
  end.

(** (i,j) lies at most kl below and ku above the diagonal. *)
Definition band (kl ku i j : Z) : bool := ((i - j <=? kl) && (j - i <=? ku))%bool.

(** cyclic version: the diagonal wraps around modulo n *)
Definition cyclic_band (n kl ku i j : Z) : bool :=
  (((i - j) mod n <=? kl) || ((j - i) mod n <=? ku))%bool.

Definition within (n i : Z) : bool := ((0 <=? i) && (i <? n))%bool.

(** Positions that can hold a non-zero element. *)
Fixpoint stored (s : shape) (i j : Z) : bool :=
  match s with
  | SDense n => true
  | SBanded n kl ku => band kl ku i j
  | SPds n => band 1 1 i j
  | SCorner n k q => if within (n - k) i && within (n - k) j then stored q i j else true
  | SPeriodic n kl ku q =>
      let nb := n - Z.max kl ku in
      if within nb i && within nb j then stored q i j
      else if (nb <=? i) && (j <? nb) then cyclic_band n kl ku i j else true
  | SCentre n top bottom q =>
      if within (n - top - bottom) (i - top) && within (n - top - bottom) (j - top)
      then stored q (i - top) (j - top) else true
  end%bool.

(** Positions that denote the same element: only itself, except in a symmetric
    tridiagonal matrix, where (i,j) and (j,i) are one element. *)
Definition same_pos (i j i' j' : Z) : bool := ((i =? i') && (j =? j'))%bool.
Fixpoint alias (s : shape) (i j i' j' : Z) : bool :=
  match s with
  | SDense _ | SBanded _ _ _ => same_pos i j i' j'
  | SPds _ => same_pos i j i' j' || same_pos i j j' i'
  | SCorner n k q =>
      if within (n - k) i && within (n - k) j && within (n - k) i' && within (n - k) j'
      then alias q i j i' j' else same_pos i j i' j'
  | SPeriodic n kl ku q =>
      let nb := n - Z.max kl ku in
      if within nb i && within nb j && within nb i' && within nb j'
      then alias q i j i' j' else same_pos i j i' j'
  | SCentre n top bottom q =>
      let nb := n - top - bottom in
      if within nb (i - top) && within nb (j - top) && within nb (i' - top) && within nb (j' - top)
      then alias q (i - top) (j - top) (i' - top) (j' - top) else same_pos i j i' j'
  end%bool.

(** Last value written to the element (i,j) by a history, [d] if never written. *)
Definition last_write {A} (s : shape) (h : list (Z * Z * A)) (i j : Z) (d : A) : A :=
  fold_left (fun acc w => match w with (i', j', x) => if alias s i' j' i j then x else acc end) h d.

(** The kind of a matrix object. *)
Fixpoint shape_of {A} (m : matrix A) : shape :=
  match m with
  | Dense _ n _ => SDense n
  | Banded _ n kl ku _ => SBanded n kl ku
  | Pds _ n _ _ => SPds n
  | Corner _ n k _ _ _ _ q _ => SCorner n k (shape_of q)
  | Periodic _ n kl ku _ _ q _ => SPeriodic n kl ku (shape_of q)
  | Centre _ n top bottom _ _ q _ => SCentre n top bottom (shape_of q)
  end.

(** A legal set_element call: in range, and either on a position that can be non-zero
    or with a negligible value. *)
Definition legal_write {A} (tiny : A -> bool) (s : shape) (w : Z * Z * A) : Prop :=
  match w with (i, j, x) =>
    0 <= i < order s /\ 0 <= j < order s /\ (stored s i j = true \/ tiny x = true)
  end.

(** A history that writes elements of the n x n matrix M, and all its non-zero ones. *)
Definition lists_elements {A} (zero : A) (n : Z) (M : Z -> Z -> A) (h : list (Z * Z * A)) : Prop :=
  (forall i j x, In (i, j, x) h -> 0 <= i < n /\ 0 <= j < n /\ x = M i j) /\
  (forall i j, 0 <= i < n -> 0 <= j < n -> M i j = zero \/ In (i, j, M i j) h).

(** ** Requests to the three factories of class Matrix *)
Inductive request : Type :=
| ReqBanded (n kl ku : Z) (pds : bool)
| ReqPeriodic (n kl ku : Z) (pds : bool)
| ReqBlock (n kl ku : Z) (pds : bool) (b1 b2 : Z).

Definition req_n (r : request) : Z :=
  match r with ReqBanded n _ _ _ => n | ReqPeriodic n _ _ _ => n | ReqBlock n _ _ _ _ _ => n end.
Definition req_pds (r : request) : bool :=
  match r with ReqBanded _ _ _ p => p | ReqPeriodic _ _ _ p => p | ReqBlock _ _ _ p _ _ => p end.

Definition make {A} (zero : A) (r : request) : res (matrix A) :=
  match r with
  | ReqBanded n kl ku pds => make_new_banded A zero n kl ku pds
  | ReqPeriodic n kl ku pds => make_new_periodic_banded A zero n kl ku pds
  | ReqBlock n kl ku pds b1 b2 => make_new_block_with_banded_region A zero n kl ku pds b1 b2
  end.

(** Arguments the factories accept. *)
Definition admissible (r : request) : Prop :=
  match r with
  | ReqBanded n kl ku _ => 0 < n /\ 0 <= kl /\ 0 <= ku
  | ReqPeriodic n kl ku pds =>
      0 < n /\ 0 <= kl <= n /\ 0 <= ku <= n /\ 0 < Z.max kl ku /\ (pds = true -> 1 < n)
  | ReqBlock n kl ku _ b1 b2 => 0 <= kl /\ 0 <= ku /\ 0 <= b1 /\ 0 <= b2 /\ 0 < b1 + b2 < n
  end.

(** First row of the banded region of a block request (see C06: with b2 = 0 the code
    places the banded region first, not after the block of size b1). *)
Definition band_start (b1 b2 : Z) : Z := if b2 =? 0 then 0 else b1.

(** M has the sparsity announced by the request, and is symmetric if so announced. *)
Definition fits {A} (zero : A) (r : request) (M : Z -> Z -> A) : Prop :=
  (req_pds r = true -> forall i j, M i j = M j i) /\
  match r with
  | ReqBanded n kl ku _ => forall i j, band kl ku i j = false -> M i j = zero
  | ReqPeriodic n kl ku _ => forall i j, cyclic_band n kl ku i j = false -> M i j = zero
  | ReqBlock n kl ku _ b1 b2 =>
      let o := band_start b1 b2 in
      let e := o + (n - b1 - b2) in
      forall i j, o <= i < e -> o <= j < e -> band kl ku i j = false -> M i j = zero
  end.

(** Matrix M as a function of natural indices, and the linear system M x = b. *)
Definition natmat (M : Z -> Z -> R) : mat := fun i j => M (Z.of_nat i) (Z.of_nat j).
Definition is_solution (n : nat) (M : mat) (x b : vec) : Prop :=
  forall i, (i < n)%nat -> Rsum n (fun j => M i j * x j)%R = b i.

(** A block request with a single dense block, or for which the first block is not
    larger than the banded region (otherwise Matrix_Centre_Block's memcpy overlap: see C06). *)
Definition no_overlap (r : request) : Prop :=
  match r with ReqBlock n _ _ _ b1 b2 => b2 = 0 \/ b1 <= n - b1 - b2 | _ => True end.

(** Non-singular and positive definite matrices. *)
Definition regular (n : nat) (M : mat) : Prop :=
  forall x : vec, is_solution n M x (fun _ => 0%R) -> forall i, (i < n)%nat -> x i = 0%R.
Definition posdef (n : nat) (M : mat) : Prop :=
  forall x : vec, (exists i, (i < n)%nat /\ x i <> 0%R) ->
    (0 < Rsum n (fun i => Rsum n (fun j => x i * M i j * x j)))%R.

(** The diagonal block that the matrix classes factorise on its own. *)
Definition region_start (r : request) : Z :=
  match r with ReqBlock _ _ _ _ b1 b2 => band_start b1 b2 | _ => 0 end.
Definition region_size (r : request) : Z :=
  match r with
  | ReqBanded n _ _ _ => n
  | ReqPeriodic n kl ku _ => n - Z.max kl ku
  | ReqBlock n _ _ _ b1 b2 => n - b1 - b2
  end.

(** What a user must guarantee: positive definite if announced so, otherwise regular
    with a regular banded region. *)
Definition solvable (r : request) (M : Z -> Z -> R) : Prop :=
  if req_pds r then posdef (Z.to_nat (req_n r)) (natmat M)
  else regular (Z.to_nat (req_n r)) (natmat M) /\
       regular (Z.to_nat (region_size r))
         (natmat (fun i j => M (region_start r + i) (region_start r + j))).
