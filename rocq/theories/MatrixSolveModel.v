(** Model of the block solvers of src/matrix_tools (Corner, Periodic, Centre).
    Exact real arithmetic.  Vectors and 2-D views are functions of their indices
    (their in-bounds-ness is settled by MatrixModel/MatrixProofs).  LAPACK
    (factorise_method / solve_inplace_method of Dense, Banded, PDS_Tridiag:
    dgetrf/dgetrs, dgbtrf/dgbtrs, dpttrf/dpttrs) is an oracle: the parameters
    [qs], [qsT], [ds], [dsT] below. *)
From Verif Require Import Lib.
Open Scope R_scope.

(** Data of a block matrix before factorise(): matrix_corner_block.hpp members
    Abm_1_gamma (k x nb), lambda (nb x k, or (k+1) x k when periodic), delta (k x k). *)
Record blocks := { nb : nat; kk : nat; gam : mat; lam : mat; del : mat }.

(** q_block->solve_multiple_inplace(Abm_1_gamma) in factorise(),
    matrix_corner_block.cpp:105 (rows of the k x nb view are the right-hand sides). *)
Definition beta (B : blocks) (qs : vec -> vec) : mat := fun j => qs (gam B j).

(** calculate_delta_to_factorise, matrix_corner_block.cpp:86-97.  The k x k loop
    updates each (i,j) once from its own old value. *)
Definition upd2 (M : mat) (i j : nat) (x : R) : mat :=
  fun a b => if (Nat.eqb a i && Nat.eqb b j)%bool then x else M a b.

Definition delta_loop (k : nat) (val : nat -> nat -> R) (d : mat) : mat :=
  for_loop k (fun i d => for_loop k (fun j d => upd2 d i j (d i j - val i j)) d) d.

Definition corner_val (B : blocks) (bet : mat) (i j : nat) : R :=
  for_loop (nb B) (fun l val => val + lam B l i * bet j l) 0.

(** matrix_periodic_banded.cpp:76-93: two partial sums on the compressed lambda *)
Definition periodic_val (B : blocks) (bet : mat) (i j : nat) : R :=
  let v := for_loop (i + 1) (fun l val => val + lam B l i * bet j l) 0 in
  for_loop (kk B + 1 - (i + 1))
    (fun t val => let l := (i + 1 + t)%nat in
                  val + lam B l i * bet j (nb B + l - 1 - kk B)%nat) v.

(** The section loops work on the vector bx through the views u = bx[0,nb) and
    v = bx[nb, nb+k): matrix_corner_block.cpp:164-165, 201-202. *)
(** solve_lambda_section, matrix_corner_block.cpp:114-123 *)
Definition lambda_section (B : blocks) (bx : vec) : vec :=
  for_loop (kk B) (fun i (bx : vec) =>
    for_loop (nb B) (fun j (bx : vec) =>
      upd bx (nb B + i) (bx (nb B + i)%nat - lam B j i * bx j)) bx) bx.

(** solve_lambda_section_transpose, matrix_corner_block.cpp:125-134 *)
Definition lambda_section_transpose (B : blocks) (bx : vec) : vec :=
  for_loop (nb B) (fun i (bx : vec) =>
    for_loop (kk B) (fun j (bx : vec) =>
      upd bx i (bx i - lam B i j * bx (nb B + j)%nat)) bx) bx.

(** Periodic version, matrix_periodic_banded.cpp:95-108 *)
Definition p_lambda_section (B : blocks) (bx : vec) : vec :=
  for_loop (kk B) (fun i (bx : vec) =>
    let bx := for_loop (i + 1) (fun j (bx : vec) =>
      upd bx (nb B + i) (bx (nb B + i)%nat - lam B j i * bx j)) bx in
    for_loop (kk B + 1 - (i + 1)) (fun t (bx : vec) =>
      let j := (i + 1 + t)%nat in
      upd bx (nb B + i) (bx (nb B + i)%nat - lam B j i * bx (nb B + j - 1 - kk B)%nat)) bx) bx.

(** Periodic version, matrix_periodic_banded.cpp:110-124 *)
Definition p_lambda_section_transpose (B : blocks) (bx : vec) : vec :=
  for_loop (kk B) (fun i (bx : vec) =>
    let bx := for_loop (i + 1) (fun j (bx : vec) =>
      upd bx j (bx j - lam B j i * bx (nb B + i)%nat)) bx in
    for_loop (kk B + 1 - (i + 1)) (fun t (bx : vec) =>
      let j := (i + 1 + t)%nat in
      upd bx (nb B + j - 1 - kk B)
        (bx (nb B + j - 1 - kk B)%nat - lam B j i * bx (nb B + i)%nat)) bx) bx.

(** solve_gamma_section, matrix_corner_block.cpp:136-146 (bet = Abm_1_gamma after factorise) *)
Definition gamma_section (B : blocks) (bet : mat) (bx : vec) : vec :=
  for_loop (nb B) (fun i (bx : vec) =>
    let val := for_loop (kk B) (fun j val => val + bet j i * bx (nb B + j)%nat) 0 in
    upd bx i (bx i - val)) bx.

(** solve_gamma_section_transpose, matrix_corner_block.cpp:148-158 *)
Definition gamma_section_transpose (B : blocks) (bet : mat) (bx : vec) : vec :=
  for_loop (kk B) (fun j (bx : vec) =>
    let val := for_loop (nb B) (fun i val => val + bet j i * bx i) 0 in
    upd bx (nb B + j) (bx (nb B + j)%nat - val)) bx.

(** An in-place inner solve on the view [off, off+len) of bx. *)
Definition on_view (off len : nat) (s : vec -> vec) (bx : vec) : vec :=
  fun p => if (Nat.leb off p && Nat.ltb p (off + len))%bool
           then s (fun j => bx (off + j)%nat) (p - off)%nat else bx p.

(** Which override of the virtual lambda functions is used. *)
Inductive lambda_kind := FullLambda | PeriodicLambda.

(** Matrix handed to LAPACK for delta by factorise(), matrix_corner_block.cpp:99-112 *)
Definition delta_to_factorise (kd : lambda_kind) (B : blocks) (qs : vec -> vec) : mat :=
  let val := match kd with FullLambda => corner_val | PeriodicLambda => periodic_val end in
  delta_loop (kk B) (val B (beta B qs)) (del B).

(** Matrix_Corner_Block::solve_inplace, matrix_corner_block.cpp:160-196 *)
Definition corner_solve (kd : lambda_kind) (B : blocks) (qs ds : vec -> vec) (bx : vec) : vec :=
  let bx := on_view 0 (nb B) qs bx in
  let bx := match kd with FullLambda => lambda_section | PeriodicLambda => p_lambda_section end B bx in
  let bx := on_view (nb B) (kk B) ds bx in
  gamma_section B (beta B qs) bx.

(** Matrix_Corner_Block::solve_transpose_inplace, matrix_corner_block.cpp:198-232 *)
Definition corner_solve_transpose (kd : lambda_kind) (B : blocks)
  (qs qsT dsT : vec -> vec) (bx : vec) : vec :=
  let bx := gamma_section_transpose B (beta B qs) bx in
  let bx := on_view (nb B) (kk B) dsT bx in
  let bx := match kd with FullLambda => lambda_section_transpose
                        | PeriodicLambda => p_lambda_section_transpose end B bx in
  on_view 0 (nb B) qsT bx.

(** ** Centre block: the three memcpy of matrix_centre_block.cpp:46-94.
    memcpy inside one array of [n] elements: out of bounds or overlapping = Ub. *)
Definition memcpy_self (n : nat) (b : vec) (dst src len : nat) : res vec :=
  if (Nat.leb (dst + len) n && Nat.leb (src + len) n &&
      (Nat.leb (dst + len) src || Nat.leb (src + len) dst || Nat.eqb len 0))%bool
  then Ok (fun p => if (Nat.leb dst p && Nat.ltb p (dst + len))%bool then b (src + (p - dst))%nat else b p)
  else Ub.
(** memcpy between two distinct arrays of lengths [nd] and [ns] *)
Definition memcpy (nd : nat) (d : vec) (dst : nat) (ns : nat) (s : vec) (src len : nat) : res vec :=
  if (Nat.leb (dst + len) nd && Nat.leb (src + len) ns)%bool
  then Ok (fun p => if (Nat.leb dst p && Nat.ltb p (dst + len))%bool then s (src + (p - dst))%nat else d p)
  else Ub.

(** swap_array_to_corner, matrix_centre_block.cpp:46-56 (1-D) and 58-69 (2-D: [nc]
    columns; swap_array keeps the size q_block->get_size() given by line 17).
    The 1-D version is the case nc = 1.  [rows] is the first extent of bx. *)
Definition swap_to_corner (rows nc q top : nat) (swap bx : vec) : res (vec * vec) :=
  let* swap := memcpy q swap 0 (rows * nc) bx (top * nc) (q * nc) in
  let* bx := memcpy_self (rows * nc) bx (q * nc) 0 (top * nc) in
  let* bx := memcpy (rows * nc) bx 0 q swap 0 (q * nc) in
  Ok (swap, bx).

(** swap_array_to_centre, matrix_centre_block.cpp:71-81 and 83-94 *)
Definition swap_to_centre (rows nc q top : nat) (swap bx : vec) : res (vec * vec) :=
  let* swap := memcpy q swap 0 (rows * nc) bx 0 (q * nc) in
  let* bx := memcpy_self (rows * nc) bx 0 (q * nc) (top * nc) in
  let* bx := memcpy (rows * nc) bx (top * nc) q swap 0 (q * nc) in
  Ok (swap, bx).

(** Matrix_Centre_Block::solve_inplace / solve_transpose_inplace,
    matrix_centre_block.cpp:96-110, around the corner solve [s]. *)
Definition centre_solve (n q top : nat) (s : vec -> vec) (swap bx : vec) : res vec :=
  let* (swap, bx) := swap_to_corner n 1 q top swap bx in
  let bx := s bx in
  let* (swap, bx) := swap_to_centre n 1 q top swap bx in
  Ok bx.

(** Matrix_Corner_Block::solve_multiple_inplace, matrix_corner_block.cpp:234-242, on a
    row-major e0 x e1 view: the assert, then one solve per i < e0 on [n*i, n*i+n). *)
Definition corner_solve_multiple (n e0 e1 : nat) (s : vec -> vec) (bx : vec) : res vec :=
  let* _ := check (Nat.eqb e0 n) in
  for_loop e0 (fun i (r : res vec) =>
    let* bx := r in
    if Nat.leb (n * i + n) (e0 * e1) then Ok (on_view (n * i) n s bx) else Ub) (Ok bx).

(** Matrix_Centre_Block::solve_multiple_inplace, matrix_centre_block.cpp:112-118 *)
Definition centre_solve_multiple (n e0 e1 q top : nat) (s : vec -> vec) (swap bx : vec) : res vec :=
  let* (swap, bx) := swap_to_corner e0 e1 q top swap bx in
  let* bx := corner_solve_multiple n e0 e1 s bx in
  let* (swap, bx) := swap_to_centre e0 e1 q top swap bx in
  Ok bx.

(** Matrix::solve_multiple_inplace (base class), matrix.cpp:44-54: bx is (number of
    right-hand sides) x n and every row is solved by the LAPACK call. *)
Definition base_solve_multiple (n e0 e1 : nat) (s : vec -> vec) (bx : vec) : res vec :=
  let* _ := check (Nat.eqb e1 n) in
  Ok (for_loop e0 (fun i (bx : vec) => on_view (n * i) n s bx) bx).
