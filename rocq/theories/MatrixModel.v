(** Model of the element storage of the CPU matrix classes of src/matrix_tools.
    The element type is a parameter of the section (C++: double) with its zero and
    the test std::fabs(a) < 1e-20 used by the assertions.  C++ int is modelled by Z
    (no overflow: all indices are bounded by the size of an allocated buffer). *)
From Verif Require Import Lib.
Open Scope Z_scope.

Section Storage.
Variable A : Type.
Variable zero : A.
Variable tiny : A -> bool.     (* std::fabs(a) < 1e-20 *)

(** 2-D mdspan views (src/utils/view.hpp:87-97, Span2D: layout_right) of a buffer:
    element (a,b) of an e0 x e1 view is at offset a*e1+b; access outside the
    extents is undefined behaviour. *)
Definition rd2 (buf : list A) (e0 e1 a b : Z) : res A :=
  if ((0 <=? a) && (a <? e0) && (0 <=? b) && (b <? e1))%bool then rd buf (a * e1 + b) else Ub.
Definition wr2 (buf : list A) (e0 e1 a b : Z) (x : A) : res (list A) :=
  if ((0 <=? a) && (a <? e0) && (0 <=? b) && (b <? e1))%bool then wr buf (a * e1 + b) x else Ub.

(** The class hierarchy: matrix_dense.hpp, matrix_banded.hpp, matrix_pds_tridiag.hpp,
    matrix_corner_block.hpp, matrix_periodic_banded.hpp, matrix_centre_block.hpp.
    Only the data members used for element access are kept (ipiv is LAPACK's). *)
Inductive matrix : Type :=
| Dense (n : Z) (a : list A)
| Banded (n kl ku : Z) (q : list A)
| Pds (n : Z) (d l : list A)
| Corner (n k : Z) (gamma lambda : list A) (l1 l2 : Z) (q : matrix) (delta : list A)
| Periodic (n kl ku : Z) (gamma lambda : list A) (q : matrix) (delta : list A)
| Centre (n top bottom : Z) (gamma lambda : list A) (q : matrix) (delta : list A).

(** Matrix::get_size, matrix.hpp:95-98 *)
Definition get_size (m : matrix) : Z :=
  match m with
  | Dense n _ => n | Banded n _ _ _ => n | Pds n _ _ => n
  | Corner n _ _ _ _ _ _ _ => n | Periodic n _ _ _ _ _ _ => n | Centre n _ _ _ _ _ _ => n
  end.

Definition zeros (n : Z) : list A := repeat zero (Z.to_nat n).

(** std::make_unique<double[]>(n): a negative size throws std::bad_array_new_length. *)
Definition alloc (n : Z) : res (list A) := if n <? 0 then Throw else Ok (zeros n).

(** Matrix_Dense::Matrix_Dense, matrix_dense.cpp:11-19 *)
Definition new_dense (n : Z) : res matrix :=
  let* _ := check (0 <? n) in
  let* a := alloc (n * n) in Ok (Dense n a).

(** Matrix_Banded::Matrix_Banded, matrix_banded.cpp:13-39 *)
Definition new_banded (n kl ku : Z) : res matrix :=
  let* _ := check ((0 <? n) && (0 <=? kl) && (0 <=? ku) && (kl <=? n) && (ku <=? n)) in
  let* q := alloc ((2 * kl + ku + 1) * n) in Ok (Banded n kl ku q).

(** Matrix_PDS_Tridiag::Matrix_PDS_Tridiag, matrix_pds_tridiag.cpp:14-21 *)
Definition new_pds (n : Z) : res matrix :=
  let* d := alloc n in let* l := alloc (n - 1) in Ok (Pds n d l).

(** Matrix_Corner_Block::Matrix_Corner_Block, matrix_corner_block.cpp:9-26 and 28-50
    (the member delta(k) is a Matrix_Dense: its constructor asserts k > 0). *)
Definition new_corner_sized (n k : Z) (q : matrix) (l1 l2 : Z)
  (build : list A -> list A -> list A -> matrix) : res matrix :=
  let nb := n - k in
  let* gamma := alloc (k * nb) in
  let* lambda := alloc (l1 * l2) in
  let* delta := (let* _ := check (0 <? k) in alloc (k * k)) in
  let* _ := check ((0 <? n) && (0 <=? k) && (k <=? n) && (nb =? get_size q)) in
  Ok (build gamma lambda delta).

Definition new_corner (n k : Z) (q : matrix) : res matrix :=
  new_corner_sized n k q (n - k) k (fun g l d => Corner n k g l (n - k) k q d).

(** Matrix_Periodic_Banded::Matrix_Periodic_Banded, matrix_periodic_banded.cpp:14-23 *)
Definition new_periodic (n kl ku : Z) (q : matrix) : res matrix :=
  new_corner_sized n (Z.max kl ku) q (Z.max kl ku + 1) (Z.max kl ku)
    (fun g l d => Periodic n kl ku g l q d).

(** Matrix_Centre_Block::Matrix_Centre_Block, matrix_centre_block.cpp:8-19 *)
Definition new_centre (n top bottom : Z) (q : matrix) : res matrix :=
  new_corner_sized n (top + bottom) q (n - (top + bottom)) (top + bottom)
    (fun g l d => Centre n top bottom g l q d).

(** Matrix_Banded band test, matrix_banded.cpp:43 and 52 *)
Definition in_band (n kl ku i j : Z) : bool :=
  ((Z.max 0 (j - ku) <=? i) && (i <? Z.min n (j + kl + 1)))%bool.

(** matrix_banded.cpp:44 and 53 *)
Definition band_offset (kl ku i j : Z) : Z := j * (2 * kl + ku + 1) + kl + ku + i - j.

(** Matrix_Periodic_Banded: cyclic distance, matrix_periodic_banded.cpp:32-36 and 56-60
    (C++ -n/2 is (-n)/2 truncated toward zero, i.e. -(n/2)). *)
Definition wrap_distance (n i j : Z) : Z :=
  let d := j - i in
  let d := if n / 2 <? d then d - n else d in
  if d <? - (n / 2) then d + n else d.

(** Matrix_Centre_Block::adjust_indexes for one index, matrix_centre_block.cpp:21-32 *)
Definition adjust_index (n top bottom qsize i : Z) : Z :=
  if i <? top then i + qsize
  else if i <? n - bottom then i - top else i.

(** Common part of Corner_Block::get_element, matrix_corner_block.cpp:52-67; the
    lambda access is passed as [getl] since Periodic_Banded intercepts it. *)
Definition corner_get (n k : Z) (gamma delta : list A)
  (getq : Z -> Z -> res A) (getl : Z -> Z -> res A) (i j : Z) : res A :=
  let nb := n - k in
  let* _ := check ((0 <=? i) && (i <? n) && (0 <=? j) && (j <? n)) in
  if ((i <? nb) && (j <? nb))%bool then getq i j
  else if ((nb <=? i) && (nb <=? j))%bool then
    (let* _ := check ((i - nb <? k) && (j - nb <? k)) in rd delta ((j - nb) * k + (i - nb)))
  else if nb <=? j then rd2 gamma k nb (j - nb) i
  else getl i j.

(** get_element of all classes:
    matrix_dense.cpp:26-31, matrix_banded.cpp:41-48, matrix_pds_tridiag.cpp:23-35,
    matrix_corner_block.cpp:52-67, matrix_periodic_banded.cpp:25-47,
    matrix_centre_block.cpp:34-38. *)
Fixpoint get (m : matrix) (i j : Z) {struct m} : res A :=
  match m with
  | Dense n a => let* _ := check ((i <? n) && (j <? n)) in rd a (j * n + i)
  | Banded n kl ku q =>
      if in_band n kl ku i j then rd q (band_offset kl ku i j) else Ok zero
  | Pds n d l =>
      if i =? j then rd d i
      else let (i, j) := if j <? i then (j, i) else (i, j) in
           if i + 1 =? j then rd l i else Ok zero
  | Corner n k gamma lambda l1 l2 q delta =>
      corner_get n k gamma delta (get q) (fun i j => rd2 lambda l1 l2 j (i - (n - k))) i j
  | Periodic n kl ku gamma lambda q delta =>
      let k := Z.max kl ku in
      let nb := n - k in
      corner_get n k gamma delta (get q)
        (fun i j =>
           let d := wrap_distance n i j in
           if ((d <? - kl) || (ku <? d))%bool then Ok zero
           else if 0 <? d then rd2 lambda (k + 1) k j (i - nb)
           else rd2 lambda (k + 1) k (j - nb + k + 1) (i - nb)) i j
  | Centre n top bottom gamma lambda q delta =>
      let k := top + bottom in
      let i := adjust_index n top bottom (get_size q) i in
      let j := adjust_index n top bottom (get_size q) j in
      corner_get n k gamma delta (get q) (fun i j => rd2 lambda (n - k) k j (i - (n - k))) i j
  end.

(** Common part of Corner_Block::set_element, matrix_corner_block.cpp:69-84. The
    result says which member was replaced. *)
Definition corner_set (n k : Z) (gamma lambda delta : list A) (q : matrix)
  (setq : Z -> Z -> A -> res matrix) (setl : Z -> Z -> A -> res (list A))
  (build : list A -> list A -> matrix -> list A -> matrix)
  (i j : Z) (x : A) : res matrix :=
  let nb := n - k in
  let* _ := check ((0 <=? i) && (i <? n) && (0 <=? j) && (j <? n)) in
  if ((i <? nb) && (j <? nb))%bool then
    let* q' := setq i j x in Ok (build gamma lambda q' delta)
  else if ((nb <=? i) && (nb <=? j))%bool then
    let* d' := wr delta ((j - nb) * k + (i - nb)) x in Ok (build gamma lambda q d')
  else if nb <=? j then
    let* g' := wr2 gamma k nb (j - nb) i x in Ok (build g' lambda q delta)
  else let* l' := setl i j x in Ok (build gamma l' q delta).

(** set_element of all classes:
    matrix_dense.cpp:21-24, matrix_banded.cpp:50-57, matrix_pds_tridiag.cpp:37-51,
    matrix_corner_block.cpp:69-84, matrix_periodic_banded.cpp:49-74,
    matrix_centre_block.cpp:40-44. *)
Fixpoint set (m : matrix) (i j : Z) (x : A) {struct m} : res matrix :=
  match m with
  | Dense n a => let* a' := wr a (j * n + i) x in Ok (Dense n a')
  | Banded n kl ku q =>
      if in_band n kl ku i j then
        let* q' := wr q (band_offset kl ku i j) x in Ok (Banded n kl ku q')
      else let* _ := check (tiny x) in Ok m
  | Pds n d l =>
      if i =? j then let* d' := wr d i x in Ok (Pds n d' l)
      else let (i, j) := if j <? i then (j, i) else (i, j) in
           if negb (i + 1 =? j) then let* _ := check (tiny x) in Ok m
           else let* l' := wr l i x in Ok (Pds n d l')
  | Corner n k gamma lambda l1 l2 q delta =>
      corner_set n k gamma lambda delta q (set q)
        (fun i j x => wr2 lambda l1 l2 j (i - (n - k)) x)
        (fun g l q d => Corner n k g l l1 l2 q d) i j x
  | Periodic n kl ku gamma lambda q delta =>
      let k := Z.max kl ku in
      let nb := n - k in
      corner_set n k gamma lambda delta q (set q)
        (fun i j x =>
           let d := wrap_distance n i j in
           if ((d <? - kl) || (ku <? d))%bool then let* _ := check (tiny x) in Ok lambda
           else if 0 <? d then wr2 lambda (k + 1) k j (i - nb) x
           else wr2 lambda (k + 1) k (j - nb + k + 1) (i - nb) x)
        (fun g l q d => Periodic n kl ku g l q d) i j x
  | Centre n top bottom gamma lambda q delta =>
      let k := top + bottom in
      let i := adjust_index n top bottom (get_size q) i in
      let j := adjust_index n top bottom (get_size q) j in
      corner_set n k gamma lambda delta q (set q)
        (fun i j x => wr2 lambda (n - k) k j (i - (n - k)) x)
        (fun g l q d => Centre n top bottom g l q d) i j x
  end.

(** A client history: a list of set_element calls performed in order. *)
Fixpoint set_all (m : matrix) (h : list (Z * Z * A)) : res matrix :=
  match h with
  | [] => Ok m
  | (i, j, x) :: t => let* m' := set m i j x in set_all m' t
  end.

(** Matrix::make_new_banded, matrix.cpp:71-84 *)
Definition make_new_banded (n kl ku : Z) (pds : bool) : res matrix :=
  if ((kl =? ku) && (kl =? 1) && pds)%bool then new_pds n
  else if n <=? 2 * kl + 1 + ku then new_dense n
  else new_banded n kl ku.

(** Matrix::make_new_periodic_banded, matrix.cpp:86-106 *)
Definition make_new_periodic_banded (n kl ku : Z) (pds : bool) : res matrix :=
  let border := Z.max kl ku in
  let banded := n - border in
  if (pds && (kl =? ku) && (kl =? 1))%bool then
    let* q := new_pds banded in new_periodic n kl ku q
  else if n * n <=? border * n + border * (border + 1) + (2 * kl + 1 + ku) * banded then
    new_dense n
  else let* q := new_banded banded kl ku in new_periodic n kl ku q.

(** Matrix::make_new_block_with_banded_region, matrix.cpp:108-131 *)
Definition make_new_block_with_banded_region (n kl ku : Z) (pds : bool) (b1 b2 : Z) : res matrix :=
  let banded := n - b1 - b2 in
  let finish (q : matrix) :=
    if b2 =? 0 then new_corner n b1 q else new_centre n b1 b2 q in
  if (pds && (kl =? ku) && (kl =? 1))%bool then let* q := new_pds banded in finish q
  else if banded <=? 2 * kl + 1 + ku then new_dense n
  else let* q := new_banded banded kl ku in finish q.

(** Every matrix a client can construct directly with the constructors above. *)
Inductive constructed : matrix -> Prop :=
| c_dense n m : new_dense n = Ok m -> constructed m
| c_banded n kl ku m : new_banded n kl ku = Ok m -> constructed m
| c_pds n m : new_pds n = Ok m -> 0 < n -> constructed m
| c_corner n k q m : constructed q -> new_corner n k q = Ok m -> constructed m
| c_periodic n kl ku q m : constructed q ->
    0 <= kl -> 0 <= ku ->
    (* cyclic distance unambiguous; implied by make_new_periodic_banded's choices *)
    2 * Z.max kl ku < n \/ (2 * Z.max kl ku = n /\ kl = Z.max kl ku) ->
    new_periodic n kl ku q = Ok m -> constructed m
| c_centre n top bottom q m : constructed q -> 0 <= top -> 0 <= bottom ->
    new_centre n top bottom q = Ok m -> constructed m.

End Storage.
