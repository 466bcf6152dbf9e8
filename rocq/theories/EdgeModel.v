(** Model of src/multipatch/connectivity/edge_transformation.hpp and matching_idx_slice.hpp.
    Coordinates are exact reals; the floating-point index rescaling of the uniform search is modelled
    in IEEE binary64 (Flocq).  Indices are uids (Z); DDC's uids are unsigned, so only non-negative ones
    exist: the theorems stay in that range. *)
From Verif Require Export XVxModel.
From Flocq Require Import IEEE754.BinarySingleNaN Core.FLT.
Open Scope R_scope.

(** one edge: the points of the sampling (uid 0 first), the 1D index range (front, size) and the
    PERIODIC flag of the continuous dimension *)
Record edge := Edge { e_pts : list R; e_fr : Z; e_n : nat; e_per : bool }.

(** ddc::coordinate(idx) *)
Definition e_coord (e : edge) (i : Z) : res R := rd (e_pts e) i.
Definition e_length (e : edge) : res R := interval_length (e_per e) (e_pts e) (e_fr e) (e_n e).

(** std::fmod *)
Definition fmod (x y : R) : R :=
  let q := x / y in
  x - y * (if Rle_dec 0 q then IZR (Int_part q) else - IZR (Int_part (- q))).

(** edge_transformation.hpp 117-156: transform_edge_coord *)
Definition transform_edge_coord (agree : bool) (cur tgt : edge) (x : R) : res R :=
  let* current_min := e_coord cur (e_fr cur) in
  let* current_length := e_length cur in
  let* target_min := e_coord tgt (e_fr tgt) in
  let* target_length := e_length tgt in
  let rescale_x := (x - current_min) / current_length * target_length in
  let rescale_x := if agree then rescale_x else target_length - rescale_x in
  let rescale_x := if e_per tgt then fmod rescale_x target_length else rescale_x in
  Ok (target_min + rescale_x).

(** edge_transformation.hpp 273-288: the range extended by one point in the periodic case *)
Definition full_size (e : edge) : Z := Z.of_nat (e_n e) + (if e_per e then 1 else 0).
Definition full_back (e : edge) : Z := e_fr e + full_size e - 1.
Definition n_cells (e : edge) : Z := full_size e - 1.

(** edge_transformation.hpp 291-303: the two bounded while loops; [counter] runs to 10 and a loop
    whose condition is false leaves the index unchanged from then on *)
Definition wrap_index (e : edge) (i : Z) : Z :=
  if e_per e then
    let i := Nat.iter 10 (fun i => if (i <? e_fr e)%Z then (i + n_cells e)%Z else i) i in
    Nat.iter 10 (fun i => if (full_back e <=? i)%Z then (i - n_cells e)%Z else i) i
  else i.

(** edge_transformation.hpp 324-325: int(current_idx_value / (double(nc) / double(nt))).
    [rescale_exact]: in exact arithmetic; [rescale_b64]: in IEEE binary64, round to nearest even. *)
Definition rescale_exact (v nc nt : Z) : Z := Z.quot (v * nt) nc.
Definition prec64_gt_0 : FLX.Prec_gt_0 53 := eq_refl.
Definition prec64_lt_emax : Prec_lt_emax 53 1024 := eq_refl.
Definition b64 (z : Z) : binary_float 53 1024 :=
  binary_normalize 53 1024 prec64_gt_0 prec64_lt_emax mode_NE z 0 false.
Definition b64_div : binary_float 53 1024 -> binary_float 53 1024 -> binary_float 53 1024 :=
  @Bdiv 53 1024 prec64_gt_0 prec64_lt_emax mode_NE.
Definition rescale_b64 (v nc nt : Z) : Z := Btrunc (b64_div (b64 v) (b64_div (b64 nc) (b64 nt))).

(** edge_transformation.hpp 287-343: search_for_match, both grids uniform.  [None]: out_of_bounds_idx.
    Integer division by zero is undefined behaviour. *)
Definition search_uniform (rescale : Z -> Z -> Z -> Z) (agree : bool) (cur tgt : edge) (i : Z) : res (option Z) :=
  let nc := n_cells cur in
  let nt := n_cells tgt in
  let i := wrap_index cur i in
  let* _ := check (i <=? full_back cur)%Z in
  let* _ := check (e_fr cur <=? i)%Z in
  let gcd_cells := Z.gcd nc nt in
  if (gcd_cells =? 0)%Z then Ub else
  let v := (i - e_fr cur)%Z in
  if (nc / gcd_cells =? 0)%Z then Ub else
  if (v mod (nc / gcd_cells) =? 0)%Z then
    let t := (e_fr tgt + rescale v nc nt)%Z in
    let t := if agree then t else (e_fr tgt + (full_back tgt - t))%Z in
    let* _ := check (t <=? full_back tgt)%Z in
    let* _ := check (e_fr tgt <=? t)%Z in
    Ok (Some (if (e_per tgt && (t =? full_back tgt))%Z then e_fr tgt else t))
  else Ok None.

(** edge_transformation.hpp 393-407: the dichotomy loop, at most [fuel] turns ([None]: still
    running) *)
Fixpoint dichotomy (fuel : nat) (agree : bool) (cur tgt : edge) (x : R) (lo hi : Z) : res (option (Z * Z)) :=
  match fuel with
  | O => Ok None
  | S fuel =>
    if (hi - lo =? 1)%Z then Ok (Some (lo, hi)) else
    let mid := (lo + (hi - lo) / 2)%Z in
    let* c := e_coord tgt mid in
    let* y := transform_edge_coord agree tgt cur c in
    let up := if agree then (if Rlt_dec y x then true else false) else (if Rle_dec x y then true else false) in
    if up then dichotomy fuel agree cur tgt x mid hi else dichotomy fuel agree cur tgt x lo mid
  end.

(** edge_transformation.hpp 371-432: get_target_idx *)
Definition get_target_idx (fuel : nat) (agree : bool) (cur tgt : edge) (x : R) : res (option Z) :=
  let* r := dichotomy fuel agree cur tgt x (e_fr tgt) (full_back tgt) in
  match r with
  | None => Ok None
  | Some (lo, hi) =>
    let* _ := check (lo <=? full_back tgt)%Z in
    let* _ := check (e_fr tgt <=? lo)%Z in
    let* _ := check (hi <=? full_back tgt)%Z in
    let* _ := check (e_fr tgt <=? hi)%Z in
    let hi := if (e_per tgt && (hi =? full_back tgt))%Z then e_fr tgt else hi in
    let* clo := e_coord tgt lo in
    let* ylo := transform_edge_coord agree tgt cur clo in
    let* chi := e_coord tgt hi in
    let* yhi := transform_edge_coord agree tgt cur chi in
    Ok (Some (if Rlt_dec (Rabs (x - ylo)) (Rabs (x - yhi)) then lo else hi))
  end.

(** edge_transformation.hpp 287-306, 344-355: search_for_match, at least one grid non uniform.
    Result: [None] still running; [Some None] out_of_bounds_idx; [Some (Some j)] the match *)
Definition search_nonuniform (fuel : nat) (agree : bool) (cur tgt : edge) (i : Z) : res (option (option Z)) :=
  let i := wrap_index cur i in
  let* _ := check (i <=? full_back cur)%Z in
  let* _ := check (e_fr cur <=? i)%Z in
  let* x := e_coord cur i in
  let* r := get_target_idx fuel agree cur tgt x in
  match r with
  | None => Ok None
  | Some j =>
    let* c := e_coord tgt j in
    let* y := transform_edge_coord agree tgt cur c in
    Ok (Some (if Rlt_dec (Rabs (x - y)) (/ 10 ^ 14) then Some j else None))
  end.

(** edge_transformation.hpp 178-186: operator()(idx); 209-214: is_match_available *)
Definition transform_idx (m : res (option Z)) : res Z :=
  let* r := m in match r with Some j => Ok j | None => AssertFail end.
Definition is_match_available (m : res (option Z)) : res bool :=
  let* r := m in Ok (match r with Some _ => true | None => false end).

(** ** matching_idx_slice.hpp *)
(** IdxRangeSlice: front, number of elements, stride *)
Record slice := Slice { s_front : Z; s_size : Z; s_stride : Z }.
Definition slice_at (s : slice) (k : Z) : Z := (s_front s + k * s_stride s)%Z.

(** matching_idx_slice.hpp 222-225: the stride is converted to size_t (64 bits) by the division of the
    unsigned size; a zero divisor is undefined behaviour *)
Definition two64 : Z := 2 ^ 64.
Definition idx_range_slice (fr : Z) (n : nat) (stride : Z) : res slice :=
  let d := (stride mod two64)%Z in
  if (d =? 0)%Z then Ub else Ok (Slice fr ((Z.of_nat n - 1) / d + 1) stride).

(** matching_idx_slice.hpp 189-198, 99-100: uniform grids *)
Definition uniform_step (mine other : nat) : res Z :=
  let n1 := (Z.of_nat mine - 1)%Z in
  let g := Z.gcd n1 (Z.of_nat other - 1) in
  if (g =? 0)%Z then Ub else Ok (n1 / g)%Z.
Definition slices_uniform (e1 e2 : edge) : res (slice * slice) :=
  let* s1 := uniform_step (e_n e1) (e_n e2) in
  let* l1 := idx_range_slice (e_fr e1) (e_n e1) s1 in
  let* s2 := uniform_step (e_n e2) (e_n e1) in
  let* l2 := idx_range_slice (e_fr e2) (e_n e2) s2 in
  Ok (l1, l2).

(** matching_idx_slice.hpp 170-182: get_conforming_idx_vector; [search] is search_for_match from edge 1
    to edge 2 *)
Definition conforming (search : Z -> res (option Z)) (e1 : edge) : res (list Z * list Z) :=
  for_res (e_n e1) (fun k '(v1, v2) =>
    let i := (e_fr e1 + Z.of_nat k)%Z in
    let* m := search i in
    match m with Some j => Ok (v1 ++ [i], v2 ++ [j]) | None => Ok (v1, v2) end) ([], []).

(** matching_idx_slice.hpp 200-211: the step of a vector of indices; v[1] - v[0] without a bounds
    check *)
Definition vector_step (v : list Z) : res Z :=
  let* a := rd v 1 in
  let* b := rd v 0 in
  let first := (a - b)%Z in
  let* _ := for_res (length v - 2) (fun k _ =>
    let* x := rd v (Z.of_nat k + 2) in
    let* y := rd v (Z.of_nat k + 1) in
    if (x - y =? first)%Z then Ok tt else Throw) tt in
  Ok first.
Definition slices_nonuniform (search : Z -> res (option Z)) (e1 e2 : edge) : res (slice * slice) :=
  let* (v1, v2) := conforming search e1 in
  let* s1 := vector_step v1 in
  let* l1 := idx_range_slice (e_fr e1) (e_n e1) s1 in
  let* s2 := vector_step v2 in
  let* l2 := idx_range_slice (e_fr e2) (e_n e2) s2 in
  Ok (l1, l2).

(** search_for_match on non uniform grids as a plain function: a loop without side effects that does
    not end is undefined behaviour *)
Definition search_of (agree : bool) (cur tgt : edge) (i : Z) : res (option Z) :=
  let* r := search_nonuniform (Z.to_nat (n_cells tgt)) agree cur tgt i in
  match r with Some m => Ok m | None => Ub end.
