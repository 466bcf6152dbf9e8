(** Model of the polar splines: src/interpolation/polar_splines/bernstein.hpp,
    polar_bsplines.hpp, polar_spline_evaluator.hpp, and of the discrete mapping they are built
    from, src/coord_transformations/discrete_poloidal_cs_spline_mapping.hpp.
    double is modelled by R and int/std::size_t by Z or nat (the sizes stay far below 2^31);
    factorials wrap around at 2^64.  The 1D B-spline bases are DDC's: degree, cells, bounds and
    eval_basis/eval_basis_and_n_derivs are inputs.  asserts are enabled. *)
From Verif Require Import Lib DerivModel QuadModel FemModel MathModel MappingModel.
Open Scope R_scope.

(** ** Triangular Bernstein polynomials (bernstein.hpp) *)
(** 64-bit product *)
Definition mul64 (a b : Z) : Z := ((a * b) mod two64)%Z.
(** bernstein.hpp:170-171 *)
Definition multinomial_coefficient (D i j k : nat) : Z :=
  (factorial D / mul64 (mul64 (factorial i) (factorial j)) (factorial k))%Z.
(** bernstein.hpp:168-172, the body of the double loop; ipow(l1, i) and ipow(l2, j) take a
    std::size_t and ipow(l3, k) an int *)
Definition bernstein_value (D : nat) (l1 l2 l3 : R) (i j : nat) : res R :=
  let k := (D - i - j)%nat in
  let* p3 := ipow_i l3 (Z.of_nat k) in
  Ok (IZR (multinomial_coefficient D i j k) * ipow_u l1 i * ipow_u l2 j * p3).
(** bernstein.hpp:166-168: the order in which ++idx visits (i, j) *)
Definition bernstein_order (D : nat) : list (nat * nat) :=
  flat_map (fun i => map (fun j => (i, j)) (seq 0 (D + 1 - i))) (seq 0 (D + 1)).
(** eval_basis, bernstein.hpp:153-175: the values, idx = 0, 1, ... *)
Definition bernstein_eval (D : nat) (t : bary_triangle) (p : crd) : res (list R) :=
  let bary := cart_to_bary t p in
  map_res (fun ij => bernstein_value D (bary 0%nat) (bary 1%nat) (bary 2%nat) (fst ij) (snd ij)) (bernstein_order D).

(** ** A 1D B-spline space, as DDC presents it.  [b_eval n x] is eval_basis (n = 0) or column n of
    eval_basis_and_n_derivs: the index of the first non-zero B-spline and the degree+1 values. *)
Record bspace : Type := {
  b_deg : nat;                                  (* degree() *)
  b_cells : nat;                                (* ncells() *)
  b_rmin : R;
  b_rmax : R;
  b_eval : nat -> R -> res (nat * (nat -> R))
}.
(** DDC's size(), full_domain().size(): the repeated elements of a periodic basis included *)
Definition b_size (b : bspace) : nat := (b_cells b + b_deg b)%nat.
(** DDC's nbasis() of a radial (not periodic) and of a poloidal (periodic) space *)
Definition nbasis_r (b : bspace) : nat := (b_cells b + b_deg b)%nat.
Definition nbasis_t (b : bspace) : nat := b_cells b.
Definition b_length (b : bspace) : R := b_rmax b - b_rmin b.

(** Access to a 2D field stored row by row; outside of its index range the behaviour is undefined *)
Definition rd2 {A} (l : list A) (nr nc : nat) (i j : Z) : res A :=
  if ((0 <=? i) && (i <? Z.of_nat nr) && (0 <=? j) && (j <? Z.of_nat nc))%Z
  then rd l (i * Z.of_nat nc + j) else Ub.

(** ** DiscretePoloidalCSSplineMapping *)
(** The two coefficient fields and DDC's 2D spline evaluator: [dm_ev dr dt c r theta] is the value
    (dr = dt = 0) or the partial derivative of the spline with coefficients c *)
Record dmap : Type := {
  dm_x : list R; dm_y : list R;
  dm_ev : nat -> nat -> list R -> R -> R -> res R
}.
(** operator(), discrete_poloidal_cs_spline_mapping.hpp:177-183 *)
Definition dm_apply (m : dmap) (r th : R) : res (R * R) :=
  let* x := dm_ev m 0 0 (dm_x m) r th in
  let* y := dm_ev m 0 0 (dm_y m) r th in Ok (x, y).
(** the constructor, 132-135 (host memory), and o_point(), 159-162 *)
Definition dm_o_point (m : dmap) : res (R * R) := dm_apply m 0 0.
(** jacobian_matrix, 226-251: entries (x,r), (x,theta), (y,r), (y,theta) *)
Definition dm_jacobian_matrix (m : dmap) (r th : R) : res (nat -> nat -> R) :=
  let* xr := dm_ev m 1 0 (dm_x m) r th in
  let* xt := dm_ev m 0 1 (dm_x m) r th in
  let* yr := dm_ev m 1 0 (dm_y m) r th in
  let* yt := dm_ev m 0 1 (dm_y m) r th in
  Ok (fun i j => match i, j with O, O => xr | O, _ => xt | _, O => yr | _, _ => yt end).
(** jacobian_component, 271-302 *)
Definition dm_jacobian_component (m : dmap) (i j : nat) (r th : R) : res R :=
  match i, j with
  | O, O => dm_ev m 1 0 (dm_x m) r th
  | O, _ => dm_ev m 0 1 (dm_x m) r th
  | _, O => dm_ev m 1 0 (dm_y m) r th
  | _, _ => dm_ev m 0 1 (dm_y m) r th
  end.
(** jacobian, 312-318 *)
Definition dm_jacobian (m : dmap) (r th : R) : res R :=
  let* J := dm_jacobian_matrix m r th in
  Ok (J 0%nat 0%nat * J 1%nat 1%nat - J 1%nat 0%nat * J 0%nat 1%nat).
(** first_order_jacobian_matrix_r_rtheta, 334-358 *)
Definition dm_first_order (m : dmap) (r th : R) : res (nat -> nat -> R) :=
  let* xr := dm_ev m 1 0 (dm_x m) r th in
  let* xt := dm_ev m 1 1 (dm_x m) r th in
  let* yr := dm_ev m 1 0 (dm_y m) r th in
  let* yt := dm_ev m 1 1 (dm_y m) r th in
  Ok (fun i j => match i, j with O, O => xr | O, _ => xt | _, O => yr | _, _ => yt end).
(** control_point, 398-402 *)
Definition dm_control_point (m : dmap) (nr nc : nat) (i j : Z) : res (R * R) :=
  let* x := rd2 (dm_x m) nr nc i j in
  let* y := rd2 (dm_y m) nr nc i j in Ok (x, y).

(** ** PolarBSplines.  [c1] is C + 1 with C the continuity parameter -1, 0 or 1 *)
(** n_singular_basis, polar_bsplines.hpp:111-114 *)
Definition n_singular (c1 : nat) : nat := (c1 * (c1 + 1) / 2)%nat.
(** get_polar_index, 139-154.  The loop 148-149 is the loop of FemModel.wrap_index (its fuel, the
    index itself, is never used up as n_theta >= 1) *)
Definition get_polar_index (c1 nt : nat) (ir it : Z) : res Z :=
  let r_idx := (ir - Z.of_nat c1)%Z in
  let theta_idx := wrap_index (Z.to_nat it) (Z.of_nat nt) it in
  let* _ := check (0 <=? r_idx)%Z in
  Ok (Z.of_nat (n_singular c1) + (r_idx * Z.of_nat nt + theta_idx))%Z.
(** get_2d_index, 164-174; division of an int by the (positive) number of poloidal functions *)
Definition get_2d_index (c1 nt : nat) (idx : Z) : res (Z * Z) :=
  let* _ := check (Z.of_nat (n_singular c1) <=? idx)%Z in
  let idx_2d := (idx - Z.of_nat (n_singular c1))%Z in
  let r_idx := Z.quot idx_2d (Z.of_nat nt) in
  let theta_idx := (idx_2d - r_idx * Z.of_nat nt)%Z in
  Ok (r_idx + Z.of_nat c1, theta_idx)%Z.
(** A 2D view: first indices, extents and the memory it starts at *)
Record view2 : Type := { v_r0 : Z; v_t0 : Z; v_nr : Z; v_nt : Z; v_data : list R }.
Definition rd_view (v : view2) (ir it : Z) : res R :=
  if ((v_r0 v <=? ir) && (ir <? v_r0 v + v_nr v) && (v_t0 v <=? it) && (it <? v_t0 v + v_nt v))%Z
  then rd (v_data v) ((ir - v_r0 v) * v_nt v + (it - v_t0 v)) else Ub.
(** get_tensor_product_subset, 197-221 *)
Definition get_tensor_product_subset (c1 nt : nat) (coef : list R) : res view2 :=
  let ns := n_singular c1 in
  let relevant := skipn ns coef in
  let front := Z.of_nat ns in
  let* start := get_2d_index c1 nt front in
  let* back := get_2d_index c1 nt (front + Z.of_nat (length relevant) - 1) in
  let er := (fst back - fst start + 1)%Z in
  let et := (snd back - snd start + 1)%Z in
  let* _ := check (er * et =? Z.of_nat (length relevant))%Z in
  Ok {| v_r0 := fst start; v_t0 := snd start; v_nr := er; v_nt := et; v_data := relevant |}.
(** nbasis, 627-632 *)
Definition polar_nbasis (c1 : nat) (br bt : bspace) : nat :=
  (n_singular c1 + (nbasis_r br - c1) * nbasis_t bt)%nat.

(** *** The constructor, 304-448 *)
(** 351-365: the loop over the control points of row 1 *)
Definition tau_step (x0 y0 tau : R) (p : R * R) : R :=
  let cx := fst p in let cy := snd p in
  let tau1 := -2 * (cx - x0) in
  let tau2 := cx - x0 - sqrt 3 * (cy - y0) in
  let tau3 := cx - x0 + sqrt 3 * (cy - y0) in
  let tau := if Rlt_dec tau1 tau then tau else tau1 in
  let tau := if Rlt_dec tau2 tau then tau else tau2 in
  if Rlt_dec tau3 tau then tau else tau3.
Definition triangle_size (pole : R * R) (row1 : list (R * R)) : R :=
  fold_left (tau_step (fst pole) (snd pole)) row1 0.
(** 367-369 *)
Definition triangle (pole : R * R) (tau : R) : bary_triangle :=
  let x0 := fst pole in let y0 := snd pole in
  {| bx1 := x0 + tau; by1 := y0;
     bx2 := x0 - / 2 * tau; by2 := y0 + / 2 * tau * sqrt 3;
     bx3 := x0 - / 2 * tau; by3 := y0 - / 2 * tau * sqrt 3 |}.

(** m_singular_basis_elements: [None] is a value which was never written *)
Definition elements := list (option R).
(** position of (k, ir, itheta) in the array of extents n_singular x (C+1) x size() *)
Definition el_pos (c1 np k ir it : nat) : Z := Z.of_nat ((k * c1 + ir) * np + it).
Definition rd_el (e : elements) (c1 np k ir it : nat) : res R :=
  if ((k <? n_singular c1) && (ir <? c1) && (it <? np))%nat then
    let* v := rd e (el_pos c1 np k ir it) in
    match v with Some x => Ok x | None => Ub end
  else Ub.
Definition wr_el (e : elements) (c1 np k ir it : nat) (x : R) : res elements :=
  if ((k <? n_singular c1) && (ir <? c1) && (it <? np))%nat
  then wr e (el_pos c1 np k ir it) (Some x) else Ub.
(** 415-426: the Bernstein values of the control point (ir, it) *)
Definition fill_point (c1 np : nat) (tr : bary_triangle) (pt : nat -> nat -> R * R) (ir it : nat) (e : elements)
  : res elements :=
  let p := pt ir it in
  let* vals := bernstein_eval (c1 - 1) tr (c2 (fst p) (snd p)) in
  for_res (n_singular c1) (fun k e => let* v := rd vals (Z.of_nat k) in wr_el e c1 np k ir it v) e.
(** 428-434: the periodic repetition *)
Definition repeat_row (c1 np nt dt : nat) (ir : nat) (e : elements) : res elements :=
  for_res (n_singular c1) (fun k e =>
    for_res dt (fun it e => let* v := rd_el e c1 np k ir it in wr_el e c1 np k ir (it + nt) v) e) e.
(** 412-435 *)
Definition fill_elements (c1 nt dt : nat) (tr : bary_triangle) (pt : nat -> nat -> R * R) : res elements :=
  let np := (nt + dt)%nat in
  for_res c1 (fun ir e =>
    let* e := for_res nt (fun it e => fill_point c1 np tr pt ir it e) e in
    repeat_row c1 np nt dt ir e) (repeat None (n_singular c1 * c1 * np)).
(** 342: the control points of rows 0 .. max(2, C+1)-1 *)
Definition ctrl_rows (c1 : nat) : nat := Nat.max 2 c1.
Definition read_ctrl (c1 : nat) (br bt : bspace) (m : dmap) : res (list (list (R * R))) :=
  map_res (fun i => map_res (fun j => dm_control_point m (nbasis_r br) (b_size bt) (Z.of_nat i) (Z.of_nat j))
    (seq 0 (b_size bt))) (seq 0 (ctrl_rows c1)).
(** 304-448 *)
Definition polar_make (c1 : nat) (br bt : bspace) (m : dmap) : res elements :=
  let* _ := check (if Rlt_dec (Rabs (b_rmin br)) (/ 10 ^ 15) then true else false) in
  let* _ := check (if Rlt_dec (Rabs (b_rmax bt - b_rmin bt - 2 * PI)) (/ 10 ^ 14) then true else false) in
  if (c1 =? 0)%nat then Ok [] else
  let* ctrl := read_ctrl c1 br bt m in
  let* pole := dm_o_point m in
  let tau := triangle_size pole (nth 1 ctrl []) in
  let tr := triangle pole tau in
  let* _ := check (c1 <? b_size br)%nat in
  fill_elements c1 (nbasis_t bt) (b_deg bt) tr (fun i j => nth j (nth i ctrl []) (0, 0)).

(** *** eval, 666-761: the values of the singular functions, of the tensor-product functions, and
    the indices (jmin_r, jmin_theta).  [e] is m_singular_basis_elements. *)
Definition sing_value (c1 np : nat) (e : elements) (dt : nat) (jr jt nr_done : nat) (vr vt : nat -> R) (k : nat) : res R :=
  for_res nr_done (fun i s =>
    for_res (dt + 1) (fun j s =>
      let* a := rd_el e c1 np k (jr + i) (jt + j) in Ok (s + a * vr i * vt j)) s) 0.
Definition polar_eval (c1 : nat) (br bt : bspace) (e : elements) (dr dt : nat) (r th : R)
  : res (list R * (nat -> nat -> R) * (nat * nat)) :=
  let* (jr, vr) := b_eval br dr r in
  let* (jt, vt) := b_eval bt dt th in
  let nr := (b_deg br + 1)%nat in
  (* 727-748 *)
  let nr_done := (c1 - jr)%nat in
  let* sing :=
    if (jr <? c1)%nat then
      if (nr <? nr_done)%nat then Ub (* vals_r[i] past the array, nr - nr_done wraps around *) else
      map_res (sing_value c1 (b_size bt) e (b_deg bt) jr jt nr_done vr vt) (seq 0 (n_singular c1))
    else Ok (repeat 0 (n_singular c1)) in
  let jr' := if (jr <? c1)%nat then c1 else jr in
  (* 750-759 *)
  let values := fun i j => if (i <? nr - nr_done)%nat then vr (i + nr_done)%nat * vt j else 0 in
  Ok (sing, values, (jr', jt)).

(** ** PolarSplineEvaluator (polar_spline_evaluator.hpp) *)
(** eval_no_bc, 510-548 *)
Definition eval_no_bc (c1 : nat) (br bt : bspace) (e : elements) (coef : list R) (dr dt : nat) (r th : R) : res R :=
  let* out := polar_eval c1 br bt e dr dt r th in
  let '(sing, vals, (jr, jt)) := out in
  let* y := for_res (n_singular c1) (fun i y =>
    let* c := rd coef (Z.of_nat i) in let* s := rd sing (Z.of_nat i) in Ok (y + c * s)) 0 in
  let* v := get_tensor_product_subset c1 (nbasis_t bt) coef in
  let tmax := (v_t0 v + v_nt v - 1)%Z in
  for_res (b_deg br + 1) (fun i y =>
    for_res (b_deg bt + 1) (fun j y =>
      let it := Z.of_nat (jt + j) in
      let it := if (tmax <? it)%Z then (it - v_nt v)%Z else it in
      let* c := rd_view v (Z.of_nat (jr + i)) it in
      Ok (y + c * vals i j)) y) y.
(** eval, 490-508; [outer] is the outer extrapolation rule, applied to the coordinate as given *)
Definition wrap_theta (bt : bspace) (th : R) : R :=
  if Rlt_dec th (b_rmin bt) then th - IZR (Int_part ((th - b_rmin bt) / b_length bt)) * b_length bt
  else if Rlt_dec (b_rmax bt) th then th - IZR (Int_part ((th - b_rmin bt) / b_length bt)) * b_length bt
  else th.
Definition evaluate (c1 : nat) (br bt : bspace) (e : elements) (outer : R -> R -> list R -> res R)
  (coef : list R) (r th : R) : res R :=
  if Rlt_dec (b_rmax br) r then outer r th coef
  else eval_no_bc c1 br bt e coef 0 0 r (wrap_theta bt th).
(** deriv, 189-196 and 272-288 (one point) *)
Definition derivative (c1 : nat) (br bt : bspace) (e : elements) (coef : list R) (dr dt : nat) (r th : R) : res R :=
  eval_no_bc c1 br bt e coef dr dt r th.

(** ** PolarSplines::integrals, polar_bsplines.hpp:763-838; [rint], [tint] are what ddc::integrals
    stores for the nbasis() radial and the size() poloidal elements; for C = -1 there is no singular
    function.  The reduction of line 810 is a sum over the index pairs. *)
Definition singular_integral (c1 np : nat) (e : elements) (rint tint : list R) (k : nat) : res R :=
  for_res c1 (fun i s => for_res np (fun j s =>
    let* a := rd_el e c1 np k i j in
    let* x := rd rint (Z.of_nat i) in
    let* y := rd tint (Z.of_nat j) in Ok (s + a * x * y)) s) 0.
Definition tensor_integral (c1 nt : nat) (rint tint : list R) (idx : nat) : res R :=
  let* (ir, it) := get_2d_index c1 nt (Z.of_nat idx) in
  let* x := rd rint ir in let* y := rd tint it in Ok (x * y).
Definition polar_integrals (c1 : nat) (br bt : bspace) (e : elements) (rint tint : list R) : res (list R) :=
  let ns := n_singular c1 in
  let* s := map_res (singular_integral c1 (b_size bt) e rint tint) (seq 0 ns) in
  let* t := map_res (tensor_integral c1 (nbasis_t bt) rint tint) (seq ns (polar_nbasis c1 br bt - ns)) in
  Ok (s ++ t).
