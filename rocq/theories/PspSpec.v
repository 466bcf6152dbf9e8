(** Vocabulary of the polar-spline properties (C70 - C76), independent of the model's helpers. *)
From Verif Require Import Lib LagDerivSpec PspModel.
Open Scope R_scope.

(** ** B-splines: the Cox - de Boor recursion.  [cdb t m p j x], j = 0 .. p, is the value on the cell
    [t m, t (m+1)] of the B-spline of degree p which starts at the knot t (m + j - p) *)
Definition cdb_weight (t : nat -> R) (m p j : nat) (x : R) : R :=
  (x - t (m + j - p)%nat) / (t (m + j)%nat - t (m + j - p)%nat).
Fixpoint cdb (t : nat -> R) (m p j : nat) (x : R) : R :=
  match p with
  | O => if (j =? 0)%nat then 1 else 0
  | S q => (match j with O => 0 | S j' => cdb_weight t m p j x * cdb t m q j' x end)
           + (1 - cdb_weight t m p (S j) x) * cdb t m q j x
  end.
(** What DDC is trusted to do: [b] is the space of the B-splines of degree b_deg over the breakpoints
    t (b_deg), ..., t (b_deg + b_cells); for a coordinate of the domain, eval_basis and
    eval_basis_and_n_derivs return a cell which contains it and the n-th derivatives of the
    B-splines of this cell *)
Definition basis_values (b : bspace) (t : nat -> R) (n : nat) (x : R) (c : nat) (v : nat -> R) : Prop :=
  (c < b_cells b)%nat /\ t (b_deg b + c)%nat <= x <= t (b_deg b + c + 1)%nat /\
  forall j, (j <= b_deg b)%nat -> exists g, nth_derivative n (cdb t (b_deg b + c) (b_deg b) j) g /\ v j = g x.
Record bspline_space (b : bspace) (t : nat -> R) : Prop := {
  bs_cells : (1 <= b_cells b)%nat;
  bs_first : t (b_deg b) = b_rmin b;
  bs_last : t (b_deg b + b_cells b)%nat = b_rmax b;
  bs_breaks : forall i, (i < b_cells b)%nat -> t (b_deg b + i)%nat < t (b_deg b + i + 1)%nat;
  bs_mono : forall i j, (i <= j <= b_cells b + 2 * b_deg b)%nat -> t i <= t j;
  bs_eval : forall n x, b_rmin b <= x <= b_rmax b -> exists c v, b_eval b n x = Ok (c, v) /\ basis_values b t n x c v
}.
(** the radial space: the first knots are repeated (B-splines "with knots at the boundary") *)
Definition clamped (b : bspace) (t : nat -> R) : Prop := forall i, (i <= b_deg b)%nat -> t i = b_rmin b.

(** ** The spline with tensor-product coefficients [E], at a point where the radial and poloidal
    B-splines have the values (c_r, v_r) and (c_t, v_t) *)
Definition tensor_spline (br bt : bspace) (E : nat -> nat -> R) (pr pt : nat * (nat -> R)) : R :=
  Rsum (b_deg br + 1) (fun i => Rsum (b_deg bt + 1) (fun j => E (fst pr + i)%nat (fst pt + j)%nat * snd pr i * snd pt j)).
(** What DDC's 2D evaluator is trusted to do inside of the domain *)
Definition field2 (bt : bspace) (c : list R) (i j : nat) : R := nth (i * b_size bt + j) c 0.
Definition ddc_evaluator (br bt : bspace) (ev : nat -> nat -> list R -> R -> R -> res R) : Prop :=
  forall n m c r th pr pt, length c = (nbasis_r br * b_size bt)%nat ->
    b_rmin br <= r <= b_rmax br -> b_rmin bt <= th <= b_rmax bt ->
    b_eval br n r = Ok pr -> b_eval bt m th = Ok pt ->
    ev n m c r th = Ok (tensor_spline br bt (field2 bt c) pr pt).

(** ** A mapping polar splines can be built from: two coefficient fields of the right size which are
    periodic in theta, whose first row is the pole *)
Definition ctrl_x (bt : bspace) (m : dmap) : nat -> nat -> R := field2 bt (dm_x m).
Definition ctrl_y (bt : bspace) (m : dmap) : nat -> nat -> R := field2 bt (dm_y m).
Record polar_mapping (br bt : bspace) (m : dmap) : Prop := {
  pm_len_x : length (dm_x m) = (nbasis_r br * b_size bt)%nat;
  pm_len_y : length (dm_y m) = (nbasis_r br * b_size bt)%nat;
  pm_per_x : forall i j, (i < nbasis_r br)%nat -> (j < b_deg bt)%nat -> ctrl_x bt m i (j + b_cells bt)%nat = ctrl_x bt m i j;
  pm_per_y : forall i j, (i < nbasis_r br)%nat -> (j < b_deg bt)%nat -> ctrl_y bt m i (j + b_cells bt)%nat = ctrl_y bt m i j;
  pm_ev : ddc_evaluator br bt (dm_ev m)
}.
Definition row0_is (bt : bspace) (m : dmap) (x0 y0 : R) : Prop :=
  forall j, (j < b_size bt)%nat -> ctrl_x bt m 0 j = x0 /\ ctrl_y bt m 0 j = y0.
(** the domain checked by the constructor *)
Definition polar_domain (c1 : nat) (br bt : bspace) : Prop :=
  b_rmin br = 0 /\ b_rmax bt - b_rmin bt = 2 * PI /\ b_rmin bt <= 0 <= b_rmax bt /\ (c1 < b_cells br)%nat /\ (1 <= b_deg br)%nat.

(** ** Affine functions of (x, y) *)
Definition affine (a b c x y : R) : R := a + b * x + c * y.
(** the three corners of the equilateral triangle of centre (x0, y0) and circumradius tau *)
Definition corner_x (x0 tau : R) (k : nat) : R := match k with O => x0 + tau | _ => x0 - tau / 2 end.
Definition corner_y (y0 tau : R) (k : nat) : R :=
  match k with O => y0 | 1%nat => y0 + tau / 2 * sqrt 3 | _ => y0 - tau / 2 * sqrt 3 end.
(** (x, y) is in this triangle *)
Definition in_triangle (x0 y0 tau x y : R) : Prop :=
  exists l, (forall k, (k < 3)%nat -> 0 <= l k) /\ l 0%nat + l 1%nat + l 2%nat = 1 /\
    x = Rsum 3 (fun k => l k * corner_x x0 tau k) /\ y = Rsum 3 (fun k => l k * corner_y y0 tau k).

(** ** The tensor-product coefficients of a polar spline of continuity C = c1 - 1: the function [L] of
    the control points (cx, cy) in the first C+1 rows, the coefficients after the singular ones in
    the other rows (row by row, n_theta = nt per row, periodic) *)
Definition polar_coefficient (c1 nt : nat) (L : R -> R -> R) (cx cy : nat -> nat -> R) (coef : list R) (i j : nat) : R :=
  if (i <? c1)%nat then L (cx i j) (cy i j) else nth (c1 * (c1 + 1) / 2 + (i - c1) * nt + j mod nt) coef 0.
Definition ctrl (bt : bspace) (m : dmap) (i j : nat) : R * R := (ctrl_x bt m i j, ctrl_y bt m i j).
(** the control points of row 1 are not all the point (x0, y0) *)
Definition row1_differs (bt : bspace) (m : dmap) (x0 y0 : R) : Prop :=
  exists j, (j < b_size bt)%nat /\ ctrl bt m 1 j <> (x0, y0).
(** the knots of a periodic space *)
Definition periodic_knots (b : bspace) (t : nat -> R) : Prop :=
  forall i, (i <= 2 * b_deg b)%nat -> t (i + b_cells b)%nat = t i + b_length b.

(** Everything the constructor of a polar B-spline space of continuity C = c1 - 1 needs: two B-spline
    spaces (radial: clamped knots; poloidal: at least as many cells as the degree), a mapping whose
    first row of control points is the pole (x0, y0), more than C + 1 radial cells and, for C = 1,
    a second row of control points which is not reduced to the pole *)
Record polar_setup (c1 : nat) (br bt : bspace) (tr tt : nat -> R) (m : dmap) (x0 y0 : R) : Prop := {
  ps_r : bspline_space br tr;
  ps_clamped : clamped br tr;
  ps_t : bspline_space bt tt;
  ps_deg : (b_deg bt <= b_cells bt)%nat;
  ps_map : polar_mapping br bt m;
  ps_dom : polar_domain c1 br bt;
  ps_row0 : row0_is bt m x0 y0;
  ps_c1 : (c1 <= 2)%nat;
  ps_row1 : c1 = 2%nat -> row1_differs bt m x0 y0
}.
(** the smallest equilateral triangle centred at the pole which contains the control points of row 1 *)
Definition smallest_triangle (bt : bspace) (m : dmap) (x0 y0 tau : R) : Prop :=
  0 < tau /\ (forall j, (j < b_size bt)%nat -> in_triangle x0 y0 tau (ctrl_x bt m 1 j) (ctrl_y bt m 1 j)) /\
  forall u, 0 < u -> (forall j, (j < b_size bt)%nat -> in_triangle x0 y0 u (ctrl_x bt m 1 j) (ctrl_y bt m 1 j)) -> tau <= u.
(** strictly between two neighbouring breakpoints *)
Definition inside_cell (b : bspace) (t : nat -> R) (x : R) : Prop :=
  exists c, (c < b_cells b)%nat /\ t (b_deg b + c)%nat < x < t (b_deg b + c + 1)%nat.
