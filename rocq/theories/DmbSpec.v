(** Vocabulary of the properties of the builders of discrete mappings (C102 - C104). *)
From Verif Require Import Lib LagDerivSpec MappingModel PspModel PspSpec DmbModel.
Open Scope R_scope.

(** the 1D spline with coefficients [e] at a point where the B-splines have the values [p] *)
Definition spline1 (b : bspace) (e : nat -> R) (p : nat * (nat -> R)) : R :=
  Rsum (b_deg b + 1) (fun i => e (fst p + i)%nat * snd p i).
(** periodic coefficients of the poloidal splines *)
Definition periodic_coefs (b : bspace) (e : nat -> R) : Prop := forall j, (j < b_deg b)%nat -> e (j + b_cells b)%nat = e j.
(** the points determine the splines (Schoenberg - Whitney): only the zero spline is zero at all of them *)
Definition determines (b : bspace) (pts : list R) (admissible : (nat -> R) -> Prop) : Prop :=
  forall e, admissible e ->
    (forall x p, In x pts -> b_eval b 0 x = Ok p -> spline1 b e p = 0) ->
    forall i, (i < b_size b)%nat -> e i = 0.

(** What DDC's 2D builder is trusted to do: for any values on the grid it returns the coefficients, periodic in
    theta, of a spline with these values at the points of the grid *)
Definition ddc_builder (br bt : bspace) (bu : builder2) : Prop :=
  forall vals, length vals = (length (bu_r bu) * length (bu_t bu))%nat ->
  exists c, bu_build bu vals = Ok c /\ length c = (nbasis_r br * b_size bt)%nat /\
    (forall i, (i < nbasis_r br)%nat -> periodic_coefs bt (field2 bt c i)) /\
    forall i j r th pr pt, nth_error (bu_r bu) i = Some r -> nth_error (bu_t bu) j = Some th ->
      b_eval br 0 r = Ok pr -> b_eval bt 0 th = Ok pt ->
      tensor_spline br bt (field2 bt c) pr pt = nth (i * length (bu_t bu) + j) vals 0.

(** the setting: two spaces of B-splines, the radial one with repeated first knots; interpolation points in the
    domain which determine the splines, the radial ones starting at r_min; DDC's builder and evaluator *)
Record builder_setup (br bt : bspace) (tr tt : nat -> R) (bu : builder2)
    (ev : nat -> nat -> list R -> R -> R -> res R) : Prop := {
  bu_space_r : bspline_space br tr;
  bu_clamped : clamped br tr;
  bu_space_t : bspline_space bt tt;
  bu_first : nth_error (bu_r bu) 0 = Some (b_rmin br);
  bu_in_r : forall r, In r (bu_r bu) -> b_rmin br <= r <= b_rmax br;
  bu_in_t : forall th, In th (bu_t bu) -> b_rmin bt <= th <= b_rmax bt;
  bu_det_r : determines br (bu_r bu) (fun _ => True);
  bu_det_t : determines bt (bu_t bu) (periodic_coefs bt);
  bu_ddc : ddc_builder br bt bu;
  bu_ev : ddc_evaluator br bt ev
}.
(** a parallel loop over the grid: every point once, in any order; fields of values of the size of the grid *)
Definition grid_loop (bu : builder2) (order : list (nat * nat)) (uninit : list R * list R) : Prop :=
  NoDup order /\ (forall i j, In (i, j) order <-> (i < length (bu_r bu))%nat /\ (j < length (bu_t bu))%nat) /\
  length (fst uninit) = (length (bu_r bu) * length (bu_t bu))%nat /\
  length (snd uninit) = (length (bu_r bu) * length (bu_t bu))%nat.

(** the point of the plane the analytical mapping gives *)
Definition image (analytical : crd -> crd) (r th : R) : R * R := (analytical (c2 r th) 0%nat, analytical (c2 r th) 1%nat).
(** the mapping goes through the image of each point of the grid *)
Definition fits (m : dmap) (bu : builder2) (analytical : crd -> crd) : Prop :=
  forall r th, In r (bu_r bu) -> In th (bu_t bu) -> dm_apply m r th = Ok (image analytical r th).
(** the analytical mapping sends the first circle of the grid to one point *)
Definition has_pole (br : bspace) (bu : builder2) (analytical : crd -> crd) (x0 y0 : R) : Prop :=
  forall th, In th (bu_t bu) -> image analytical (b_rmin br) th = (x0, y0).
(** same control points *)
Definition same_control_points (br bt : bspace) (m m' : dmap) : Prop :=
  forall i j, (i < nbasis_r br)%nat -> (j < b_size bt)%nat -> ctrl bt m i j = ctrl bt m' i j.
(** an affine map of the plane *)
Definition affine_map (a11 a12 a21 a22 bx by_ : R) (p : crd) : crd :=
  c2 (bx + a11 * p 0%nat + a12 * p 1%nat) (by_ + a21 * p 0%nat + a22 * p 1%nat).
(** break points of n equal cells of [a, b] *)
Definition equal_cells (a b : R) (n : nat) (l : list R) : Prop :=
  length l = (n + 1)%nat /\ nth 0 l 0 = a /\ nth n l 0 = b /\
  forall i, (i < n)%nat -> nth (i + 1) l 0 - nth i l 0 = (b - a) / INR n.
(** the B-splines of a space live on the cells of these break points *)
Definition has_breaks (b : bspace) (t : nat -> R) (l : list R) : Prop :=
  b_cells b = (length l - 1)%nat /\ forall i, (i < length l)%nat -> t (b_deg b + i)%nat = nth i l 0.
(** value and derivative at x of the spline with coefficients [e] *)
Definition spline_has (b : bspace) (e : nat -> R) (n : nat) (x v : R) : Prop :=
  exists p, b_eval b n x = Ok p /\ v = spline1 b e p.
(** the spline with coefficients [e] takes the values of [f] at the points *)
Definition spline_through (b : bspace) (e : nat -> R) (pts : list R) (f : R -> R) : Prop :=
  periodic_coefs b e /\ forall x, In x pts -> spline_has b e 0 x (f x).
(** the mapping is (r, theta) -> (ox, oy) + r (c(theta), s(theta)) for the splines c, s with coefficients C, S, and
    its Jacobian is that of this function *)
Definition circular_form (br bt : bspace) (m : dmap) (ox oy : R) (C S : nat -> R) : Prop :=
  forall r th, b_rmin br <= r <= b_rmax br -> b_rmin bt <= th <= b_rmax bt ->
    exists c s dc ds, spline_has bt C 0 th c /\ spline_has bt S 0 th s /\ spline_has bt C 1 th dc /\ spline_has bt S 1 th ds /\
      dm_apply m r th = Ok (ox + r * c, oy + r * s) /\
      dm_jacobian m r th = Ok (r * (c * ds - s * dc)).
