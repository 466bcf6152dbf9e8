(** Specification for the interface derivatives (C68, C69). *)
From Verif Require Export IfdModel.
Open Scope R_scope.

(** The [k]-th interpolation point of a patch counted from the interface, and its distance to the interface *)
Definition point_away (p : side) (k : nat) : R :=
  match sd_ext p with FRONT => nth k (sd_x p) 0 | BACK => nth (length (sd_x p) - 1 - k) (sd_x p) 0 end.
Definition dist (p : side) (k : nat) : R := Rabs (point_away p k - point_away p 0).
(** distance of the far end of the patch *)
Definition far (p : side) : R := dist p (length (sd_x p) - 1).
(** The cells: without extra point every interpolation point is a break point; with an extra point in the last
    cell, the last but one interpolation point (away from the interface) is not *)
Definition cells (p : side) : nat := (length (sd_x p) - if sd_greville p then 2 else 1)%nat.
Definition break_dist (p : side) (k : nat) : R := if (k <? cells p)%nat then dist p k else far p.

(** the coordinates increase, and there is at least one cell *)
Definition ordered (p : side) : Prop :=
  (forall i j, (i < j < length (sd_x p))%nat -> nth i (sd_x p) 0 < nth j (sd_x p) 0) /\ (1 <= cells p)%nat.
(** The break points of the B-splines: for a range with an extra point the other points of the range; otherwise
    the points of the range, followed (on the side away from the interface) by other break points when the
    range is a reduced one *)
Definition breaks_are_points (p : side) : Prop :=
  if sd_greville p then
    sd_breaks p = match sd_ext p with
                  | FRONT => firstn (length (sd_x p) - 2) (sd_x p) ++ [nth (length (sd_x p) - 1) (sd_x p) 0]
                  | BACK => nth 0 (sd_x p) 0 :: skipn 2 (sd_x p)
                  end
  else exists l, sd_breaks p = match sd_ext p with FRONT => sd_x p ++ l | BACK => l ++ sd_x p end.
(** the number of points agrees with the number of cells *)
Definition sizes_agree (p : side) : Prop :=
  (2 <= length (sd_breaks p))%nat /\ length (sd_x p) = (length (sd_breaks p) + if sd_greville p then 1 else 0)%nat.
Definition uniform_step (p : side) (h : R) : Prop :=
  0 < h /\ forall i, (i < length (sd_x p))%nat -> nth i (sd_x p) 0 = nth 0 (sd_x p) 0 + INR i * h.

(** The global mesh: interface at 0, patch 1 on the left, patch 2 on the right, whatever the orientation of the
    coordinates of the patches.  A cubic spline [s] on it, of derivative [d]: a cubic polynomial on every cell,
    twice differentiable everywhere (outside of the mesh it is any extension). *)
Definition cubic_on (s : R -> R) (a b : R) : Prop :=
  exists c0 c1 c2 c3, forall x, a <= x <= b -> s x = c0 + c1 * x + c2 * x ^ 2 + c3 * x ^ 3.
Record global_spline (p1 p2 : side) (s d : R -> R) : Prop := {
  gs_deriv : forall x, derivable_pt_lim s x (d x);
  gs_second : forall x, exists l, derivable_pt_lim d x l;
  gs_left : forall k, (k < cells p1)%nat -> cubic_on s (- break_dist p1 (k + 1)) (- break_dist p1 k);
  gs_right : forall k, (k < cells p2)%nat -> cubic_on s (break_dist p2 k) (break_dist p2 (k + 1)) }.
(** its values at the interpolation points of the two patches *)
Definition values_of (p1 p2 : side) (s : R -> R) (f1 f2 : list R) : Prop :=
  length f1 = length (sd_x p1) /\ length f2 = length (sd_x p2) /\
  (forall i, (i < length (sd_x p1))%nat -> nth i f1 0 = s (- Rabs (nth i (sd_x p1) 0 - point_away p1 0))) /\
  (forall i, (i < length (sd_x p2))%nat -> nth i f2 0 = s (Rabs (nth i (sd_x p2) 0 - point_away p2 0))).

(** The documented relation: s'(X_I) = c + a s'(X_{I+1}) + b s'(X_{I-1}), where a and b are the coefficients of the
    patches 2 and 1 and c comes from the function values *)
Definition relation_holds (p1 p2 : side) (c : slot) (s d : R -> R) : Prop :=
  forall f1 f2, values_of p1 p2 s f1 f2 ->
    exists v, get_function_coefficients p1 p2 c f1 f2 = Ok v /\
      d 0 = v + get_coeff_deriv_patch_2 c * d (far p2) + get_coeff_deriv_patch_1 c * d (- far p1).
