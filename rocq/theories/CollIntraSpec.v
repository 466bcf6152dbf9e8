(** Specification vocabulary for the intra-species collision operator. *)
From Verif Require Export CollIntraModel BatchSpec XVxSpec.
Open Scope R_scope.

(** derivative at x0 of the parabola through (xm, gm), (x0, g0), (xp, gp) *)
Definition d3 (xm x0 xp gm g0 gp : R) : R :=
  ((gp - g0) / (xp - x0) * (x0 - xm) + (g0 - gm) / (x0 - xm) * (xp - x0)) / (xp - xm).

(** values with the threshold at the two ghost points: index 0 and n + 1 *)
Definition ghosted (n : nat) (t : R) (f : nat -> R) (k : nat) : R :=
  if (k =? 0)%nat then t else if (k =? n + 1)%nat then t else f (k - 1)%nat.

(** the discretised collision operator d/dv (D df/dv - Nu f) at ghosted point k >= 1: the derivative of
    the flux is taken through the two mid-points and the point itself *)
Definition coll_op (g D Nu : nat -> R) (Dmid : nat -> R) (F : nat -> R) (k : nat) : R :=
  let xm := (g (k - 1)%nat + g k) / 2 in
  let xp := (g k + g (k + 1)%nat) / 2 in
  let Gm := Dmid (k - 1)%nat * ((F k - F (k - 1)%nat) / (g k - g (k - 1)%nat)) in
  let Gp := Dmid k * ((F (k + 1)%nat - F k) / (g (k + 1)%nat - g k)) in
  let G0 := D k * d3 (g (k - 1)%nat) (g k) (g (k + 1)%nat) (F (k - 1)%nat) (F k) (F (k + 1)%nat) in
  d3 xm (g k) xp Gm G0 Gp
  - d3 (g (k - 1)%nat) (g k) (g (k + 1)%nat) (Nu (k - 1)%nat * F (k - 1)%nat) (Nu k * F k) (Nu (k + 1)%nat * F (k + 1)%nat).

(** Crank-Nicolson *)
Definition crank_nicolson_step (n : nat) (op : (nat -> R) -> nat -> R) (t dt : R) (f x : nat -> R) : Prop :=
  forall i, (i < n)%nat ->
    x i - f i = dt / 2 * (op (ghosted n t f) (i + 1)%nat + op (ghosted n t x) (i + 1)%nat).

(** ghosted points: the grid, with the first and the last cells repeated outside *)
Definition ghosted_grid (pts : list R) (k : nat) : R :=
  let n := length pts in
  if (k =? 0)%nat then 2 * nth 0 pts 0 - nth 1 pts 0
  else if (k =? n + 1)%nat then 2 * nth (n - 1) pts 0 - nth (n - 2) pts 0
  else nth (k - 1) pts 0.

Definition is_maxwellian (f : R -> R) (n V T : R) : Prop := forall v, f v = maxwellian n T V v.

(** what the two ends of the velocity grid exchange with the outside, over a uniform step h *)
Definition boundary_flux (n : nat) (Nu Dm F : nat -> R) (h : R) : R :=
  (Dm n * (F (n + 1)%nat - F n) - Dm 0%nat * (F 1%nat - F 0%nat)) / (h * h)
  - (Nu (n + 1)%nat * F (n + 1)%nat + Nu n * F n - Nu 1%nat * F 1%nat - Nu 0%nat * F 0%nat) / (2 * h).
