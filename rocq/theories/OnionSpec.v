(** Specification of the onion geometry (C54), independent of the locator's loop. *)
From Verif Require Export OnionModel.
Open Scope R_scope.

(** the j-th basis function (or its derivative) at x: zero outside the window of non-zero functions *)
Definition basis_fun (b : basis) (d : bool) (j : nat) (x : R) : R :=
  match b_eval b d x with
  | Some (jmin, vals) => if ((jmin <=? j) && (j <=? jmin + b_deg b))%nat%bool then vals (j - jmin)%nat else 0
  | None => 0
  end.

(** DDC's contract on the closed domain: the window lies in the coefficients *)
Definition basis_ok (b : basis) : Prop :=
  0 < b_len b /\
  forall d x, b_rmin b <= x <= b_rmin b + b_len b ->
    exists jmin vals, b_eval b d x = Some (jmin, vals) /\ (jmin + b_deg b < b_n b)%nat.

(** the tensor product spline: sum over all the coefficients *)
Definition spline_value (p : opatch) (s : nat -> nat -> R) (d1 d2 : bool) (r t : R) : R :=
  Rsum (b_n (o_b1 p)) (fun i => Rsum (b_n (o_b2 p)) (fun j =>
    s i j * basis_fun (o_b1 p) d1 i r * basis_fun (o_b2 p) d2 j t)).

(** a patch: r non periodic with the B-splines on [rmin, rmax], theta periodic; wider than the
    tolerance of the constructor *)
Definition patch_ok (p : opatch) : Prop :=
  basis_ok (o_b1 p) /\ basis_ok (o_b2 p) /\ b_per (o_b1 p) = false /\ b_per (o_b2 p) = true /\
  b_rmin (o_b1 p) = o_rmin p /\ b_rmin (o_b1 p) + b_len (o_b1 p) = o_rmax p /\
  / 10 ^ 14 < o_rmax p - o_rmin p.

(** all the patches share the same interval of angles *)
Definition same_theta (ps : list opatch) (tmin tlen : R) : Prop :=
  forall p, In p ps -> b_rmin (o_b2 p) = tmin /\ b_len (o_b2 p) = tlen.

(** consecutive rings: the outer radius of each patch is the inner radius of the next one *)
Definition rings (ps : list opatch) : Prop :=
  forall i p q, nth_error ps i = Some p -> nth_error ps (S i) = Some q -> o_rmin q = o_rmax p.

(** ... or nearly so *)
Definition nearly_rings (ps : list opatch) : Prop :=
  forall i p q, nth_error ps i = Some p -> nth_error ps (S i) = Some q ->
    Rabs (o_rmin q - o_rmax p) <= / 10 ^ 14.

(** radius r lies in the k-th ring: [rmin, rmax), the last ring being closed *)
Definition in_ring (ps : list opatch) (k : nat) (r : R) : Prop :=
  exists p, nth_error ps k = Some p /\ o_rmin p <= r /\
    (r < o_rmax p \/ (r = o_rmax p /\ S k = length ps)).

Definition first_radius (ps : list opatch) : R := match ps with [] => 0 | p :: _ => o_rmin p end.
Definition last_radius (ps : list opatch) : R := o_rmax (last ps (OPatch 0 0 (Basis false 0 0 0 0 (fun _ _ => None) (fun _ => 0)) (Basis false 0 0 0 0 (fun _ _ => None) (fun _ => 0)))).

(** x and y differ by a multiple of the period *)
Definition same_angle (period x y : R) : Prop := exists k : Z, x = y + IZR k * period.

(** every patch is wider than the tolerance / satisfies [patch_ok] *)
Definition wide (ps : list opatch) : Prop := forall p, In p ps -> / 10 ^ 14 < o_rmax p - o_rmin p.
Definition all_ok (ps : list opatch) : Prop := forall p, In p ps -> patch_ok p.

(** m is the largest of 0 and the elements of l *)
Definition is_max (l : list R) (m : R) : Prop := (forall x, In x l -> x <= m) /\ (m = 0 \/ In m l) /\ 0 <= m.
