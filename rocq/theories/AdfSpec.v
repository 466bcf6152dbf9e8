(** Vocabulary of the properties of the advection field (C82, C83), independent of the model's helpers. *)
From Verif Require Import Lib MappingModel MappingSpec PspModel PpfSpec AdfModel.
Open Scope R_scope.

(** the potential is differentiable along both coordinate lines at the point; [dr], [dt] *)
Definition slopes (ph : potential) (r th dr dt : R) : Prop := ph_r ph r th = Ok dr /\ ph_t ph r th = Ok dt.
(** the vector (-dy phi, dx phi) of the Cartesian gradient g *)
Definition rotated (g : R * R) : R * R := (- snd g, fst g).
(** [g] is the Cartesian gradient of the potential at the point (r, theta): the chain rule *)
Definition gradient_at (m : mapping) (ph : potential) (r th : R) (g : R * R) : Prop :=
  exists dr dt, slopes ph r th dr dt /\ cartesian_gradient m r th dr dt (fst g) (snd g).
(** [g] is the Cartesian gradient at the O-point: the radial derivative in the direction theta is g . dF/dr(0, theta) *)
Definition pole_slope (m : mapping) (ph : potential) (g : R * R) (th : R) : Prop :=
  exists x y d, m_Jc m 0 0 (c2 0 th) = Ok x /\ m_Jc m 1 0 (c2 0 th) = Ok y /\ ph_r ph 0 th = Ok d /\ d = fst g * x + snd g * y.
(** the images of the directions pi/4 and -pi/4 at the O-point are not parallel *)
Definition directions (m : mapping) : Prop :=
  exists x1 y1 x2 y2, m_Jc m 0 0 (c2 0 (PI / 4)) = Ok x1 /\ m_Jc m 1 0 (c2 0 (PI / 4)) = Ok y1 /\
    m_Jc m 0 0 (c2 0 (- PI / 4 + 2 * PI)) = Ok x2 /\ m_Jc m 1 0 (c2 0 (- PI / 4 + 2 * PI)) = Ok y2 /\ x1 * y2 - x2 * y1 <> 0.
(** linear interpolation between two vectors *)
Definition between (s : R) (u v : R * R) : R * R := ((1 - s) * fst u + s * fst v, (1 - s) * snd u + s * snd v).
(** the two derivatives of the potential are the partial derivatives of F o mapping at the point *)
Definition derivatives_of (m : mapping) (F : (nat -> R) -> R) (ph : potential) (r th : R) : Prop :=
  exists dr dt, slopes ph r th dr dt /\
    derivable_pt_lim (fun t => F (m_apply m (c2 t th))) r dr /\ derivable_pt_lim (fun t => F (m_apply m (c2 r t))) th dt.
(** F is a function of (x, y), differentiable with the gradient G *)
Record smooth_function (F : (nat -> R) -> R) (G : (nat -> R) -> R * R) : Prop := {
  sf_typed : forall q q', same_coord 2 q q' -> F q = F q' /\ G q = G q';
  sf_diff : forall q, exists D, (D 0%nat, D 1%nat) = G q /\ forall eps, 0 < eps -> exists delta, 0 < delta /\
    forall y, (forall i, (i < 2)%nat -> Rabs (y i - q i) < delta) ->
      Rabs (F y - F q - Rsum 2 (fun i => D i * (y i - q i))) <= eps * Rsum 2 (fun i => Rabs (y i - q i))
}.
(** the point (r, theta) = (0, theta) is the same point of the plane for every theta *)
Definition one_pole (m : mapping) : Prop := forall th th', same_coord 2 (m_apply m (c2 0 th)) (m_apply m (c2 0 th')).
(** the radial components of the Jacobian at the O-point are those of the discrete mapping [dm] *)
Definition same_centre_directions (m : mapping) (dm : dmap) : Prop :=
  forall th, m_Jc m 0 0 (c2 0 th) = dm_jacobian_component dm 0 0 0 th /\ m_Jc m 1 0 (c2 0 th) = dm_jacobian_component dm 1 0 0 th.
