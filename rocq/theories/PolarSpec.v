(** Specification vocabulary for the advection on a poloidal plane. *)
From Verif Require Export PolarModel AdvSpec TimeSpec MappingSpec.
Open Scope R_scope.

(** an angle brought into [tmin, tmin + len) *)
Definition wrap (tmin len t : R) : R := t - IZR (Int_part ((t - tmin) / len)) * len.
(** the logical coordinates of a point of the pseudo-physical plane: the O-point for the points closer to
    it than 1e-15, otherwise the inverse mapping with the angle in the angular domain *)
Definition logical (su : polar_setup) (p : R * R) : R * R :=
  if Rlt_dec (norm_inf_coord (ksub p (ps_to_pc su (0, 0)))) tiny then (0, 0)
  else (fst (ps_of_pc su p), wrap (ps_tmin su) (ps_tlen su) (snd (ps_of_pc su p))).
(** the pair (L, L^{-1}) of changes of coordinates is made of polar coordinates: the inverse gives
    non-negative radii, is a right inverse on the set [dom], a left inverse on [lgc] (logical points) up
    to turns, and the angle is periodic *)
Record polar_chart (su : polar_setup) (dom lgc : R * R -> Prop) : Prop := {
  ch_len : ps_tlen su = 2 * PI;
  ch_radius : forall p, 0 <= fst (ps_of_pc su p);
  ch_right : forall p, dom p -> ps_to_pc su (ps_of_pc su p) = p;
  ch_left : forall q, lgc q -> fst (ps_of_pc su (ps_to_pc su q)) = fst q /\
              congruent (2 * PI) (snd (ps_of_pc su (ps_to_pc su q))) (snd q);
  ch_turn : forall r t t', congruent (2 * PI) t t' -> ps_to_pc su (r, t) = ps_to_pc su (r, t');
  ch_centre : forall t, ps_to_pc su (0, t) = ps_to_pc su (0, 0) }.
(** the velocity of the characteristics at the logical points is [B], without failure *)
Definition velocity_is {C} (ai : interpolator2 C) (su : polar_setup) (c1 c2 : C) (B : R * R -> R * R) : Prop :=
  forall y, 0 <= fst y -> foot_velocity ai su c1 c2 y = Ok (B y).
(** the field in the pseudo-physical plane: followed backwards in time *)
Definition backward (su : polar_setup) (B : R * R -> R * R) : vec -> vec :=
  fun x => c2 (- fst (B (logical su (of_crd x)))) (- snd (B (logical su (of_crd x)))).
(** the textbook methods of C09 in the plane *)
Definition textbook (m : method) (F : vec -> vec) (x : vec) (dt : R) : vec :=
  match m with
  | Euler => euler vec nat F default_update x dt
  | RK2 => rk2 vec nat F default_update x dt
  | RK3 => rk3 vec nat F default_update x dt
  | RK4 => rk4 vec nat F default_update x dt
  | CrankNicolson _ _ => x
  end.
Definition explicit (m : method) : Prop := match m with CrankNicolson _ _ => False | _ => True end.
(** the order of the explicit methods *)
Definition order_of (m : method) : nat := match m with Euler => 1%nat | RK2 => 2%nat | RK3 => 3%nat | RK4 => 4%nat | CrankNicolson _ _ => 0%nat end.
(** the loops visit exactly the points of the batched grid *)
Definition all_triples (nb nr nt : nat) (order : list (nat * nat * nat)) : Prop :=
  forall ib ir it, In (ib, ir, it) order <-> (ib < nb)%nat /\ (ir < nr)%nat /\ (it < nt)%nat.
Definition good_schedule (nb nr nt : nat) (sc : schedule) : Prop :=
  all_triples nb nr nt (sc_init sc) /\ all_triples nb nr nt (sc_feet sc) /\
  all_lines nb (sc_unify sc) /\ all_lines nb (sc_check sc).
(** the angular index used for a point: the first one on the ring of the O-point *)
Definition own_angle (su : polar_setup) (ir it : nat) : nat :=
  if (ir =? 0)%nat then if Rlt_dec (Rabs (ps_r su 0)) tiny then 0%nat else it else it.
(** the interpolant of the values of a field, and its exactness for a function of the logical point *)
Definition interpolant2 {C} (itp : interpolator2 C) (su : polar_setup) (f : nat -> nat -> R) (y : R * R) : R :=
  i2_eval itp (i2_build itp (grid2 (ps_nr su) (ps_nt su) f)) y.
Definition exact2_at {C} (itp : interpolator2 C) (su : polar_setup) (g : R * R -> R) (y : R * R) : Prop :=
  interpolant2 itp su (fun ir it => g (ps_r su ir, ps_t su it)) y = g y.
(** the coefficients of the two components of an advection field in the batch [ib] *)
Definition coefs_x {C} (itp : interpolator2 C) (su : polar_setup) (adv : nat -> nat -> nat -> R * R) (ib : nat) : C :=
  i2_build itp (grid2 (ps_nr su) (ps_nt su) (fun ir it => fst (adv ib ir it))).
Definition coefs_y {C} (itp : interpolator2 C) (su : polar_setup) (adv : nat -> nat -> nat -> R * R) (ib : nat) : C :=
  i2_build itp (grid2 (ps_nr su) (ps_nt su) (fun ir it => snd (adv ib ir it))).
(** the foot of the characteristic that ends at the logical point [y] *)
Definition foot_from {C} (ai : interpolator2 C) (su : polar_setup) (fuel : nat) (m : method)
    (adv : nat -> nat -> nat -> R * R) (dt : R) (ib : nat) (y : R * R) : res (R * R) :=
  stepper_res (foot_velocity ai su (coefs_x ai su adv ib) (coefs_y ai su adv ib)) (foot_step su fuel) m y dt.
