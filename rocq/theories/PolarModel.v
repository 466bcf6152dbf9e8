(** Model of the semi-Lagrangian advection on a poloidal plane:
    src/advection/spline_polar_foot_finder.hpp and src/advection/bsl_advection_polar.hpp.
    Coordinates (r, theta) and (x, y) and the vectors at a point are pairs.  The builder and the evaluator
    of the 2D interpolation (DDC) are an abstract pair (build, eval).  The Kokkos loops visit their index
    range in any order.  Real arithmetic is exact. *)
From Verif Require Export Lib MappingModel TimeModel AdvModel.
Open Scope R_scope.

Notation pt := (R * R)%type (only parsing).
Definition of_crd (c : nat -> R) : pt := (c 0%nat, c 1%nat).
Definition to_crd (p : pt) : nat -> R := c2 (fst p) (snd p).

(** ** The scalar time steppers with callbacks that may fail.  The derivative type is DVector<X, Y>. *)
Definition kadd (a b : pt) : pt := (fst a + fst b, snd a + snd b).
Definition ksub (a b : pt) : pt := (fst a - fst b, snd a - snd b).
Definition kscal (s : R) (a : pt) : pt := (s * fst a, s * snd a).
(** l_norm_tools.hpp 26-32 *)
Definition norm_inf_coord (c : pt) : R := Rmax (Rmax 0 (Rabs (fst c))) (Rabs (snd c)).

Section ResSteppers.
Variable dy : pt -> res pt.
Variable y_update : pt -> pt -> R -> res pt.
(** euler.hpp 66-83 *)
Definition euler_res (y : pt) (dt : R) : res pt :=
  let* k1 := dy y in
  y_update y k1 dt.
(** rk2.hpp 70-99 *)
Definition rk2_res (y : pt) (dt : R) : res pt :=
  let y_prime := y in
  let* k1 := dy y in
  let* y_prime := y_update y_prime k1 (1 / 2 * dt) in
  let* k2 := dy y_prime in
  y_update y k2 dt.
(** rk3.hpp 70-117 *)
Definition rk3_res (y : pt) (dt : R) : res pt :=
  let y_prime := y in
  let* k1 := dy y in
  let* y_prime := y_update y_prime k1 (1 / 2 * dt) in
  let* k2 := dy y_prime in
  let k_total := ksub (kscal 2 k2) k1 in
  let y_prime := y in
  let* y_prime := y_update y_prime k_total dt in
  let* k3 := dy y_prime in
  let k_total := kadd (kadd k1 (kscal 4 k2)) k3 in
  y_update y k_total (dt / 6).
(** rk4.hpp 70-125 *)
Definition rk4_res (y : pt) (dt : R) : res pt :=
  let y_prime := y in
  let* k1 := dy y in
  let* y_prime := y_update y_prime k1 (1 / 2 * dt) in
  let* k2 := dy y_prime in
  let y_prime := y in
  let* y_prime := y_update y_prime k2 (1 / 2 * dt) in
  let* k3 := dy y_prime in
  let y_prime := y in
  let* y_prime := y_update y_prime k3 dt in
  let* k4 := dy y_prime in
  let k_total := kadd (kadd (kadd k1 (kscal 2 k2)) (kscal 2 k3)) k4 in
  y_update y k_total (dt / 6).
(** crank_nicolson.hpp 84-130; the do-while loop as in TimeModel.cn_loop *)
Fixpoint cn_loop_res (left : nat) (y_init k1 : pt) (dt eps : R) (y : pt) : res pt :=
  let* k_new := dy y in
  let k_total := kadd k1 k_new in
  let y_old := y in
  let y := y_init in
  let* y := y_update y k_total (1 / 2 * dt) in
  let not_converged := quot_ge (norm_inf_coord (ksub y_old y)) (norm_inf_coord y_old) eps in
  match left with
  | O => Ok y
  | S left1 => if not_converged then cn_loop_res left1 y_init k1 dt eps y else Ok y
  end.
Definition stepper_res (m : method) (y : pt) (dt : R) : res pt :=
  match m with
  | Euler => euler_res y dt
  | RK2 => rk2_res y dt
  | RK3 => rk3_res y dt
  | RK4 => rk4_res y dt
  | CrankNicolson max_counter eps =>
      let* k1 := dy y in cn_loop_res (Z.to_nat (max_counter - 1)) y k1 dt eps y
  end.
End ResSteppers.

(** ** SplinePolarFootFinder *)
Record interpolator2 (C : Type) := {
  i2_build : list (list R) -> C;      (* nodal values (rows in r) -> coefficients *)
  i2_eval : C -> pt -> R }.
Arguments i2_build {C}. Arguments i2_eval {C}.

(** the values of a field on the grid of [nr] by [nt] points *)
Definition grid2 (nr nt : nat) (f : nat -> nat -> R) : list (list R) :=
  map (fun ir => map (f ir) (seq 0 nt)) (seq 0 nr).

Record polar_setup := {
  (* m_logical_to_pseudo_physical and m_pseudo_physical_to_logical *)
  ps_to_pc : pt -> pt;
  ps_of_pc : pt -> pt;
  (* the advection field is given in the basis (X_adv, Y_adv): the two vector spaces are the same type *)
  ps_same : bool;
  (* m_pseudo_physical_to_physical.inv_jacobian_matrix *)
  ps_invJ : (nat -> R) -> res (nat -> nat -> R);
  (* rmax of the radial B-splines; front and length of the angular index range *)
  ps_rmax : R;
  ps_tmin : R;
  ps_tlen : R;
  (* sizes and coordinates of the grids *)
  ps_nr : nat; ps_nt : nat;
  ps_r : nat -> R; ps_t : nat -> R }.

Section FootFinder.
Context {C : Type}.
Variable ai : interpolator2 C.
Variable su : polar_setup.
(** bound of the iterations of the loops of restrict_to_idx_range (C18) *)
Variable fuel : nat.

(** 325-349: dy; [c1], [c2]: coefficients of the two components in the batch.  to_vector_space:
    vector_mapper.hpp 37-39 and 80-87 (result basis to argument basis, both contravariant). *)
Definition foot_velocity (c1 c2 : C) (foot : pt) : res pt :=
  let v := (i2_eval ai c1 foot, i2_eval ai c2 foot) in
  let advection_location_for_mapping := (Rmin (fst foot) (ps_rmax su), snd foot) in
  if ps_same su then Ok v
  else let* K := ps_invJ su (to_crd advection_location_for_mapping) in
       Ok (of_crd (mat_vec 2 K (to_crd v))).

(** 300, 352-366: update_function *)
Definition foot_step (foot_rtheta advection_field : pt) (dt : R) : res pt :=
  let coord_centre := ps_to_pc su (0, 0) in
  let coord_xy := ps_to_pc su foot_rtheta in
  let foot_xy := ksub coord_xy (kscal dt advection_field) in
  if Rlt_dec (norm_inf_coord (ksub foot_xy coord_centre)) tiny then Ok (0, 0)
  else
    let foot_rtheta := ps_of_pc su foot_xy in
    match restrict_to_idx_range fuel (ps_tmin su) (ps_tlen su) (snd foot_rtheta) with
    | Some t => Ok (fst foot_rtheta, t)
    | None => Ub
    end.

(** indices (batch, r, theta) *)
Definition upd3 {A} (f : nat -> nat -> nat -> A) (ib ir it : nat) (x : A) : nat -> nat -> nat -> A :=
  upd f ib (upd (f ib) ir (upd (f ib ir) it x)).
Fixpoint fold_res {A St} (f : St -> A -> res St) (l : list A) (s : St) : res St :=
  match l with [] => Ok s | a :: l => let* s := f s a in fold_res f l s end.

(** 436-457: unify_value_at_centre_pt *)
Definition unify_value_at_centre_pt (border : list nat) (values : nat -> nat -> nat -> pt) : nat -> nat -> nat -> pt :=
  if Rlt_dec (Rabs (ps_r su 0)) tiny
  then fold_left (fun v ib => fold_left (fun v it => upd3 v ib 0 it (v ib 0%nat 0%nat)) (seq 0 (ps_nt su)) v) border values
  else values.

(** 393-420: is_unified *)
Definition is_unified (border : list nat) (values : nat -> nat -> nat -> pt) : res unit :=
  if Rlt_dec (Rabs (ps_r su 0)) tiny
  then fold_res (fun _ ib => fold_res (fun _ it =>
         let d := ksub (values ib 0%nat it) (values ib 0%nat 0%nat) in
         if Req_EM_T (fst d) 0 then if Req_EM_T (snd d) 0 then Ok tt else AssertFail else AssertFail)
         (seq 0 (ps_nt su)) tt) border tt
  else Ok tt.

(** 276-377: operator(); [order]: order of the loop on the points, [border], [border']: of the loops on
    the batch *)
Definition find_feet (m : method) (order : list (nat * nat * nat)) (border border' : list nat)
    (adv : nat -> nat -> nat -> pt) (dt : R) (feet : nat -> nat -> nat -> pt) : res (nat -> nat -> nat -> pt) :=
  let coefs1 ib := i2_build ai (grid2 (ps_nr su) (ps_nt su) (fun ir it => fst (adv ib ir it))) in
  let coefs2 ib := i2_build ai (grid2 (ps_nr su) (ps_nt su) (fun ir it => snd (adv ib ir it))) in
  let* feet := fold_res (fun feet idx =>
      let '(ib, ir, it) := idx in
      let feet := upd3 feet ib ir it (ps_r su ir, ps_t su it) in
      let* y := stepper_res (foot_velocity (coefs1 ib) (coefs2 ib)) foot_step m (feet ib ir it) dt in
      Ok (upd3 feet ib ir it y)) order feet in
  let feet := unify_value_at_centre_pt border feet in
  let* _ := is_unified border' feet in
  Ok feet.

(** ** BslAdvectionPolar *)
Context {D : Type}.
Variable fi : interpolator2 D.
(** the schedule of one application *)
Record schedule := {
  sc_init : list (nat * nat * nat); sc_feet : list (nat * nat * nat);
  sc_unify : list nat; sc_check : list nat }.

(** bsl_advection_polar.hpp 165-204; [nb]: size of the batch, [feet0]: uninitialised feet *)
Definition advect_xy (m : method) (sc : schedule) (nb : nat) (feet0 : nat -> nat -> nat -> pt)
    (f : nat -> nat -> nat -> R) (adv : nat -> nat -> nat -> pt) (dt : R) : res (nat -> nat -> nat -> R) :=
  let feet := fold_left (fun feet idx => let '(ib, ir, it) := idx in upd3 feet ib ir it (ps_r su ir, ps_t su it))
                (sc_init sc) feet0 in
  let* feet := find_feet m (sc_feet sc) (sc_unify sc) (sc_check sc) adv dt feet in
  let coefs ib := i2_build fi (grid2 (ps_nr su) (ps_nt su) (f ib)) in
  Ok (fun ib ir it => if ((ib <? nb) && (ir <? ps_nr su) && (it <? ps_nt su))%nat
                      then i2_eval fi (coefs ib) (feet ib ir it) else f ib ir it).

(** the mapping of the advection operator: Jacobian matrix *)
Variable J : (nat -> R) -> nat -> nat -> R.
(** vector_mapper.hpp 115-155: copy_to_vector_space from the curvilinear to the Cartesian basis (65-70)
    on the radial indices from [from] on, all the angles, all the batch *)
Definition to_xy (from : nat) (a : nat -> nat -> nat -> pt) (xy : nat -> nat -> nat -> pt) : nat -> nat -> nat -> pt :=
  fun ib ir it => if (from <=? ir)%nat
                  then of_crd (mat_vec 2 (J (to_crd (ps_r su ir, ps_t su it))) (to_crd (a ib ir it)))
                  else xy ib ir it.

(** bsl_advection_polar.hpp 228-284; [xy0]: uninitialised field *)
Definition advect_rtheta_centre (m : method) (sc : schedule) (nb : nat) (feet0 xy0 : nat -> nat -> nat -> pt)
    (f : nat -> nat -> nat -> R) (a : nat -> nat -> nat -> pt) (centre : pt) (dt : R) : res (nat -> nat -> nat -> R) :=
  let* _ := check (Rltb (ps_r su 0) (/ 10 ^ 13)) in
  let xy := to_xy 1 a xy0 in
  let xy := fun ib ir it => if (ir =? 0)%nat then centre else xy ib ir it in
  advect_xy m sc nb feet0 f xy dt.

(** 307-403; [a0]: first radial index of the advection field, which has to hold the indices of the
    grid without the O-point.  The first ring needs a second radial point. *)
Definition advect_rtheta (m : method) (sc : schedule) (nb : nat) (feet0 xy0 : nat -> nat -> nat -> pt)
    (f : nat -> nat -> nat -> R) (a0 : nat) (a : nat -> nat -> nat -> pt) (dt : R) : res (nat -> nat -> nat -> R) :=
  let first_row_is_o_point := Rltb (ps_r su 0) (/ 10 ^ 13) in
  let* _ := check (first_row_is_o_point || (a0 =? 0)%nat) in
  let from := if first_row_is_o_point then 1%nat else 0%nat in
  if (a0 <=? from)%nat then
    let xy := to_xy from a xy0 in
    if first_row_is_o_point then
      if (2 <=? ps_nr su)%nat then
        let average ib := kscal (/ INR (ps_nt su)) (Rsum (ps_nt su) (fun it => fst (xy ib 1%nat it)),
                                                   Rsum (ps_nt su) (fun it => snd (xy ib 1%nat it))) in
        let xy := fun ib ir it => if (ir =? 0)%nat then average ib else xy ib ir it in
        advect_xy m sc nb feet0 f xy dt
      else Ub
    else advect_xy m sc nb feet0 f xy dt
  else Ub.
End FootFinder.

(** The pseudo-Cartesian domain: CircularToCartesian and its inverse; CombinedMapping with
    CartesianToCircular() (O-point at the origin) for the physical mapping [m1] (spline_polar_foot_finder.hpp
    240-258), [O0]: InvJacobianOPoint of m1 *)
Definition circ_to_pc (ox oy : R) (p : pt) : pt := of_crd (m_apply (circular ox oy) (to_crd p)).
Definition circ_of_pc (ox oy : R) (p : pt) : pt := of_crd (m_apply (cart_circ ox oy) (to_crd p)).
Definition cz_to_pc (c : czarny_par) (p : pt) : pt := of_crd (m_apply (czarny c) (to_crd p)).
Definition cz_of_pc (c : czarny_par) (p : pt) : pt := of_crd (cart_cz_apply c (to_crd p)).
Definition pc_invJ (eps : R) (O0 : nat -> nat -> R) (m1 : mapping) : (nat -> R) -> res (nat -> nat -> R) :=
  comb_invJ 2 eps O0 m1 (circular 0 0).
