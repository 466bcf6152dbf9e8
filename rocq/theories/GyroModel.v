(** Model of src/gyroaverage/gyroaverage_operator.hpp.
    The spline builder and evaluator (DDC) are an [interpolator2]: nodal values to coefficients, coefficients
    and a logical point to a value (boundary rule included).  A field over (r, theta, batch) is a function of
    the three positions (batch first).  The coordinate transformation [gs_to_log] and the mapping returned by
    its get_inverse_mapping, [gs_to_phys], act on pairs.  Real arithmetic is exact; the number of gyro points is
    positive when the division of line 225 is to mean anything (0.0/0 is NaN in the source: here x / 0). *)
From Verif Require Export PolarModel MappingModel.
Open Scope R_scope.

(** 105-125: the members; 39-43: the grid *)
Record gyro_setup := {
  gs_nr : nat; gs_nt : nat;
  gs_r : nat -> R; gs_t : nat -> R;          (* ddc::coordinate of the grid points *)
  gs_rho : nat -> nat -> R;                  (* m_rho_L *)
  gs_to_log : pt -> pt;                      (* m_coordinate_transform *)
  gs_to_phys : pt -> pt;                     (* its get_inverse_mapping() *)
  gs_points : nat }.                         (* m_nb_gyro_points *)

Definition pair_map (m : mapping) (p : pt) : pt :=
  let q := m_apply m (c2 (fst p) (snd p)) in (q 0%nat, q 1%nat).

Section Gyro.
Context {C : Type}.
Variable ai : interpolator2 C.
Variable gs : gyro_setup.

(** 207-216: position on the orbit; CircularToCartesian with the gyrocentre as O-point *)
Definition gyro_alpha (k : nat) : R := PI * 2 / INR (gs_points gs) * INR k.
Definition gyro_position (ir it k : nat) : pt :=
  let gyrocentre := gs_to_phys gs (gs_r gs ir, gs_t gs it) in
  pair_map (circular (fst gyrocentre) (snd gyrocentre)) (gs_rho gs ir it, gyro_alpha k).

(** 204-225 *)
Definition gyro_average (coef : C) (ir it : nat) : R :=
  for_loop (gs_points gs) (fun k sum => sum + i2_eval ai coef (gs_to_log gs (gyro_position ir it k))) 0
  / INR (gs_points gs).

(** 183-232: one batch; [order]: the order in which the parallel loop visits the (r, theta) points, [corder]:
    the order of the final copy of line 229-231.  [A] is the content of sub_A when the batch is processed. *)
Definition gyro_batch (order : list (nat * nat)) (corder : list nat) (ib : nat) (A : nat -> nat -> R)
           (Abar : nat -> nat -> nat -> R) : nat -> nat -> nat -> R :=
  let coef := i2_build ai (grid2 (gs_nr gs) (gs_nt gs) A) in
  let Abar := fold_left (fun F p => upd3 F ib (fst p) (snd p) (gyro_average coef (fst p) (snd p))) order Abar in
  fold_left (fun F ir => upd3 F ib ir (gs_nt gs - 1) (F ib ir 0%nat)) corder Abar.

(** 160-233: operator(); [A_of] returns the input field given the current content of the output field, so that
    [fun _ => A] is the call with distinct fields and [fun F => F] the call in place. *)
Definition gyro_operator (border : list nat) (order : nat -> list (nat * nat)) (corder : nat -> list nat)
           (A_of : (nat -> nat -> nat -> R) -> nat -> nat -> nat -> R) (Abar : nat -> nat -> nat -> R) :=
  fold_left (fun F ib => gyro_batch (order ib) (corder ib) ib (A_of F ib) F) border Abar.
End Gyro.

(** The geometry of the operator's own tests: CartesianToCircular with O-point (ox, oy). *)
Definition circular_setup (ox oy : R) (nr nt : nat) (r t : nat -> R) (rho : nat -> nat -> R) (n : nat) : gyro_setup :=
  {| gs_nr := nr; gs_nt := nt; gs_r := r; gs_t := t; gs_rho := rho;
     gs_to_log := pair_map (cart_circ ox oy); gs_to_phys := pair_map (circular ox oy); gs_points := n |}.
