(** Model of the one dimensional semi-Lagrangian advections of src/advection:
    BslAdvectionSpatial, BslAdvectionVelocity, BslAdvection1D and NullAdvectionVelocity.
    Fields are functions of their indices (species, line of the batch, point of the advected grid); a
    write replaces one value.  The loops of the code (parallel_for_each) are run in the order given by
    an argument; the batched builders and evaluators of the interpolation (DDC or src/interpolation)
    are applied line by line.  Real arithmetic is exact. *)
From Verif Require Export Lib TimeModel.
Open Scope R_scope.

(** A builder and an evaluator of the values of one line.  The builder takes the optional derivatives at
    both ends (ddc::SplineBuilder, identity_interpolation_builder.hpp 90-126). *)
Record interpolator (C : Type) := {
  i_build : option (list R) -> option (list R) -> list R -> C;
  i_eval : C -> R -> R }.
Arguments i_build {C}. Arguments i_eval {C}.

(** the values of a field of [n] points on a line *)
Definition line (n : nat) (f : nat -> R) : list R := map f (seq 0 n).

Section Lines.
  Context {C : Type} (itp : interpolator C) (n nb : nat).
  (** m_function_builder(coefs, values): all the lines of the batch *)
  Definition build_lines (f : nat -> nat -> R) (coefs : nat -> C) : nat -> C :=
    fun ib => if (ib <? nb)%nat then i_build itp None None (line n (f ib)) else coefs ib.
  (** m_function_evaluator(values, feet, coefs) *)
  Definition eval_lines (coefs : nat -> C) (feet f : nat -> nat -> R) : nat -> nat -> R :=
    fun ib ix => if ((ib <? nb) && (ix <? n))%nat then i_eval itp (coefs ib) (feet ib ix) else f ib ix.
End Lines.

(** The state of the species loop: allfdistribu and the two preallocated buffers *)
Record adv_state (C : Type) := {
  a_f : nat -> nat -> nat -> R; a_feet : nat -> nat -> R; a_coefs : nat -> C }.
Arguments a_f {C}. Arguments a_feet {C}. Arguments a_coefs {C}.

Section Advections.
  Context {C : Type} (itp : interpolator C).
  (** mass(isp), charge(isp), ielec(): species_info.hpp *)
  Variables (mass charge : nat -> R) (ielec : nat).
  (** [n] points of coordinates [x], [nb] lines *)
  Variables (n nb : nat) (x : nat -> R).

  (** bsl_advection_x.hpp 119-121, bsl_advection_vx.hpp 125-127: the points of one line *)
  Definition line_feet (dx : R) (ib : nat) (feet : nat -> nat -> R) : nat -> nat -> R :=
    fold_left (fun ft ix => upd ft ib (upd (ft ib) ix (x ix - dx))) (seq 0 n) feet.

  (** bsl_advection_x.hpp 105-128: one iteration of the species loop; [vel ib] is the coordinate of
      IdxV(ib), [order] the order in which the lines are visited *)
  Definition spatial_species (vel : nat -> R) (dt : R) (order : list nat) (isp : nat) (st : adv_state C)
    : adv_state C :=
    let sqrt_me_on_mspecies := sqrt (mass ielec / mass isp) in
    let feet := fold_left (fun ft ib =>
                  let dx := sqrt_me_on_mspecies * dt * vel ib in line_feet dx ib ft) order (a_feet st) in
    let coefs := build_lines itp n nb (a_f st isp) (a_coefs st) in
    {| a_f := upd (a_f st) isp (eval_lines itp n nb coefs feet (a_f st isp));
       a_feet := feet; a_coefs := coefs |}.
  (** bsl_advection_x.hpp 81-132: operator(); [feet0], [coefs0]: the uninitialised buffers *)
  Definition spatial_advection (ns : nat) (vel : nat -> R) (dt : R) (order : nat -> list nat)
      (feet0 : nat -> nat -> R) (coefs0 : nat -> C) (f : nat -> nat -> nat -> R) : nat -> nat -> nat -> R :=
    a_f (fold_left (fun st isp => spatial_species vel dt (order isp) isp st) (seq 0 ns)
           {| a_f := f; a_feet := feet0; a_coefs := coefs0 |}).

  (** bsl_advection_vx.hpp 109-134: one iteration; [efield (sp ib)] is electric_field(IdxSpatial(ib)) *)
  Definition velocity_species (efield : nat -> R) (spatial : nat -> nat) (dt : R) (order : list nat)
      (isp : nat) (st : adv_state C) : adv_state C :=
    let charge_proxy := charge isp in
    let sqrt_me_on_mspecies := sqrt (mass ielec / mass isp) in
    let feet := fold_left (fun ft ib =>
                  let ix := spatial ib in
                  let dvx := charge_proxy * sqrt_me_on_mspecies * dt * efield ix in
                  line_feet dvx ib ft) order (a_feet st) in
    let coefs := build_lines itp n nb (a_f st isp) (a_coefs st) in
    {| a_f := upd (a_f st) isp (eval_lines itp n nb coefs feet (a_f st isp));
       a_feet := feet; a_coefs := coefs |}.
  (** bsl_advection_vx.hpp 82-138: operator() *)
  Definition velocity_advection (ns : nat) (efield : nat -> R) (spatial : nat -> nat) (dt : R)
      (order : nat -> list nat) (feet0 : nat -> nat -> R) (coefs0 : nat -> C)
      (f : nat -> nat -> nat -> R) : nat -> nat -> nat -> R :=
    a_f (fold_left (fun st isp => velocity_species efield spatial dt (order isp) isp st) (seq 0 ns)
           {| a_f := f; a_feet := feet0; a_coefs := coefs0 |}).

  (** nulladvectionvx.hpp 29-35 *)
  Definition null_advection (efield : nat -> R) (dt : R) (f : nat -> nat -> nat -> R) := f.
End Advections.

(** The time integration of one coordinate: the scalar update of src/timestepper with the default
    serial_y_update (itimestepper.hpp 291-299); the norms are absolute values *)
Inductive method := Euler | RK2 | RK3 | RK4 | CrankNicolson (max_counter : Z) (eps : R).
Definition foot_update (m : method) (dy : R -> R) (y dt : R) : R :=
  let dy1 := fun (y : R) (_ : unit) => dy y in
  let up := fun (y : R) (k : unit -> R) (h : R) => y + k tt * h in
  match m with
  | Euler => euler R unit dy1 up y dt
  | RK2 => rk2 R unit dy1 up y dt
  | RK3 => rk3 R unit dy1 up y dt
  | RK4 => rk4 R unit dy1 up y dt
  | CrankNicolson mc eps =>
      snd (crank_nicolson R unit dy1 up (fun a b => Rabs (a - b)) Rabs mc eps y dt)
  end.

(** bsl_advection_1d.hpp 253-349: BslAdvection1D::operator().  [nb] lines of the function and [nba] lines
    of the advection field, [proj ib] = IdxBatchAdvecField(idx) for a point of line [ib]; the optional
    derivatives are given per line; [order]: the order of the parallel loop over the points (line, ix). *)
Definition advection_1d {C A : Type} (fun_itp : interpolator C) (adv_itp : interpolator A)
    (m : method) (n : nat) (x : nat -> R) (proj : nat -> nat) (adv : nat -> nat -> R) (dt : R)
    (amin amax fmin fmax : option (nat -> list R)) (order : list (nat * nat)) (f : nat -> nat -> R)
  : nat -> nat -> R :=
  (* 281-285 *)
  let at_line (d : option (nat -> list R)) ib := option_map (fun g => g ib) d in
  let adv_coefs ib := i_build adv_itp (at_line amin ib) (at_line amax ib) (line n (adv ib)) in
  (* 298-302 *)
  let fun_coefs ib := i_build fun_itp (at_line fmin ib) (at_line fmax ib) (line n (f ib)) in
  (* 323-344 *)
  fold_left (fun g idx =>
    let '(ib, ix) := idx in
    let foot := foot_update m (fun y => i_eval adv_itp (adv_coefs (proj ib)) y) (x ix) (- dt) in
    upd g ib (upd (g ib) ix (i_eval fun_itp (fun_coefs ib) foot))) order f.
