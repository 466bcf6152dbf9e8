(** The Lagrange interpolation as the interpolator of an advection. *)
From Verif Require Export AdvModel LagrangeModel.
Open Scope R_scope.

(** identity_interpolation_builder.hpp 90-126 (which ignores the derivatives, 97-101) and
    lagrange_evaluator.hpp 222-229 for one line.  A failure of the builder or of the evaluator is replaced
    by an empty list or 0: the theorems show that none happens. *)
Definition lagrange_interpolator (b : basis) (lower upper : extrapolation) : interpolator (list R) :=
  {| i_build := fun _ _ vals => match identity_builder b vals with Ok c => c | _ => [] end;
     i_eval := fun c x => match lagrange_eval b lower upper c x with Ok y => y | _ => 0 end |}.
