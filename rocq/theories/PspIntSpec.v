(** Vocabulary of C75: integrals of B-splines. *)
From Coquelicot Require Import Coquelicot.
From Verif Require Import Lib LagDerivSpec PspModel PspSpec.
Open Scope R_scope.

(** The integral over the domain of the j-th B-spline (the j-th of the b_size B-splines which do not
    vanish on the domain; for a periodic space the repeated ones are separate functions here) *)
Definition bspline_integral (b : bspace) (t : nat -> R) (j : nat) : R :=
  Rsum (b_cells b) (fun c => if ((c <=? j) && (j <=? c + b_deg b))%nat
    then RInt (cdb t (b_deg b + c) (b_deg b) (j - c)) (t (b_deg b + c)%nat) (t (b_deg b + c + 1)%nat) else 0).
(** What ddc::integrals is trusted to store: for a radial space the integrals of its elements; for a
    periodic space the integrals of the n_theta periodic elements (each one is the sum of a B-spline
    and of its repetition), and 0 for the repeated elements *)
Definition radial_integrals (b : bspace) (t : nat -> R) (v : list R) : Prop :=
  length v = nbasis_r b /\ forall i, (i < nbasis_r b)%nat -> nth i v 0 = bspline_integral b t i.
Definition periodic_integrals (b : bspace) (t : nat -> R) (v : list R) : Prop :=
  length v = b_size b /\
  (forall j, (j < b_cells b)%nat -> nth j v 0 = bspline_integral b t j + (if (j <? b_deg b)%nat then bspline_integral b t (j + b_cells b) else 0)) /\
  (forall j, (b_cells b <= j < b_size b)%nat -> nth j v 0 = 0).
