(** Specification vocabulary for the math tools. *)
From Verif Require Export MathModel QuadSpec.
Open Scope R_scope.

(** the quadratic a + b t + c t^2 and its derivative *)
Definition quad (a b c t : R) : R := a + b * t + c * (t * t).
Definition quad' (b c t : R) : R := b + 2 * c * t.

(** field value number [i] *)
Definition value (f : list R) (i : nat) : R := nth i f 0.

(** periodic extension of the points (period [L]) and of the values of [n] nodes, to any integer
    index *)
Definition periodic_point (pts : list R) (fr : Z) (n : nat) (L : R) (k : Z) : R :=
  point pts fr (Z.to_nat (k mod Z.of_nat n)) + IZR (k / Z.of_nat n) * L.
Definition periodic_value (f : list R) (n : nat) (k : Z) : R :=
  value f (Z.to_nat (k mod Z.of_nat n)).

(** two coordinates are equal modulo a period *)
Definition congruent (L x y : R) : Prop := exists k : Z, x = y + IZR k * L.

(** product of square matrices and identity *)
Definition mmul (n : nat) (A B : nat -> nat -> R) (i j : nat) : R := Rsum n (fun k => A i k * B k j).
Definition is_identity (n : nat) (A : nat -> nat -> R) : Prop :=
  forall i j, (i < n)%nat -> (j < n)%nat -> A i j = if (i =? j)%nat then 1 else 0.

(** ** Histories of calls of the spline cache *)
Definition same_dim (a b : dim2) : bool :=
  match a, b with Dim1, Dim1 | Dim2, Dim2 => true | _, _ => false end.
Definition other_dim (d : dim2) : dim2 := match d with Dim1 => Dim2 | Dim2 => Dim1 end.
(** field of the last call made with the dimension [d] ([acc] if there is none) *)
Fixpoint last_with {F : Type} (d : dim2) (calls : list (dim2 * F)) (acc : option F) : option F :=
  match calls with
  | [] => acc
  | (d', f) :: t => last_with d t (if same_dim d d' then Some f else acc)
  end.
(** the documented usage: at every iteration, both dimensions with the same field *)
Definition iterations {F : Type} (d : dim2) (fields : list F) : list (dim2 * F) :=
  flat_map (fun f => [(d, f); (other_dim d, f)]) fields.
