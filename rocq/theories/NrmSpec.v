(** Specification for the norms. *)
From Coq Require Import Permutation.
From Verif Require Export NrmModel QuadSpec.
Open Scope R_scope.

(** order on the doubles which are not NaN *)
Definition dle (x y : dbl) : Prop :=
  match x, y with
  | NaN, _ => False
  | _, NaN => False
  | Inf true, _ => True
  | _, Inf false => True
  | Fin a, Fin b => a <= b
  | _, _ => False
  end.
Definition number (x : dbl) : Prop := x <> NaN.
(** r is the largest absolute value of the list (0 for the empty list) *)
Definition largest_abs (xs : list dbl) (r : dbl) : Prop :=
  (forall x, In x xs -> dle (dabs x) r) /\ (r = Fin 0 \/ exists x, In x xs /\ r = dabs x).
(** the components of the elements of a field of n points *)
Definition components (e : elem) : list dbl := match e with Scalar x => [x] | Vector xs => xs end.
Definition all_components (n : nat) (f : nat -> elem) : list dbl := flat_map (fun i => components (f i)) (seq 0 n).
(** an order of the reduction over n points *)
Definition order_of (n : nat) (t : tree) : Prop := Permutation (leaves t) (seq 0 n).
(** two elements of the same shape *)
Definition same_shape (a b : elem) : Prop :=
  match a, b with Scalar _, Scalar _ => True | Vector xs, Vector ys => length xs = length ys | _, _ => False end.
Definition finite (e : elem) : Prop := forall x, In x (components e) -> exists r, x = Fin r.
(** the points of the quadrature are points of the field *)
Definition covers (g : nd_range) (f : field) : Prop := forall i, in_nd g i -> in_nd (dom f) i.
(** the difference of two fields *)
Definition minus (f h : field) : field := Field (dom f) (fun i => val f i - val h i).
(** N is a norm on the functions of the points of g *)
Definition is_norm (g : nd_range) (N : (nd_idx -> R) -> R) : Prop :=
  (forall f, 0 <= N f) /\ (forall f, N f = 0 <-> forall i, in_nd g i -> f i = 0) /\
  (forall a f, N (fun i => a * f i) = Rabs a * N f) /\
  (forall f h, N (fun i => f i + h i) <= N f + N h).
