(** Vocabulary of C66 and C67 (derivatives and tensor products of Lagrange interpolation). *)
From Verif Require Export LagDerivModel LagrangeSpec.
Open Scope R_scope.

(** [g] is the [n]-th derivative of [f] on the whole line *)
Definition nth_derivative (n : nat) (f g : R -> R) : Prop :=
  exists F : nat -> R -> R, (forall x, F 0%nat x = f x) /\
    (forall k x, (k < n)%nat -> derivable_pt_lim (F k) x (F (S k) x)) /\ (forall x, F n x = g x).
(** the polynomial of degree at most D through the coefficients of the stencil [s] *)
Definition interpolant (b : basis) (s : nat) (c : nat -> R) (x : R) : R :=
  Rsum (S (b_degree b)) (fun i => c (s + i)%nat * lagrange_poly (b_degree b) (fun j => kn b (s + j)) i x).

(** ** Tensor products *)
Definition order_of (o : option nat) : nat := match o with None => 0%nat | Some n => n end.
(** one dimension of the tensor product: first knot and weight of each knot of the stencil *)
Definition dim_value := (nat * (nat -> R))%type.
(** [(s, v)]: the stencil [s] and the derivatives of order [o] of its Lagrange polynomials at the coordinate
    evaluated for [y] *)
Definition is_dim_value (b : basis) (o : option nat) (y : R) (sv : dim_value) (x2 : R) : Prop :=
  let '(s, v) := sv in
  (s + b_degree b < length (b_knots b))%nat /\
  exists x1, kn b s <= x1 <= kn b (s + b_degree b) /\
    (x1 = y \/ (b_periodic b = true /\ x1 = y + period b)) /\ evaluated_at b s x1 x2 /\
    ((forall i, (i <= b_degree b)%nat -> tolerance b < Rabs (x1 - kn b (s + i))) -> x2 = x1) /\
    forall i, (i <= b_degree b)%nat -> exists g,
      nth_derivative (order_of o) (lagrange_poly (b_degree b) (fun j => kn b (s + j)) i) g /\ v i = g x2.
Fixpoint are_dim_values (dims : list (basis * option nat)) (x : list R) (vs : list dim_value) (x2 : list R) : Prop :=
  match dims, x, vs, x2 with
  | [], [], [], [] => True
  | (b, o) :: dims', y :: x', v :: vs', y2 :: x2' => is_dim_value b o y v y2 /\ are_dim_values dims' x' vs' x2'
  | _, _, _, _ => False
  end.
(** sum over the product of the stencils *)
Fixpoint tensor_sum (dims : list (basis * option nat)) (vs : list dim_value) (coef : list nat -> R) : R :=
  match dims, vs with
  | (b, _) :: dims', (s, v) :: vs' =>
      Rsum (S (b_degree b)) (fun i => v i * tensor_sum dims' vs' (fun l => coef ((s + i)%nat :: l)))
  | _, _ => coef []
  end.
(** the multi-indices of the coefficients *)
Fixpoint coef_index (dims : list (basis * option nat)) (l : list nat) : Prop :=
  match dims, l with
  | [], [] => True
  | (b, _) :: dims', i :: l' => (i < length (b_knots b))%nat /\ coef_index dims' l'
  | _, _ => False
  end.
(** admissible call: initialised bases, a coordinate of the domain, orders the evaluator accepts *)
Fixpoint admissible (dims : list (basis * option nat)) (x : list R) : Prop :=
  match dims, x with
  | [(b, o)], [y] => initialised b /\ in_domain b y /\ (order_of o <= b_degree b)%nat /\ (order_of o <= 20)%nat
  | (b, o) :: dims', y :: x' =>
      initialised b /\ in_domain b y /\ (order_of o <= b_degree b)%nat /\ (order_of o <= 20)%nat /\ o <> Some 0%nat /\
      admissible dims' x'
  | _, _ => False
  end.
(** [x2] is the coordinate [x] itself, or a knot within the tolerance in some of the dimensions *)
Fixpoint evaluated_near (dims : list (basis * option nat)) (x x2 : list R) : Prop :=
  match dims, x, x2 with
  | [], [], [] => True
  | (b, _) :: dims', y :: x', y2 :: x2' =>
      (y2 = y \/ exists i, (i < length (b_knots b))%nat /\ y2 = kn b i /\ Rabs (y - y2) <= tolerance b) /\
      ((forall i, (i < length (b_knots b))%nat -> tolerance b < Rabs (y - kn b i)) -> y2 = y) /\
      evaluated_near dims' x' x2'
  | _, _, _ => False
  end.
(** the product of one function of the knots per dimension *)
Definition no_dim : basis * option nat := (Build_basis true false 0 [] 0 0, None).
Definition product_at (dims : list (basis * option nat)) (f : nat -> R -> R) (l : list nat) : R :=
  prod_upto (length dims) (fun d => f d (kn (fst (nth d dims no_dim)) (nth d l 0%nat))).

(** ** Builder *)
Definition id_none : id_dim := {| id_per := false; id_bp := 0; id_full := 0 |}.
(** a multi-index of the coefficients and the interpolation point it stands for *)
Definition id_index (dims : list id_dim) (l : list nat) : Prop :=
  length l = length dims /\ forall k, (k < length dims)%nat -> (nth k l 0 < id_full (nth k dims id_none))%nat.
Definition id_point (dims : list id_dim) (l : list nat) : list nat :=
  map (fun k => if id_per (nth k dims id_none) then nth k l 0 mod (id_bp (nth k dims id_none) - 1) else nth k l 0)%nat
      (seq 0 (length dims)).
(** the sizes of the library: full_domain() has the break points, and the degree more when periodic; the repeated
    points (degree + 1) exist *)
Definition id_sizes (d : id_dim) : Prop :=
  if id_per d then (id_bp d <= id_full d <= 2 * (id_bp d - 1))%nat else id_full d = id_bp d.
