(** Specification vocabulary of the spline builder on derivative fields (C111). *)
From Verif Require Export DfbModel DerivSpec.
Open Scope Z_scope.

(** A function of two variables known through its derivatives: [D k1 i k2 j] is the derivative of order
    [k1] along dimension 1 and [k2] along dimension 2 at the grid point (i, j) (order 0: the value).  *)
Definition table (V : Type) := Z -> Z -> Z -> Z -> V.

(** the derivative field stores [D]: every combination that it holds is found, by operator(), with its
    value *)
Definition stores {V} (f : shape) (fields : list view) (m : store V) (D : table V) : Prop :=
  forall idx c, accepted f idx -> call f fields (fun t => Some (idx t)) = Ok c ->
    m (fst c) (snd c) = D (idx (Der 1)) (idx (Phys 1)) (idx (Der 2)) (idx (Phys 2)).

(** [a] is the table of [g] over two index ranges: allocated on them and initialised everywhere *)
Definition tabulates {V} (a : arr V) (r1 r2 : range) (g : Z -> Z -> V) : Prop :=
  a_1 a = r1 /\ a_2 a = r2 /\
  forall i j, in_range r1 i -> in_range r2 j -> a_val a i j = Some (g i j).

(** first and last points of a grid *)
Definition lower (r : range) : Z := r_front r.
Definition upper (r : range) : Z := r_front r + Z.of_nat (r_ext r) - 1.
(** orders 1, ..., n *)
Definition orders (n : nat) : range := Range 1 n.

(** What DDC documents for the nine arguments: the values, the derivatives along dimension 1 at the lower
    and upper end of dimension 1 for every point of dimension 2, the derivatives along dimension 2, and
    the mixed derivatives at the corners (min, min), (max, min), (min, max), (max, max). *)
Record documented {V} (D : table V) (r1 r2 : range) (nb : needs) (g : builder_args V) : Prop := {
  doc_function : tabulates (g_function g) r1 r2 (fun i j => D 0 i 0 j);
  doc_deriv1_min : tabulates (g_deriv1_min g) (orders (nbv1_min nb)) r2 (fun k j => D k (lower r1) 0 j);
  doc_deriv1_max : tabulates (g_deriv1_max g) (orders (nbv1_max nb)) r2 (fun k j => D k (upper r1) 0 j);
  doc_deriv2_min : tabulates (g_deriv2_min g) r1 (orders (nbv2_min nb)) (fun i k => D 0 i k (lower r2));
  doc_deriv2_max : tabulates (g_deriv2_max g) r1 (orders (nbv2_max nb)) (fun i k => D 0 i k (upper r2));
  doc_min_min : tabulates (g_cross_min_min g) (orders (nbv1_min nb)) (orders (nbv2_min nb))
                  (fun k l => D k (lower r1) l (lower r2));
  doc_max_min : tabulates (g_cross_max_min g) (orders (nbv1_max nb)) (orders (nbv2_min nb))
                  (fun k l => D k (upper r1) l (lower r2));
  doc_min_max : tabulates (g_cross_min_max g) (orders (nbv1_min nb)) (orders (nbv2_max nb))
                  (fun k l => D k (lower r1) l (upper r2));
  doc_max_max : tabulates (g_cross_max_max g) (orders (nbv1_max nb)) (orders (nbv2_max nb))
                  (fun k l => D k (upper r1) l (upper r2)) }.

(** the grid is not empty *)
Definition nonempty (f : shape) : Prop := (0 < r_ext (phys f 1))%nat /\ (0 < r_ext (phys f 2))%nat.

(** The field holds every derivative that the builder needs: enough orders, known at the ends of the grid
    at which the builder asks for any. *)
Definition end_known (f : shape) (d n : nat) (end_ : Z) : Prop :=
  n = 0%nat \/ ((n <= nderivs f)%nat /\ in_slice (dslice f d) end_).
Definition provides (f : shape) (nb : needs) : Prop :=
  end_known f 1 (nbv1_min nb) (lower (phys f 1)) /\ end_known f 1 (nbv1_max nb) (upper (phys f 1)) /\
  end_known f 2 (nbv2_min nb) (lower (phys f 2)) /\ end_known f 2 (nbv2_max nb) (upper (phys f 2)).

(** the builder needs a mixed derivative at some corner *)
Definition needs_mixed (nb : needs) : Prop :=
  (0 < nbv1_min nb \/ 0 < nbv1_max nb)%nat /\ (0 < nbv2_min nb \/ 0 < nbv2_max nb)%nat.

(** A builder which does what SplineBuilder2D documents: [ev s k i l j] is the derivative of orders (k, l)
    of the spline [s] at the grid point (i, j).  Whatever initialised arguments it gets, the spline that it
    returns takes the given values at the grid points and the given derivatives at the ends. *)
Definition initialised {V} (a : arr V) : Prop :=
  forall i j, in_range (a_1 a) i -> in_range (a_2 a) j -> exists v, a_val a i j = Some v.
Definition interpolating {V S} (builder : builder_args V -> res S) (ev : S -> table V)
  (r1 r2 : range) : Prop :=
  forall g s, builder g = Ok s ->
    (forall i j v, in_range r1 i -> in_range r2 j -> a_val (g_function g) i j = Some v -> ev s 0 i 0 j = v) /\
    (forall k j v, a_val (g_deriv1_min g) k j = Some v -> in_range (a_1 (g_deriv1_min g)) k -> in_range r2 j ->
       ev s k (lower r1) 0 j = v) /\
    (forall k j v, a_val (g_deriv1_max g) k j = Some v -> in_range (a_1 (g_deriv1_max g)) k -> in_range r2 j ->
       ev s k (upper r1) 0 j = v) /\
    (forall i l v, a_val (g_deriv2_min g) i l = Some v -> in_range r1 i -> in_range (a_2 (g_deriv2_min g)) l ->
       ev s 0 i l (lower r2) = v) /\
    (forall i l v, a_val (g_deriv2_max g) i l = Some v -> in_range r1 i -> in_range (a_2 (g_deriv2_max g)) l ->
       ev s 0 i l (upper r2) = v) /\
    (forall k l v, a_val (g_cross_min_min g) k l = Some v ->
       in_range (a_1 (g_cross_min_min g)) k -> in_range (a_2 (g_cross_min_min g)) l ->
       ev s k (lower r1) l (lower r2) = v) /\
    (forall k l v, a_val (g_cross_max_min g) k l = Some v ->
       in_range (a_1 (g_cross_max_min g)) k -> in_range (a_2 (g_cross_max_min g)) l ->
       ev s k (upper r1) l (lower r2) = v) /\
    (forall k l v, a_val (g_cross_min_max g) k l = Some v ->
       in_range (a_1 (g_cross_min_max g)) k -> in_range (a_2 (g_cross_min_max g)) l ->
       ev s k (lower r1) l (upper r2) = v) /\
    (forall k l v, a_val (g_cross_max_max g) k l = Some v ->
       in_range (a_1 (g_cross_max_max g)) k -> in_range (a_2 (g_cross_max_max g)) l ->
       ev s k (upper r1) l (upper r2) = v).

(** where the builder constrains the spline: orders (k, l) at the point (i, j) *)
Definition constrained (r1 r2 : range) (nb : needs) (k i l j : Z) : Prop :=
  in_range r1 i /\ in_range r2 j /\ 0 <= k /\ 0 <= l /\
  (k = 0 \/ (i = lower r1 /\ k <= Z.of_nat (nbv1_min nb)) \/ (i = upper r1 /\ k <= Z.of_nat (nbv1_max nb))) /\
  (l = 0 \/ (j = lower r2 /\ l <= Z.of_nat (nbv2_min nb)) \/ (j = upper r2 /\ l <= Z.of_nat (nbv2_max nb))).
