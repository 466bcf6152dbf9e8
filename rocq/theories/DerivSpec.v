(** Specification vocabulary of derivative fields (C37). *)
From Verif Require Export DerivModel.
Open Scope Z_scope.

(** the index is one of the [n] strided indices / one of the contiguous indices *)
Definition in_slice (s : slice) (i : Z) : Prop :=
  exists k : nat, (k < s_ext s)%nat /\ i = s_front s + Z.of_nat k * Z.of_nat (s_stride s).
Definition in_range (r : range) (i : Z) : Prop := r_front r <= i < r_front r + Z.of_nat (r_ext r).

(** A shape which the class accepts: no repeated tag, positive strides *)
Definition wf_shape (f : shape) : Prop :=
  NoDup (dims f) /\ forall d, In (Der d) (dims f) -> (0 < s_stride (dslice f d))%nat.

(** An (order of derivation, position) combination for which the field holds a value: orders between 0
    and NDerivs; where the order along a dimension is not zero the position must be one of the
    positions at which derivatives are known. *)
Definition accepted (f : shape) (idx : tag -> Z) : Prop :=
  (forall d, In (Der d) (dims f) -> 0 <= idx (Der d) <= Z.of_nat (nderivs f)) /\
  (forall d, In (Phys d) (dims f) ->
     (In (Der d) (dims f) /\ idx (Der d) <> 0 /\ in_slice (dslice f d) (idx (Phys d))) \/
     (~ (In (Der d) (dims f) /\ idx (Der d) <> 0) /\ in_range (phys f d) (idx (Phys d)))).

(** what the arguments of operator() stand for: a derivative which is not mentioned has order 0, all
    positions are given *)
Definition completes (f : shape) (elem : tag -> option Z) (idx : tag -> Z) : Prop :=
  forall t, In t (dims f) ->
    elem t = Some (idx t) \/ (elem t = None /\ exists d, t = Der d /\ idx t = 0).

(** two combinations differ for this field *)
Definition differ (f : shape) (i j : tag -> Z) : Prop := exists t, In t (dims f) /\ i t <> j t.

Definition same_idx (f : shape) (i j : tag -> Z) : Prop := forall t, In t (dims f) -> i t = j t.

(** an index belongs to the requested ranges; tags without a requested range are at order 0 or anywhere
    in the physical range *)
Definition in_request (f : shape) (rg : tag -> option range) (idx : tag -> Z) : Prop :=
  forall t, In t (dims f) ->
    match rg t, t with
    | Some r, _ => in_range r (idx t)
    | None, Der _ => idx t = 0
    | None, Phys d => in_range (phys f d) (idx t)
    end.

(** the extents of the memory region of a field are those of its index range *)
Definition well_sized (fld : field) : Prop :=
  Forall2 (fun tr es => r_ext (snd tr) = fst es) (f_dom fld) (v_dims (f_view fld)).

(** the order of derivation along dimension [d] that a request asks for starts at a non-zero value *)
Definition asks_deriv (f : shape) (rg : tag -> option range) (d : nat) : Prop :=
  In (Der d) (dims f) /\ exists r, rg (Der d) = Some r /\ r_front r <> 0.

(** requests on index ranges which make sense: along each derivative either exactly order 0 or orders
    within 1..NDerivs; each position range is non-empty, inside the grid, and if derivatives along that
    dimension are asked, it is one known position or a run of consecutive known positions *)
Definition sensible_request (f : shape) (rg : tag -> option range) : Prop :=
  forall t r, In t (dims f) -> (rg t = Some r \/ (rg t = None /\ exists d, t = Phys d /\ r = phys f d)) ->
    (0 < r_ext r)%nat /\
    match t with
    | Der _ => (r_front r = 0 /\ r_ext r = 1%nat) \/
               (1 <= r_front r /\ r_front r + Z.of_nat (r_ext r) - 1 <= Z.of_nat (nderivs f))
    | Phys d => (asks_deriv f rg d /\ (forall i, in_range r i -> in_slice (dslice f d) i)) \/
                (~ asks_deriv f rg d /\ (forall i, in_range r i -> in_range (phys f d) i))
    end.

(** Programs which create and destroy DerivFieldMem objects *)
Inductive life_op := New (f : shape) | Delete (i : nat).
Definition remove_nth {A} (i : nat) (l : list A) : list A := firstn i l ++ skipn (S i) l.
Definition life_step (st : heap * list (shape * list view)) (op : life_op) : res (heap * list (shape * list view)) :=
  let (h, objs) := st in
  match op with
  | New f => let (vs, h') := construct f h in Ok (h', objs ++ [(f, vs)])
  | Delete i => match nth_error objs i with
                | None => Ok st   (* no such object: nothing to destroy *)
                | Some (f, vs) => let* h' := destroy f vs h in Ok (h', remove_nth i objs)
                end
  end.
Fixpoint life_run (st : heap * list (shape * list view)) (ops : list life_op) : res (heap * list (shape * list view)) :=
  match ops with
  | [] => Ok st
  | op :: r => let* st' := life_step st op in life_run st' r
  end.

(** the position of an index among the indices retained along a tag of the memory region that
    get_mdspan returns *)
Definition position (f : shape) (rg : tag -> option range) (idx : tag -> Z) (t : tag) (k : Z) : Prop :=
  match t with
  | Der _ => exists r, rg t = Some r /\ idx t = r_front r + k
  | Phys d => (In (Der d) (dims f) /\ idx (Der d) <> 0 /\
               idx t = s_front (dslice f d) + k * Z.of_nat (s_stride (dslice f d))) \/
              (~ (In (Der d) (dims f) /\ idx (Der d) <> 0) /\ idx t = r_front (phys f d) + k)
  end.
(** the tags which remain in that region: the positions and the requested derivatives *)
Definition kept (rg : tag -> option range) (t : tag) : bool :=
  match t, rg t with Phys _, _ => true | Der _, Some _ => true | Der _, None => false end.
