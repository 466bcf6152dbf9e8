(** Model of src/data_types/derivative_field_common.hpp, derivative_field_mem.hpp, derivative_field.hpp
    and deriv_details.hpp: fields which store the values of a function on a grid together with its
    derivatives on a strided subset of that grid.

    Simplifications: a grid is identified by its continuous dimension (at most one grid per dimension),
    a tag of IdxRange<DDims...> is [Phys d] (a grid) or [Der d] (ddc::Deriv<d>); indices are
    mathematical integers.  Kokkos::submdspan and mdspan (not in /repo) are modelled by their
    standard meaning, with [Ub] where the standard's precondition is violated. *)
From Verif Require Export Lib.
Open Scope nat_scope.

Inductive tag := Phys (d : nat) | Der (d : nat).
Definition tag_dec : forall x y : tag, {x = y} + {x <> y}.
Proof. decide equality; apply Nat.eq_dec. Defined.

(** DDC: in_tags_v, type_seq_rank_v, type_seq_merge_t *)
Definition in_tags (t : tag) (l : list tag) : bool := if in_dec tag_dec t l then true else false.
Fixpoint rank_v (t : tag) (l : list tag) : nat :=
  match l with [] => 0 | y :: r => if tag_dec t y then 0 else S (rank_v t r) end.
Definition type_seq_merge (a b : list tag) : list tag :=
  a ++ filter (fun t => negb (in_tags t a)) b.

(** deriv_details.hpp 15-31: is_deriv_dim_v *)
Definition is_deriv_dim (t : tag) : bool := match t with Der _ => true | Phys _ => false end.

(** deriv_details.hpp 38-64: deriv_sub_set_t *)
Fixpoint deriv_sub_set (l : list tag) : list tag :=
  match l with
  | [] => []
  | h :: r => type_seq_merge (if is_deriv_dim h then [h] else []) (deriv_sub_set r)
  end.

(** A contiguous range of indices (IdxRange<Grid1D>) and a strided one (IdxRangeSlice<Grid1D>) *)
Record range := Range { r_front : Z; r_ext : nat }.
Record slice := Slice { s_front : Z; s_ext : nat; s_stride : nat }.

(** derivative_field_common.hpp 149-158 and the template parameters <IdxRange<DDims...>, NDerivs>:
    the tags, the physical index range, the slices on which derivatives are known and NDerivs *)
Record shape := Shape {
  dims : list tag;
  phys : nat -> range;
  dslice : nat -> slice;
  nderivs : nat
}.

(** derivative_field_common.hpp 55: deriv_tags *)
Definition deriv_tags (f : shape) : list tag := deriv_sub_set (dims f).
(** derivative_field_common.hpp 58-59: QueryDDim is in physical_deriv_grids when the derivative of its
    dimension is one of the tags *)
Definition has_deriv (f : shape) (d : nat) : bool := in_tags (Der d) (deriv_tags f).
(** derivative_field_common.hpp 128: n_fields *)
Definition n_fields (f : shape) : nat := Nat.shiftl 1 (length (deriv_tags f)).

(** derivative_field_common.hpp 193-200: get_array_index; [o] gives the derivative index for each tag *)
Definition get_array_index (f : shape) (o : tag -> Z) : nat :=
  fold_left (fun acc t => acc + Nat.shiftl (if Z.eqb (o t) 0 then 0 else 1) (rank_v t (deriv_tags f)))
            (deriv_tags f) 0.

(** the test [array_idx & (1 << type_seq_rank_v<Deriv, deriv_tags>)] used throughout *)
Definition holds_deriv (f : shape) (array_idx : nat) (t : tag) : bool :=
  negb (Nat.eqb (Nat.land array_idx (Nat.shiftl 1 (rank_v t (deriv_tags f)))) 0).

(** DDC StridedDiscreteDomain::contains and distance_from_front *)
Definition slice_contains (s : slice) (i : Z) : bool :=
  (Z.leb (s_front s) i && Z.eqb ((i - s_front s) mod Z.of_nat (s_stride s)) 0
   && Z.ltb ((i - s_front s) / Z.of_nat (s_stride s)) (Z.of_nat (s_ext s)))%bool.
Definition distance_from_front (s : slice) (i : Z) : Z :=
  ((i - s_front s) / Z.of_nat (s_stride s))%Z.

(** derivative_field_common.hpp 169-176: get_index *)
Definition get_index (f : shape) (d : nat) (i : Z) : res Z :=
  let* _ := check (slice_contains (dslice f d) i) in
  Ok (distance_from_front (dslice f d) i).

(** Kokkos slice specifiers: full_extent, an index, a half-open pair *)
Inductive slicer := FullExtent | At (k : Z) | Pair (a b : Z).

(** derivative_field_common.hpp 212-248: get_slicer_for(Idx) *)
Definition get_slicer_for_idx (f : shape) (idx : tag -> option Z) (array_idx : nat) (t : tag) : res slicer :=
  match idx t with
  | None => Ok FullExtent
  | Some i =>
      match t with
      | Phys d =>
          if (has_deriv f d && holds_deriv f array_idx (Der d))%bool
          then let* k := get_index f d i in Ok (At k)
          else Ok (At (i - r_front (phys f d))%Z)
      | Der _ =>
          if holds_deriv f array_idx t then Ok (At (i - 1)%Z)
          else let* _ := check (Z.eqb i 0) in Ok (At 0)
      end
  end.

(** last index of a range (IdxRange::back) *)
Definition r_back (r : range) : Z := (r_front r + Z.of_nat (r_ext r) - 1)%Z.

(** derivative_field_common.hpp 260-311: get_slicer_for(IdxRange) *)
Definition get_slicer_for_range (f : shape) (rg : tag -> option range) (array_idx : nat) (t : tag)
  : res slicer :=
  match rg t with
  | None => Ok FullExtent
  | Some r =>
      match t with
      | Phys d =>
          if (has_deriv f d && holds_deriv f array_idx (Der d))%bool
          then let* _ := check (slice_contains (dslice f d) (r_front r)
                                && (Nat.eqb (r_ext r) 1 || Nat.eqb (s_stride (dslice f d)) 1))%bool in
               let* a := get_index f d (r_front r) in
               let* b := get_index f d (r_back r) in
               Ok (Pair a (b + 1))
          else Ok (Pair (r_front r - r_front (phys f d)) (r_back r + 1 - r_front (phys f d)))%Z
      | Der _ =>
          if holds_deriv f array_idx t
          then Ok (Pair (r_front r - 1) (r_back r + 1 - 1))%Z
          else let* _ := check (Z.eqb (r_front r) 0) in
               let* _ := check (Z.eqb (r_back r) (r_front r)) in
               Ok (Pair 0 1)
      end
  end.

(** all the slicers of a parameter pack *)
Fixpoint map_res {A B} (g : A -> res B) (l : list A) : res (list B) :=
  match l with
  | [] => Ok []
  | x :: r => let* y := g x in let* ys := map_res g r in Ok (y :: ys)
  end.

(** Kokkos::mdspan with layout_stride on an allocated block: (extent, stride) for each dimension *)
Record view := View { v_block : nat; v_off : Z; v_dims : list (nat * nat) }.

(** Kokkos::submdspan *)
Fixpoint submdspan_dims (off : Z) (ds : list (nat * nat)) (ss : list slicer) : res (Z * list (nat * nat)) :=
  match ds, ss with
  | [], [] => Ok (off, [])
  | (e, st) :: ds', s :: ss' =>
      match s with
      | FullExtent =>
          let* (o, r) := submdspan_dims off ds' ss' in Ok (o, (e, st) :: r)
      | At k =>
          if (Z.leb 0 k && Z.ltb k (Z.of_nat e))%bool
          then submdspan_dims (off + k * Z.of_nat st) ds' ss'
          else Ub
      | Pair a b =>
          if (Z.leb 0 a && Z.leb a b && Z.leb b (Z.of_nat e))%bool
          then let* (o, r) := submdspan_dims (off + a * Z.of_nat st) ds' ss' in
               Ok (o, (Z.to_nat (b - a), st) :: r)
          else Ub
      end
  | _, _ => Ub
  end.
Definition submdspan (v : view) (ss : list slicer) : res view :=
  let* (o, ds) := submdspan_dims (v_off v) (v_dims v) ss in Ok (View (v_block v) o ds).

(** A Field: a view with one index range per remaining tag *)
Record field := Field { f_view : view; f_dom : list (tag * range) }.

(** DDC ChunkSpan::operator[](DiscreteElement): fix some of the indices *)
Definition field_slice (fld : field) (idx : tag -> option Z) : res field :=
  let* v := submdspan (f_view fld)
              (map (fun tr => match idx (fst tr) with
                              | None => FullExtent
                              | Some i => At (i - r_front (snd tr))%Z
                              end) (f_dom fld)) in
  Ok (Field v (filter (fun tr => match idx (fst tr) with None => true | Some _ => false end) (f_dom fld))).

(** DDC ChunkSpan::operator()(DiscreteElement...): all remaining indices given; the memory cell is
    (block, offset).  An index outside the extents of the view is undefined behaviour. *)
Definition field_call (fld : field) (idx : tag -> Z) : res (nat * Z) :=
  let* v := submdspan (f_view fld) (map (fun tr => At (idx (fst tr) - r_front (snd tr))%Z) (f_dom fld)) in
  Ok (v_block v, v_off v).

(** derivative_field_common.hpp 324-369: get_internal_field(IdxRange) *)
Definition get_internal_field_range (f : shape) (fields : list view) (rg : tag -> option range) : res field :=
  let deriv_range t := match rg t with Some r => r | None => Range 0 1 end in
  let full t := match rg t with
                | Some r => Some r
                | None => match t with Phys d => Some (phys f d) | Der _ => Some (Range 0 1) end
                end in
  let array_idx := get_array_index f (fun t => r_front (deriv_range t)) in
  let* internal_view := rd fields (Z.of_nat array_idx) in
  let* ss := map_res (get_slicer_for_range f full array_idx) (dims f) in
  let* subview := submdspan internal_view ss in
  let local_field := Field subview
    (map (fun t => (t, match full t with Some r => r | None => Range 0 0 end)) (dims f)) in
  field_slice local_field
    (fun t => match rg t with Some _ => None | None => if is_deriv_dim t then Some 0%Z else None end).

(** derivative_field_common.hpp 382-438: get_internal_field(Idx) *)
Definition get_internal_field_idx (f : shape) (fields : list view) (elem : tag -> option Z) : res field :=
  let slice_idx t := match elem t with
                     | Some i => Some i
                     | None => if is_deriv_dim t then Some 0%Z else None
                     end in
  let deriv_index t := match elem t with Some i => i | None => 0%Z end in
  let array_idx := get_array_index f deriv_index in
  let* internal_view := rd fields (Z.of_nat array_idx) in
  let* ss := map_res (get_slicer_for_idx f slice_idx array_idx) (dims f) in
  let* subview := submdspan internal_view ss in
  Ok (Field subview
        (flat_map (fun t => match slice_idx t with
                            | Some _ => []
                            | None => match t with Phys d => [(t, phys f d)] | Der _ => [] end
                            end) (dims f))).

(** derivative_field_mem.hpp 334-359 and derivative_field.hpp 369-376: operator()(elems...); every
    physical index is given (otherwise the call does not compile), a derivative index which is not given
    is 0 *)
Definition call (f : shape) (fields : list view) (elem : tag -> option Z) : res (nat * Z) :=
  let* fld := get_internal_field_idx f fields elem in
  match v_dims (f_view fld) with
  | [] => Ok (v_block (f_view fld), v_off (f_view fld))
  | _ :: _ => Ub
  end.

(** derivative_field_common.hpp 472-498: get_mdspan(IdxRange of derivatives) *)
Definition get_mdspan (f : shape) (fields : list view) (rg : tag -> option range) : res view :=
  let deriv_index t := match rg t with Some r => r_front r | None => 0%Z end in
  let array_idx := get_array_index f deriv_index in
  let* internal_view := rd fields (Z.of_nat array_idx) in
  let* ss := map_res (get_slicer_for_range f rg array_idx) (dims f) in
  let* subview_all_dims := submdspan internal_view ss in
  let* ss' := map_res (get_slicer_for_idx f
                (fun t => match rg t with
                          | Some _ => None
                          | None => if is_deriv_dim t then Some 0%Z else None
                          end) array_idx) (dims f) in
  submdspan subview_all_dims ss'.

(** derivative_field_mem.hpp 198-224: get_mdspan_size *)
Definition get_mdspan_size (f : shape) (array_idx : nat) (t : tag) : nat :=
  match t with
  | Der _ => if holds_deriv f array_idx t then nderivs f else 1
  | Phys d =>
      if has_deriv f d
      then if holds_deriv f array_idx (Der d) then s_ext (dslice f d) else r_ext (phys f d)
      else r_ext (phys f d)
  end.

(** derivative_field_mem.hpp 231: alloc_size *)
Definition alloc_size (f : shape) (array_idx : nat) : nat :=
  fold_left (fun acc t => acc * get_mdspan_size f array_idx t) (dims f) 1.

(** std::layout_right: the stride of a dimension is the product of the extents which follow it *)
Fixpoint layout_right (es : list nat) : list (nat * nat) :=
  match es with
  | [] => []
  | e :: r => (e, fold_left Nat.mul r 1) :: layout_right r
  end.

(** derivative_field_mem.hpp 226-241: make_internal_mdspan, on the block [ptr] returned by the allocator *)
Definition make_internal_mdspan (f : shape) (ptr array_idx : nat) : view :=
  View ptr 0 (layout_right (map (get_mdspan_size f array_idx) (dims f))).

(** ** Allocation.  The heap is the set of live blocks with their sizes; the allocator returns a fresh
    block. *)
Record heap := Heap { h_next : nat; h_live : list (nat * nat) }.
Definition allocate (h : heap) (size : nat) : nat * heap :=
  (h_next h, Heap (S (h_next h)) ((h_next h, size) :: h_live h)).
Fixpoint remove_block (p size : nat) (l : list (nat * nat)) : option (list (nat * nat)) :=
  match l with
  | [] => None
  | (q, n) :: r =>
      if Nat.eqb q p then (if Nat.eqb n size then Some r else None)
      else match remove_block p size r with Some r' => Some ((q, n) :: r') | None => None end
  end.
(** deallocate(ptr, n): undefined unless [ptr] is a live block of [n] elements *)
Definition deallocate (h : heap) (p size : nat) : res heap :=
  match remove_block p size (h_live h) with
  | Some l => Ok (Heap (h_next h) l)
  | None => Ub
  end.

(** derivative_field_mem.hpp 243-249 and 291-308: the constructor allocates the internal fields in order *)
Fixpoint initialise_chunks (f : shape) (h : heap) (array_idxs : list nat) : list view * heap :=
  match array_idxs with
  | [] => ([], h)
  | a :: r =>
      let (p, h1) := allocate h (alloc_size f a) in
      let (vs, h2) := initialise_chunks f h1 r in
      (make_internal_mdspan f p a :: vs, h2)
  end.
Definition construct (f : shape) (h : heap) : list view * heap :=
  initialise_chunks f h (seq 0 (n_fields f)).

(** derivative_field_mem.hpp 251-265 and 310-314: the destructor; sizes are recomputed from the shape *)
Fixpoint free_chunks (f : shape) (fields : list view) (h : heap) (array_idxs : list nat) : res heap :=
  match array_idxs with
  | [] => Ok h
  | a :: r =>
      let* v := rd fields (Z.of_nat a) in
      let* h' := deallocate h (v_block v) (alloc_size f a) in
      free_chunks f fields h' r
  end.
Definition destroy (f : shape) (fields : list view) (h : heap) : res heap :=
  free_chunks f fields h (seq 0 (n_fields f)).

(** derivative_field_mem.hpp 323: the defaulted move assignment assigns member by member; moving an
    mdspan copies it *)
Definition move_assign (dst src : shape * list view) : (shape * list view) * (shape * list view) := (src, src).

(** ** DerivField: a view of a DerivFieldMem *)
(** derivative_field.hpp 186-210: get_chunk_subidx_range_idx<ArrayIndex> *)
Definition chunk_subidx (f : shape) (array_idx : nat) (t : tag) : Z :=
  if holds_deriv f array_idx t then 1%Z else 0%Z.
(** derivative_field.hpp 212-221: initialise_fields *)
Definition initialise_fields (f : shape) (chunks : list view) : res (list view) :=
  map_res (fun a => rd chunks (Z.of_nat (get_array_index f (chunk_subidx f a)))) (seq 0 (n_fields f)).

(** ** Contents.  Kokkos::deep_copy of two views: the extents must agree (otherwise an exception);
    here on the whole blocks that the internal fields cover.  The store maps each cell to a value. *)
Definition store (V : Type) := nat -> Z -> V.
(** offsets of the elements of an array with these (extent, stride) dimensions, in lexicographic order *)
Fixpoint offsets (off : Z) (ds : list (nat * nat)) : list Z :=
  match ds with
  | [] => [off]
  | (e, st) :: r => flat_map (fun k => offsets (off + Z.of_nat k * Z.of_nat st) r) (seq 0 e)
  end.
Definition upd_cell {V} (m : store V) (b : nat) (o : Z) (x : V) : store V :=
  fun b' o' => if (Nat.eqb b' b && Z.eqb o' o)%bool then x else m b' o'.
Definition deep_copy_view {V} (dst src : view) (m : store V) : res (store V) :=
  if list_eq_dec Nat.eq_dec (map fst (v_dims dst)) (map fst (v_dims src))
  then Ok (fold_left (fun m' (p : Z * Z) => upd_cell m' (v_block dst) (fst p) (m (v_block src) (snd p)))
             (combine (offsets (v_off dst) (v_dims dst)) (offsets (v_off src) (v_dims src))) m)
  else Throw.
(** derivative_field.hpp 331-358: deepcopy *)
Fixpoint deepcopy_loop {V} (dst src : list view) (m : store V) (idxs : list nat) : res (store V) :=
  match idxs with
  | [] => Ok m
  | i :: r =>
      let* d := rd dst (Z.of_nat i) in
      let* s := rd src (Z.of_nat i) in
      let* m' := deep_copy_view d s m in
      deepcopy_loop dst src m' r
  end.
Definition deepcopy {V} (f : shape) (dst src : list view) (m : store V) : res (store V) :=
  deepcopy_loop dst src m (seq 0 (n_fields f)).
