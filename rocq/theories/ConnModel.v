(** Model of src/multipatch/connectivity/connectivity_details.hpp, connectivity.hpp, interface.hpp,
    edge.hpp, patch.hpp and of the type-sequence helpers they use.  A C++ type is a value here, a
    template instantiation is a function call, and [None] is an ill-formed program (static_assert,
    missing or ambiguous specialisation, unbounded instantiation). *)
From Coq Require Export List Arith Bool Lia Relations.
Export ListNotations.
Open Scope nat_scope.

(** grids and B-spline types are identified by numbers *)
Notation grid := nat (only parsing).

(** patch.hpp 24-79: Patch<grid1, grid2, bsplines_dim1, bsplines_dim2> *)
Record patch := Patch { p_grid1 : grid; p_grid2 : grid; p_bs1 : nat; p_bs2 : nat }.

(** ddc_aliases / edge.hpp: enum Extremity *)
Inductive extremity := FRONT | BACK.

(** edge.hpp 23-37: Edge<Patch, Grid1D, extremity> (parallel_grid is in [parallel_grid]) *)
Record edge := Edge { associated_patch : patch; perpendicular_grid : grid; e_ext : extremity }.

(** edge.hpp 31-34 *)
Definition parallel_grid (e : edge) : grid :=
  if Nat.eq_dec (perpendicular_grid e) (p_grid1 (associated_patch e))
  then p_grid2 (associated_patch e) else p_grid1 (associated_patch e).

(** edge.hpp 46-48: [None] is OutsideEdge *)
Notation side := (option edge) (only parsing).

(** interface.hpp 19-64: Interface<Edge1, Edge2, orientations_agree>; the static_assert of lines 22-24
    (not both outside) is [interface_ok] *)
Record interface := Interface { i_edge1 : side; i_edge2 : side; i_agree : bool }.

Definition patch_eq_dec : forall a b : patch, {a = b} + {a <> b}.
Proof. repeat decide equality. Defined.
Definition ext_eq_dec : forall a b : extremity, {a = b} + {a <> b}.
Proof. decide equality. Defined.
Definition edge_eq_dec : forall a b : edge, {a = b} + {a <> b}.
Proof. decide equality; [apply ext_eq_dec | apply Nat.eq_dec | apply patch_eq_dec]. Defined.
Definition side_eq_dec : forall a b : side, {a = b} + {a <> b}.
Proof. decide equality; apply edge_eq_dec. Defined.
Definition interface_eq_dec : forall a b : interface, {a = b} + {a <> b}.
Proof. decide equality; [apply bool_dec | apply side_eq_dec | apply side_eq_dec]. Defined.

(** interface.hpp 22-24 *)
Definition interface_ok (i : interface) : bool :=
  match i_edge1 i, i_edge2 i with None, None => false | _, _ => true end.

(** interface.hpp 35-38: OtherEdge *)
Definition other_edge (i : interface) (e : edge) : option side :=
  if side_eq_dec (Some e) (i_edge1 i) then Some (i_edge2 i)
  else if side_eq_dec (Some e) (i_edge2 i) then Some (i_edge1 i)
  else None.

(** interface.hpp 52-63: connected_to_patch *)
Definition connected_to_patch (i : interface) (p : patch) : bool :=
  match i_edge1 i, i_edge2 i with
  | None, None => false
  | None, Some e2 => if patch_eq_dec (associated_patch e2) p then true else false
  | Some e1, None => if patch_eq_dec (associated_patch e1) p then true else false
  | Some e1, Some e2 => (if patch_eq_dec (associated_patch e1) p then true else false)
                        || (if patch_eq_dec (associated_patch e2) p then true else false)
  end.

Section TypeSeq.
  Context {A : Type} (dec : forall a b : A, {a = b} + {a <> b}).

  (** ddc::in_tags_v *)
  Definition in_tags (x : A) (l : list A) : bool := if in_dec dec x l then true else false.

  (** ddc::type_seq_merge_t (DDC, not in /repo): the elements of [b] which are not in [a] are appended
      to [a] *)
  Definition type_seq_merge (a b : list A) : list A := a ++ filter (fun x => negb (in_tags x a)) b.

  (** utils/type_seq_tools.hpp 24-46: TypeSeqRange<TypeSeqIn, Start, End, Idx, TypeSeqOut>, the
      remaining End - Idx elements *)
  Fixpoint type_seq_range_loop (l : list A) (idx todo : nat) (out : list A) : option (list A) :=
    match todo with
    | 0 => Some out
    | S n => match nth_error l idx with
             | Some x => type_seq_range_loop l (S idx) n (type_seq_merge out [x])
             | None => None
             end
    end.
  (** type_seq_tools.hpp 212-214 *)
  Definition type_seq_range (l : list A) (start stop : nat) : option (list A) :=
    if stop <=? length l then type_seq_range_loop l start (stop - start) [] else None.

  (** utils/ddc_helper.hpp 268-297, 340-343: type_seq_intersection_t *)
  Fixpoint type_seq_intersection_loop (a b r : list A) : list A :=
    match b with
    | [] => r
    | h :: t => if in_tags h a then type_seq_intersection_loop a t (r ++ [h])
                else type_seq_intersection_loop a t r
    end.
  Definition type_seq_intersection (a b : list A) : list A := type_seq_intersection_loop a b [].
End TypeSeq.

(** connectivity_details.hpp 19-50: PatchConnection *)
Fixpoint patch_connection (p : patch) (l : list interface) : list interface :=
  match l with
  | [] => []
  | i :: r => type_seq_merge interface_eq_dec (if connected_to_patch i p then [i] else []) (patch_connection p r)
  end.

(** connectivity_details.hpp 57-79: StripOutsideEdges (no specialisation for the empty sequence) *)
Fixpoint strip_outside_edges (l : list side) : option (list edge) :=
  match l with
  | [] => None
  | [s] => Some (match s with None => [] | Some e => [e] end)
  | s :: r => match strip_outside_edges r with
              | Some r' => Some (type_seq_merge edge_eq_dec (match s with None => [] | Some e => [e] end) r')
              | None => None
              end
  end.

(** connectivity_details.hpp 100-119: ExtractPatches *)
Fixpoint extract_patches (l : list edge) : list patch :=
  match l with
  | [] => []
  | e :: r => type_seq_merge patch_eq_dec [associated_patch e] (extract_patches r)
  end.

(** connectivity_details.hpp 126-173: FindPatch.  When both grids of the first patch are the queried
    grid the two specialisations are ambiguous. *)
Fixpoint find_patch (g : grid) (l : list patch) : option patch :=
  match l with
  | [] => None
  | p :: r =>
      match Nat.eq_dec (p_grid1 p) g, Nat.eq_dec (p_grid2 p) g with
      | left _, left _ => None
      | left _, right _ => Some p
      | right _, left _ => Some p
      | right _, right _ => find_patch g r
      end
  end.

(** connectivity_details.hpp 180-222: FindInterface; ambiguous when both edges are the queried edge *)
Fixpoint find_interface (e : edge) (l : list interface) : option interface :=
  match l with
  | [] => None
  | i :: r =>
      match side_eq_dec (i_edge1 i) (Some e), side_eq_dec (i_edge2 i) (Some e) with
      | left _, left _ => None
      | left _, right _ => Some i
      | right _, left _ => Some i
      | right _, right _ => find_interface e r
      end
  end.

(** connectivity_details.hpp 229-251: EnforceFirstInterfaceEdge *)
Definition enforce_first_interface_edge (i : interface) (first : side) : option interface :=
  match side_eq_dec (i_edge1 i) first, side_eq_dec (i_edge2 i) first with
  | left _, left _ => None
  | left _, right _ => Some i
  | right _, left _ => Some (Interface (i_edge2 i) (i_edge1 i) (i_agree i))
  | right _, right _ => None
  end.

(** connectivity_details.hpp 257-274: SwapExtremity *)
Definition swap_extremity (e : edge) : edge :=
  Edge (associated_patch e) (perpendicular_grid e) (match e_ext e with FRONT => BACK | BACK => FRONT end).

(** connectivity_details.hpp 284-286: equivalent_edge_t *)
Definition equivalent_edge (e : edge) (l : list interface) : option side :=
  match find_interface e l with
  | Some i => other_edge i e
  | None => None
  end.

(** connectivity_details.hpp 292-317: InsertPosition, AddToTypeSeq (note that FrontInsert appends) *)
Inductive insert_position := FrontInsert | BackInsert.
Definition add_to_type_seq {A} dec (x : A) (l : list A) (pos : insert_position) : list A :=
  match pos with
  | FrontInsert => type_seq_merge dec l [x]
  | BackInsert => type_seq_merge dec [x] l
  end.

(** connectivity_details.hpp 336-340, 359-364, 404-409: the current interface with its edges in order *)
Definition oriented_interface (e : edge) (m : side) (l : list interface) : option interface :=
  match find_interface e l with
  | Some i => enforce_first_interface_edge i (match e_ext e with FRONT => m | BACK => Some e end)
  | None => None
  end.

(** connectivity_details.hpp 329-411: CollectInterfacesAlongDim *)
Fixpoint collect_interfaces_along_dim (fuel : nat) (start : edge) (l : list interface)
    (pos : insert_position) (found : list interface) : option (list interface) :=
  match fuel with
  | 0 => None
  | S fuel =>
      match equivalent_edge start l with
      | None => None
      | Some m =>
          match oriented_interface start m l with
          | None => None
          | Some i =>
              if in_tags interface_eq_dec i found then Some found
              else
                let found' := add_to_type_seq interface_eq_dec i found pos in
                match m with
                | None => Some found'
                | Some m => collect_interfaces_along_dim fuel (swap_extremity m) l pos found'
                end
          end
      end
  end.

(** connectivity_details.hpp 421-480: CollectGridsAlongDim *)
Fixpoint collect_grids_along_dim (fuel : nat) (start : edge) (l : list interface)
    (pos : insert_position) (found : list grid) : option (list grid) :=
  match fuel with
  | 0 => None
  | S fuel =>
      match equivalent_edge start l with
      | None => None
      | Some m =>
          if in_tags Nat.eq_dec (perpendicular_grid start) found then Some found
          else
            let found' := add_to_type_seq Nat.eq_dec (perpendicular_grid start) found pos in
            match m with
            | None => Some found'
            | Some m => collect_grids_along_dim fuel (swap_extremity m) l pos found'
            end
      end
  end.

(** connectivity_details.hpp 489-518: CollectAllGridsOnDim *)
Definition collect_grids_on_dim (fuel : nat) (p : patch) (g : grid) (l : list interface) : option (list grid) :=
  match collect_grids_along_dim fuel (Edge p g FRONT) l BackInsert [] with
  | None => None
  | Some backward =>
      match type_seq_range Nat.eq_dec backward 0 (length backward - 1) with
      | None => None
      | Some non_overlapping =>
          match collect_grids_along_dim fuel (Edge p g BACK) l FrontInsert non_overlapping with
          | None => None
          | Some forward => Some (type_seq_merge Nat.eq_dec backward forward)
          end
      end
  end.

(** connectivity_details.hpp 528-550: CollectAllInterfacesOnDim *)
Definition collect_interfaces_on_dim (fuel : nat) (p : patch) (g : grid) (l : list interface)
    : option (list interface) :=
  match collect_interfaces_along_dim fuel (Edge p g FRONT) l BackInsert [] with
  | None => None
  | Some backward =>
      match collect_interfaces_along_dim fuel (Edge p g BACK) l FrontInsert backward with
      | None => None
      | Some forward => Some (type_seq_merge interface_eq_dec backward forward)
      end
  end.

(** connectivity_details.hpp 558-601: FindRelevantIdxRangeType (an index range type is the list of its
    grids) and 642-645: find_relevant_idx_range_t, the first one *)
Fixpoint find_relevant_idx_range_types (g : grid) (ranges : list (list grid)) : list (list grid) :=
  match ranges with
  | [] => []
  | r :: rest =>
      type_seq_merge (list_eq_dec Nat.eq_dec) (if in_tags Nat.eq_dec g r then [r] else [])
        (find_relevant_idx_range_types g rest)
  end.
Definition find_relevant_idx_range (g : grid) (ranges : list (list grid)) : option (list grid) :=
  nth_error (find_relevant_idx_range_types g ranges) 0.

(** connectivity.hpp 23-32: inner_edges, all_patches and the static_assert *)
Definition inner_edges (l : list interface) : option (list edge) :=
  strip_outside_edges (map i_edge1 l ++ map i_edge2 l).
Definition all_patches (l : list interface) : option (list patch) :=
  option_map extract_patches (inner_edges l).
Definition connectivity_accepted (l : list interface) : bool :=
  forallb interface_ok l &&
  match inner_edges l, all_patches l with
  | Some es, Some ps => length es =? 4 * length ps
  | _, _ => false
  end.

(** connectivity.hpp 39-59 *)
Definition get_connections (l : list interface) (p : patch) : list interface := patch_connection p l.
Definition find_connections (l : list interface) (p q : patch) : list interface :=
  type_seq_intersection interface_eq_dec (get_connections l p) (get_connections l q).

(** connectivity.hpp 66-70 *)
Definition get_all_interfaces_along_direction (fuel : nat) (l : list interface) (g : grid)
    : option (list interface) :=
  match all_patches l with
  | None => None
  | Some ps => match find_patch g ps with
               | None => None
               | Some p => collect_interfaces_on_dim fuel p g l
               end
  end.

(** connectivity.hpp 81-90, 110-124: the index ranges are given as (type, function from grid to the
    1D range); the result lists, per grid of the line, the 1D range selected from the first range type
    which contains the grid.  std::get by type is ill-formed when the type occurs twice. *)
Section IdxRanges.
  Context {V : Type}.
  Fixpoint get_by_type (t : list grid) (rs : list (list grid * (grid -> V))) : option (grid -> V) :=
    match rs with
    | [] => None
    | (t', v) :: rest =>
        if list_eq_dec Nat.eq_dec t' t
        then if in_tags (list_eq_dec Nat.eq_dec) t (map fst rest) then None else Some v
        else get_by_type t rest
    end.
  Definition get_idx_range (g : grid) (rs : list (list grid * (grid -> V))) : option V :=
    match find_relevant_idx_range g (map fst rs) with
    | None => None
    | Some t => option_map (fun f => f g) (get_by_type t rs)
    end.
  Fixpoint sequence (l : list (option V)) : option (list V) :=
    match l with
    | [] => Some []
    | None :: _ => None
    | Some x :: r => option_map (cons x) (sequence r)
    end.
  Definition get_all_idx_ranges_along_direction (fuel : nat) (l : list interface) (g : grid)
      (rs : list (list grid * (grid -> V))) : option (list V) :=
    match all_patches l with
    | None => None
    | Some ps => match find_patch g ps with
                 | None => None
                 | Some p => match collect_grids_on_dim fuel p g l with
                             | None => None
                             | Some gs => if length gs =? 0 then None
                                          else sequence (map (fun g => get_idx_range g rs) gs)
                             end
                 end
    end.
End IdxRanges.
