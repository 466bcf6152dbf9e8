(** Model of the vector fields: src/data_types/vector_field_common.hpp, vector_field.hpp,
    vector_field_mem.hpp, and of src/io/pdi_helper.hpp.

    Simplifications: exact real numbers; a grid is a number, an index gives an element of every grid (the
    grids a field does not have are ignored, as the conversions of Idx do); one memory space; parallel loops
    and copies are executed in some sequential order (the theorems hold for any order of the points). *)
From Coq Require Import String.
From Verif Require Export Lib.
Open Scope nat_scope.

(** ** Memory *)
Inductive slot := Free | Raw | Val (r : R).
Definition mem := Z -> slot.
Definition load (m : mem) (a : Z) : res R := match m a with Val r => Ok r | _ => Ub end.
Definition store (m : mem) (a : Z) (r : R) : res mem :=
  match m a with
  | Free => Ub
  | _ => Ok (fun b => if Z.eqb b a then Val r else m b)
  end.

(** ** Fields (DDC's ChunkSpan: pointer, index range, strides) *)
Definition grid := nat.
Record dim := Dim { d_grid : grid; d_front : Z; d_size : nat; d_stride : Z }.
Record view := View { v_base : Z; v_dims : list dim }.
Definition index := grid -> Z.
Definition in_dim (d : dim) (p : index) : bool :=
  (d_front d <=? p (d_grid d))%Z && (p (d_grid d) <? d_front d + Z.of_nat (d_size d))%Z.
Definition addr (v : view) (p : index) : Z :=
  fold_right (fun d a => ((p (d_grid d) - d_front d) * d_stride d + a)%Z) (v_base v) (v_dims v).
Definition in_view (v : view) (p : index) : bool := forallb (fun d => in_dim d p) (v_dims v).
(** field(idx) *)
Definition get (m : mem) (v : view) (p : index) : res R := if in_view v p then load m (addr v p) else Ub.
Definition set (m : mem) (v : view) (p : index) (r : R) : res mem :=
  if in_view v p then store m (addr v p) r else Ub.

(** field[Idx], field[IdxRange] (DDC) *)
Fixpoint assoc {A} (g : grid) (l : list (grid * A)) : option A :=
  match l with [] => None | (h, a) :: l' => if g =? h then Some a else assoc g l' end.
Fixpoint slice_dims (ds : list dim) (spec : list (grid * Z)) : res (Z * list dim) :=
  match ds with
  | [] => Ok (0%Z, [])
  | d :: ds' =>
      let* (b, l) := slice_dims ds' spec in
      match assoc (d_grid d) spec with
      | Some i =>
          if in_dim d (fun _ => i) then Ok ((b + (i - d_front d) * d_stride d)%Z, l) else Ub
      | None => Ok (b, d :: l)
      end
  end.
Definition slice (v : view) (spec : list (grid * Z)) : res view :=
  let* (b, l) := slice_dims (v_dims v) spec in Ok (View (v_base v + b)%Z l).
(** a range: front and size *)
Fixpoint sub_dims (ds : list dim) (spec : list (grid * (Z * nat))) : res (Z * list dim) :=
  match ds with
  | [] => Ok (0%Z, [])
  | d :: ds' =>
      let* (b, l) := sub_dims ds' spec in
      match assoc (d_grid d) spec with
      | Some (f, n) =>
          if (d_front d <=? f)%Z && (f + Z.of_nat n <=? d_front d + Z.of_nat (d_size d))%Z
          then Ok ((b + (f - d_front d) * d_stride d)%Z, Dim (d_grid d) f n (d_stride d) :: l) else Ub
      | None => Ok (b, d :: l)
      end
  end.
Definition sub_view (v : view) (spec : list (grid * (Z * nat))) : res view :=
  let* (b, l) := sub_dims (v_dims v) spec in Ok (View (v_base v + b)%Z l).

(** FieldMem on an index range: layout right *)
Definition ranges := list (grid * (Z * nat)).
Fixpoint volume (rg : ranges) : nat := match rg with [] => 1 | (_, (_, n)) :: rg' => n * volume rg' end.
Fixpoint right_dims (rg : ranges) : list dim :=
  match rg with
  | [] => []
  | (g, (f, n)) :: rg' => Dim g f n (Z.of_nat (volume rg')) :: right_dims rg'
  end.

(** ** vector_field_common.hpp *)
(** the tags of the vector (NDTypeTag) and m_values, 104 *)
Definition tag := nat.
Record vfield := VField { vf_tags : list tag; vf_vals : list view }.
(** ddc::type_seq_rank_v *)
Fixpoint rank (t : tag) (l : list tag) : nat :=
  match l with [] => 0 | u :: l' => if t =? u then 0 else S (rank t l') end.
(** get<QueryTag>(), vector_field.hpp 403-408, vector_field_mem.hpp 337-354; a tag which is not there is
    refused by the compiler *)
Definition component (vf : vfield) (t : tag) : res view :=
  match nth_error (vf_vals vf) (rank t (vf_tags vf)) with Some v => Ok v | None => Ub end.
(** idx_range(), 135-138: that of the first component *)
Definition idx_range (vf : vfield) : list (grid * (Z * nat)) :=
  match vf_vals vf with
  | [] => []
  | v :: _ => map (fun d => (d_grid d, (d_front d, d_size d))) (v_dims v)
  end.
Definition extents (v : view) : list nat := map d_size (v_dims v).

(** ddc::parallel_deepcopy of one component: element by element, by position in the ranges; different
    extents are refused *)
Fixpoint positions (ns : list nat) : list (list nat) :=
  match ns with
  | [] => [[]]
  | n :: ns' => flat_map (fun k => map (cons k) (positions ns')) (seq 0 n)
  end.
Fixpoint at_position (ds : list dim) (b : Z) (k : list nat) : Z :=
  match ds, k with
  | d :: ds', i :: k' => (Z.of_nat i * d_stride d + at_position ds' b k')%Z
  | _, _ => b
  end.
Fixpoint copy_each (m : mem) (dst src : view) (l : list (list nat)) : res mem :=
  match l with
  | [] => Ok m
  | k :: l' =>
      let* r := load m (at_position (v_dims src) (v_base src) k) in
      let* m := store m (at_position (v_dims dst) (v_base dst) k) r in
      copy_each m dst src l'
  end.
Definition parallel_deepcopy (m : mem) (dst src : view) : res mem :=
  if list_eq_dec Nat.eq_dec (extents dst) (extents src) then copy_each m dst src (positions (extents dst))
  else AssertFail.
(** VectorFieldCommon::deepcopy, 154-161 *)
Fixpoint deepcopy_tags (m : mem) (dst src : vfield) (ts : list tag) : res mem :=
  match ts with
  | [] => Ok m
  | t :: ts' =>
      let* d := component dst t in
      let* s := component src t in
      let* m := parallel_deepcopy m d s in
      deepcopy_tags m dst src ts'
  end.
(** ddcHelper::deepcopy, 35-45: the tags are compared by the compiler, the extents (of the first
    components) by an assertion *)
Definition deepcopy (m : mem) (dst src : vfield) : res mem :=
  match vf_vals dst, vf_vals src with
  | d :: _, s :: _ =>
      if list_eq_dec Nat.eq_dec (extents d) (extents s) then deepcopy_tags m dst src (vf_tags dst) else AssertFail
  | _, _ => deepcopy_tags m dst src (vf_tags dst)
  end.

(** ** vector_field_mem.hpp *)
(** constructor, 122-130 and 167-170: one FieldMem per component; [next] is the first free address of the
    allocator *)
Definition alloc_mem (m : mem) (next : Z) (n : nat) : mem :=
  fun a => if (next <=? a)%Z && (a <? next + Z.of_nat n)%Z then Raw else m a.
Fixpoint alloc_views (rg : ranges) (k : nat) (next : Z) : list view :=
  match k with
  | 0 => []
  | S k' => View next (right_dims rg) :: alloc_views rg k' (next + Z.of_nat (volume rg))%Z
  end.
Definition new_vector_field_mem (m : mem) (next : Z) (ts : list tag) (rg : ranges) : mem * Z * vfield :=
  (alloc_mem m next (length ts * volume rg), (next + Z.of_nat (length ts * volume rg))%Z,
   VField ts (alloc_views rg (length ts) next)).

(** ** vector_field.hpp *)
(** the constructor from fields, 298-303 *)
Definition vector_field_of (ts : list tag) (vals : list view) : vfield := VField ts vals.
(** from another VectorField(Mem): conversions, span_view, span_cview, 148-190, 325-341 *)
Fixpoint map_all {A B} (f : A -> res B) (l : list A) : res (list B) :=
  match l with
  | [] => Ok []
  | a :: l' => let* b := f a in let* bs := map_all f l' in Ok (b :: bs)
  end.
Definition span_view (vf : vfield) : res vfield :=
  let* vals := map_all (component vf) (vf_tags vf) in Ok (VField (vf_tags vf) vals).
(** operator(), 211-217: the vector of the components, in the order of the tags *)
Definition at_index (m : mem) (vf : vfield) (p : index) : res (list R) :=
  map_all (fun v => get m v p) (vf_vals vf).
(** operator[], 192-205 and 377-396 *)
Definition vslice (vf : vfield) (spec : list (grid * Z)) : res vfield :=
  let* vals := map_all (fun t => let* v := component vf t in slice v spec) (vf_tags vf) in
  Ok (VField (vf_tags vf) vals).
Definition vsub (vf : vfield) (spec : list (grid * (Z * nat))) : res vfield :=
  let* vals := map_all (fun t => let* v := component vf t in sub_view v spec) (vf_tags vf) in
  Ok (VField (vf_tags vf) vals).
(** ddcHelper::get<Dim>(vector) *)
Definition vec_get (ts : list tag) (vec : list R) (t : tag) : res R :=
  match nth_error vec (rank t ts) with Some r => Ok r | None => Ub end.
(** assign_vector_field_element, 516-533 *)
Fixpoint assign_tags (m : mem) (vf : vfield) (p : index) (vec : list R) (ts : list tag) : res mem :=
  match ts with
  | [] => Ok m
  | t :: ts' =>
      let* v := component vf t in
      let* r := vec_get (vf_tags vf) vec t in
      let* m := set m v p r in
      assign_tags m vf p vec ts'
  end.
Definition assign (m : mem) (vf : vfield) (p : index) (vec : list R) : res mem :=
  assign_tags m vf p vec (vf_tags vf).
(** the loops over the index range in which it is used: for_each(l, [](p) { assign(vf, p, f(p)); }) *)
Fixpoint assign_each (m : mem) (vf : vfield) (f : index -> list R) (l : list index) : res mem :=
  match l with
  | [] => Ok m
  | p :: l' => let* m := assign m vf p (f p) in assign_each m vf f l'
  end.

(** ** pdi_helper.hpp *)
(** PDI_expose_vector_field, 104-116: the data exposed, in order; the number of suffixes is checked by the
    compiler *)
Fixpoint combine3 (stem : string) (suffixes : list string) (vs : list view) : list (string * view) :=
  match suffixes, vs with
  | s :: ss, v :: vs' => ((stem ++ s)%string, v) :: combine3 stem ss vs'
  | _, _ => []
  end.
Definition expose_vector_field (stem : string) (vf : vfield) (suffixes : list string) : res (list (string * view)) :=
  let* vs := map_all (component vf) (vf_tags vf) in Ok (combine3 stem suffixes vs).

(** PDI_expose_idx_range, 74-93: name_starts and name_extents, as size_t *)
Definition to_size_t (z : Z) : Z := (z mod 2 ^ 64)%Z.
Definition expose_idx_range (rg : ranges) (name : string) : list (string * list Z) :=
  [((name ++ "_starts")%string, map (fun x => to_size_t (fst (snd x) - 0)) rg);
   ((name ++ "_extents")%string, map (fun x => to_size_t (Z.of_nat (snd (snd x)))) rg)].

(** PDI_get_arrays, 60-72: the arguments after the event name, alternately a name and a vector *)
Inductive arg := Name (s : string) | Vec (id : nat).
(** what the PDI specification file makes the events read: under each name, a size or a list of values
    ([None]: nothing) *)
Record pdi_file := { sizes_of : string -> option nat; data_of : string -> option (list R) }.
Definition get_name_tuple (args : list arg) (n : nat) : res (list string) :=
  map_all (fun i => match nth_error args (i * 2) with Some (Name s) => Ok s | _ => Ub end) (seq 0 n).
Definition get_vector_tuple (args : list arg) (n : nat) : res (list nat) :=
  map_all (fun i => match nth_error args (i * 2 + 1) with Some (Vec v) => Ok v | _ => Ub end) (seq 0 n).
(** the vectors of the caller: id -> content *)
Definition vectors := nat -> list R.
(** detail::PDI_get_array, 12-35: sizes read first (an array which is not initialised: an event which
    reads nothing leaves an indeterminate size), then the vectors are resized and filled; reading more data
    than the size shared with PDI is out of bounds *)
Fixpoint read_all (file : pdi_file) (l : list (string * nat)) (vs : vectors) : res vectors :=
  match l with
  | [] => Ok vs
  | (name, id) :: l' =>
      match sizes_of file (name ++ "_extents")%string with
      | None => Ub
      | Some n =>
          match data_of file name with
          | None => (* resized, zero-filled beyond its former content *)
              read_all file l' (fun i => if i =? id then firstn n (vs id ++ repeat 0%R n) else vs i)
          | Some d =>
              if length d =? n then read_all file l' (fun i => if i =? id then d else vs i)
              else if n <? length d then Ub
              else read_all file l' (fun i => if i =? id then d ++ skipn (length d) (firstn n (vs id ++ repeat 0%R n)) else vs i)
          end
      end
  end.
Definition PDI_get_arrays (file : pdi_file) (args : list arg) (vs : vectors) : res vectors :=
  let n := (length args - 2) / 2 + 1 in
  let* names := get_name_tuple args n in
  let* ids := get_vector_tuple args n in
  read_all file (combine names ids) vs.
