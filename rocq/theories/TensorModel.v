(** Model of src/data_types (tensors, index arithmetic, tensor_mul, static tensors) and of the type
    sequence tools of src/utils/type_seq_tools.hpp.  Types (index tags) are modelled by values with
    decidable equality, type sequences by lists, template recursion by recursion. *)
From Verif Require Export Lib.
Open Scope nat_scope.

(** ** Type sequences *)
Section TypeSeq.
  Context {A : Type} (dec : forall x y : A, {x = y} + {x <> y}).

  (** DDC: in_tags_v *)
  Definition in_tags (x : A) (l : list A) : bool := if in_dec dec x l then true else false.
  (** DDC: type_seq_rank_v, position of a type in a sequence (first occurrence; length if absent,
      which does not compile) *)
  Fixpoint rank_v (x : A) (l : list A) : nat :=
    match l with [] => 0 | y :: t => if dec x y then 0 else S (rank_v x t) end.
  (** type_seq_tools.hpp 101-119: GetUnique *)
  Fixpoint get_unique (start result : list A) : list A :=
    match start with
    | [] => result
    | h :: t => get_unique t (if in_tags h result then result else result ++ [h])
    end.
  Definition type_seq_unique (l : list A) : list A := get_unique l [].
  (** type_seq_tools.hpp 248-250: type_seq_has_unique_elements_v *)
  Definition has_unique_elements (l : list A) : bool :=
    if list_eq_dec dec l (type_seq_unique l) then true else false.
  (** DDC: type_seq_replace_t with sequences of one element *)
  Definition type_seq_replace (l : list A) (old new : A) : list A :=
    map (fun x => if dec x old then new else x) l.
  (** type_seq_tools.hpp 121-179: GetPermutationParity (None: no specialisation, does not compile) *)
  Fixpoint permutation_parity (l ordered : list A) : option Z :=
    match ordered, l with
    | [], [] => Some 1%Z
    | oh :: ot, h :: t =>
        if (negb (has_unique_elements (oh :: ot)) || negb (has_unique_elements (h :: t)))%bool
        then Some 0%Z
        else if dec h oh then permutation_parity t ot
        else option_map Z.opp (permutation_parity (type_seq_replace t oh h) ot)
    | _, _ => None
    end.
  (** type_seq_tools.hpp 24-46 with 212-213: type_seq_range_t<l, Start, End>; type_seq_merge_t adds an
      element only if it is not already there *)
  Fixpoint type_seq_range_aux (l : list A) (start stop idx : nat) (out : list A) (k : nat) : list A :=
    match k with
    | O => out
    | S k' =>
        let out' := match nth_error l idx with
                    | Some x => if (Nat.leb start idx && Nat.ltb idx stop)%bool
                                then (if in_tags x out then out else out ++ [x]) else out
                    | None => out
                    end in
        type_seq_range_aux l start stop (S idx) out' k'
    end.
  Definition type_seq_range (l : list A) (start stop : nat) : list A :=
    type_seq_range_aux l start stop start [] (stop - start).
End TypeSeq.

(** ** Index tags: contravariant, covariant, Cartesian (its own dual) *)
Inductive tag := Contra (n : nat) | Cov (n : nat) | Cart (n : nat).
Definition tag_dec (x y : tag) : {x = y} + {x <> y}.
Proof. decide equality; apply Nat.eq_dec. Defined.
(** Dim::Dual, Dim::IS_CONTRAVARIANT, Dim::IS_COVARIANT *)
Definition dual (t : tag) : tag := match t with Contra n => Cov n | Cov n => Contra n | Cart n => Cart n end.
Definition is_contra (t : tag) : bool := match t with Cov _ => false | _ => true end.
Definition is_cov (t : tag) : bool := match t with Contra _ => false | _ => true end.
(** VectorIndexSet (vector_index_tools.hpp 9-10) and its classifications (78-94) *)
Notation index_set := (list tag).
Definition set_dec : forall x y : index_set, {x = y} + {x <> y} := list_eq_dec tag_dec.
Definition is_contra_set (s : index_set) : bool := forallb is_contra s.
Definition is_cov_set (s : index_set) : bool := forallb is_cov s.
(** vector_index_tools.hpp 29-35: GetContravariantDims *)
Definition contra_dims (s : index_set) : index_set := map (fun t => if is_contra t then t else dual t) s.

(** ** Tensor elements (tensor_index_tools.hpp) *)
(** Kokkos::layout_right::mapping: row-major offset *)
Fixpoint layout_right_acc (acc : nat) (exts pos : list nat) : nat :=
  match exts, pos with
  | e :: exts', p :: pos' => layout_right_acc (acc * e + p) exts' pos'
  | _, _ => acc
  end.
Definition layout_right (exts pos : list nat) : nat := layout_right_acc 0 exts pos.
(** ranks of the tags along each dimension *)
Fixpoint ranks (sets : list index_set) (dims : list tag) : list nat :=
  match sets, dims with
  | s :: sets', d :: dims' => rank_v tag_dec d s :: ranks sets' dims'
  | _, _ => []
  end.
(** tensor_index_tools.hpp 56-67: the indices are valid *)
Fixpoint valid_indices (sets : list index_set) (dims : list tag) : bool :=
  match sets, dims with
  | [], [] => true
  | s :: sets', d :: dims' => (in_tags tag_dec d s && valid_indices sets' dims')%bool
  | _, _ => false
  end.
(** 69-88: TensorIndexElement::index *)
Definition element_index (sets : list index_set) (dims : list tag) : nat :=
  layout_right (map (@length tag) sets) (ranks sets dims).
(** tensor_common.hpp 48: number of elements *)
Definition n_elements (sets : list index_set) : nat := fold_right Nat.mul 1 (map (@length tag) sets).
(** 346-366: GetNthTensorIndexElement<Elem, IdxDimHint, sets> *)
Fixpoint nth_element (elem hint : nat) (sets : list index_set) : list tag :=
  match hint with
  | O => []
  | S d =>
      let set := nth d sets [] in
      nth_element (elem / length set) d sets ++ [nth (elem mod length set) set (Cart 0)]
  end.
(** 442-446: get_nth_tensor_index_element_t *)
Definition get_nth_element (elem : nat) (sets : list index_set) : list tag :=
  nth_element elem (length sets) sets.

(** tensor_common.hpp 115-134: get, as a read and as an assignment through the reference *)
Definition tensor_get (sets : list index_set) (data : list R) (dims : list tag) : res R :=
  if valid_indices sets dims then rd data (Z.of_nat (element_index sets dims)) else AssertFail.
Definition tensor_set (sets : list index_set) (data : list R) (dims : list tag) (x : R) : res (list R) :=
  if valid_indices sets dims then wr data (Z.of_nat (element_index sets dims)) x else AssertFail.
(** tensor.hpp 89-94: constructor with a fill value *)
Definition tensor_fill (sets : list index_set) (x : R) : list R := repeat x (n_elements sets).

(** tensor_common.hpp 255-298, 357-381: assign_elements *)
Fixpoint assign_loop (n : nat) (isets : list index_set) (osets : list index_set) (input : list R)
         (ksets : list index_set) (out : list R) : res (list R) :=
  match n with
  | O => Ok out
  | S n' =>
      let* out' := assign_loop n' isets osets input ksets out in
      let dims := get_nth_element n' ksets in
      let* x := tensor_get isets input dims in
      tensor_set osets out' dims x
  end.
Definition assign_elements (osets isets : list index_set) (out input : list R) : res (list R) :=
  if n_elements isets <? n_elements osets
  then assign_loop (n_elements isets) isets osets input isets out
  else assign_loop (n_elements osets) isets osets input osets out.

(** ** Static tensors (static_tensors.hpp) *)
(** 66-83: IdentityTensor::get *)
Definition identity_get (row col : index_set) (dims : list tag) : res R :=
  match dims with
  | [r; c] => if valid_indices [row; col] dims then
                Ok (if rank_v tag_dec r row =? rank_v tag_dec c col then 1%R else 0%R)
              else AssertFail
  | _ => AssertFail
  end.
(** 150-158: CartesianLeviCivitaTensor::get; 236-243 with the coefficient of 217-228:
    LeviCivitaTensor::get *)
Definition levi_civita_coeff (s : index_set) (jacobian : R) : res R :=
  if is_cov_set s then Ok jacobian
  else if Rlt_dec (Rabs jacobian) (1 / 10 ^ 19) then AssertFail else Ok (1 / jacobian)%R.
Definition levi_civita_get (s : index_set) (coeff : R) (dims : list tag) : res R :=
  if valid_indices (repeat s (length s)) dims then
    match permutation_parity tag_dec dims s with Some e => Ok (IZR e * coeff)%R | None => AssertFail end
  else AssertFail.

(** ** tensor_mul (indexed_tensor.hpp) *)
(** VectorIndexIdMap<id, set> (vector_index_tools.hpp 125-135) *)
Notation id_map := (nat * list tag)%type.
Definition id_map_dec (x y : id_map) : {x = y} + {x <> y}.
Proof. decide equality; [apply set_dec | apply Nat.eq_dec]. Defined.

(** tensor_index_tools.hpp 142-157: CountChar *)
Fixpoint count_char (c : nat) (l : list nat) : nat :=
  match l with [] => 0 | h :: t => (if h =? c then 1 else 0) + count_char c t end.
(** tensor_index_tools.hpp 201-224: GetUniqueIndices *)
Fixpoint unique_indices_acc (l result : list id_map) : list id_map :=
  match l with
  | [] => result
  | h :: t =>
      let ins := (fst h, contra_dims (snd h)) in
      unique_indices_acc t (if in_tags id_map_dec ins result then result else result ++ [ins])
  end.
Definition unique_indices (l : list id_map) : list id_map := unique_indices_acc l [].
(** tensor_index_tools.hpp 226-267: GetNonRepeatedIndices<all, Elem, ids, out>, from the last
    element to the first *)
Fixpoint non_repeated_acc (all : list id_map) (elem : nat) (ids : list nat) (out : list id_map)
  : list id_map :=
  let cur := nth elem all (0, []) in
  let out' := if count_char (fst cur) ids =? 1 then cur :: out else out in
  match elem with
  | O => out'
  | S e => non_repeated_acc all e ids out'
  end.
Definition non_repeated_indices (all : list id_map) : list id_map :=
  non_repeated_acc all (length all - 1) (map fst all) [].
(** tensor_index_tools.hpp 269-299: GetRelevantVectorIndexSets (accumulated in reverse) *)
Fixpoint relevant_sets (c : nat) (l : list id_map) (out : list index_set) : list index_set :=
  match l with
  | [] => out
  | h :: t => relevant_sets c t (if fst h =? c then snd h :: out else out)
  end.
(** indexed_tensor.hpp 155-178: check_id_validity *)
Definition check_id_validity (c : nat) (all : list id_map) : bool :=
  let n := count_char c (map fst all) in
  if n =? 2 then
    match relevant_sets c all [] with
    | s1 :: s2 :: _ =>
        ((is_cov_set s1 || is_cov_set s2) && (is_contra_set s1 || is_contra_set s2)
         && (if set_dec (contra_dims s1) (contra_dims s2) then true else false))%bool
    | _ => false
    end
  else n =? 1.
(** 180-184 and 238-241: check_all_id_validity *)
Definition check_all (all : list id_map) : bool :=
  forallb (fun c => check_id_validity c all) (type_seq_unique Nat.eq_dec (map fst all)).

(** tensor_index_tools.hpp 368-408: GetNthTensorIndexElementFromMap, from dimension [dim] down *)
Fixpoint from_map (all : list id_map) (start : list tag) (dim : nat) (result : list tag) : list tag :=
  match dim with
  | O => result
  | S d =>
      let valid := nth d all (0, []) in
      let contra := (fst valid, contra_dims (snd valid)) in
      let relevant := nth (rank_v id_map_dec contra (unique_indices all)) start (Cart 0) in
      let elem := if is_contra_set (snd valid) then relevant else dual relevant in
      from_map all start d (elem :: result)
  end.
(** 466-474: get_nth_tensor_index_element_from_map_t *)
Definition get_nth_from_map (elem : nat) (all : list id_map) : list tag :=
  from_map all (get_nth_element elem (map snd (unique_indices all))) (length all) [].
(** 416-426: ExtractSubTensorElement: the tags of the dimensions of [local] in the global element *)
Definition extract_sub (global local : list id_map) (dims : list tag) : list tag :=
  map (fun v => nth (rank_v id_map_dec v global) dims (Cart 0)) local.

(** An indexed tensor: its index pattern (internal_index, 100-108) and its accessor get<element>. *)
Record indexed_tensor := { it_pattern : list id_map; it_get : list tag -> res R }.
(** index<ids...>(tensor) (indexed_tensor.hpp 100-108, 199-209; static_asserts 35-39 and 201-203) *)
Definition index_tensor (ids : list nat) (sets : list index_set) (get : list tag -> res R)
  : res indexed_tensor :=
  if ((length ids =? length sets) && has_unique_elements id_map_dec (combine ids sets))%bool
  then Ok {| it_pattern := combine ids sets; it_get := get |} else AssertFail.

(** (t().get<...>() * ...): right fold of the products, non-empty pack *)
Fixpoint product_of (global : list id_map) (dims : list tag) (ts : list indexed_tensor) : res R :=
  match ts with
  | [] => AssertFail
  | [t] => it_get t (extract_sub global (it_pattern t) dims)
  | t :: ts' =>
      let* a := it_get t (extract_sub global (it_pattern t) dims) in
      let* b := product_of global dims ts' in Ok (a * b)%R
  end.

(** indexed_tensor.hpp 110-139 and 141-152: the loop over Is = 0 .. N-1, scalar and tensor results *)
Fixpoint mul_loop_scalar (n : nat) (global : list id_map) (ts : list indexed_tensor) (result : R) : res R :=
  match n with
  | O => Ok result
  | S n' =>
      let* r := mul_loop_scalar n' global ts result in
      let* p := product_of global (get_nth_from_map n' global) ts in
      Ok (r + p)%R
  end.
Fixpoint mul_loop_tensor (n : nat) (global rpattern : list id_map) (ts : list indexed_tensor)
         (result : list R) : res (list R) :=
  match n with
  | O => Ok result
  | S n' =>
      let* r := mul_loop_tensor n' global rpattern ts result in
      let idx := get_nth_from_map n' global in
      let* p := product_of global idx ts in
      let sub := extract_sub global rpattern idx in
      let* old := tensor_get (map snd rpattern) r sub in
      tensor_set (map snd rpattern) r sub (old + p)%R
  end.
(** indexed_tensor.hpp 226-268: tensor_mul; the result type is decided by the index patterns *)
Definition all_indices (ts : list indexed_tensor) : list id_map := concat (map it_pattern ts).
(** [inl]: a scalar (element type of the first tensor), [inr]: a tensor over the non-repeated indices *)
Definition tensor_mul (ts : list indexed_tensor) : res (R + list R) :=
  let all := all_indices ts in
  if check_all all then
    let rpattern := non_repeated_indices all in
    let n := n_elements (map snd (unique_indices all)) in
    if length rpattern =? 0 then
      let* r := mul_loop_scalar n all ts 0%R in Ok (inl r)
    else
      let* r := mul_loop_tensor n all rpattern ts (tensor_fill (map snd rpattern) 0%R) in Ok (inr r)
  else AssertFail.
