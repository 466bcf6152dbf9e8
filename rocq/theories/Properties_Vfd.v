(** Vector fields (C116: elements; C117: slices; C118: copies) and the PDI helpers (C119). *)
From Coq Require Import String.
From Verif Require Import VfdSpec VfdProofs VfdMain VfdCopy VfdExamples.
Open Scope nat_scope.

(** * C116 *)
Theorem C116_mem_new : forall m next ts rg m' next' vf, NoDup ts -> NoDup (map fst rg) ->
  new_vector_field_mem m next ts rg = (m', next', vf) ->
  vf_tags vf = ts /\ on_range vf rg /\ separate vf rg /\ writable m' vf rg /\
  (forall a, uses vf rg a -> (next <= a < next')%Z) /\
  unchanged_but (fun a => (next <= a < next')%Z) m m'.
Proof. exact new_ok. Qed.
Example C116_mem_new_ex : exists m next vf, new_vector_field_mem (fun _ => Free) 100 [7; 9] xrg = (m, next, vf) /\
  on_range vf xrg /\ separate vf xrg /\ writable m vf xrg.
Proof. exact ex_new. Qed.
Print Assumptions C116_mem_new.

Theorem C116_read : forall m vf rg p vec, on_range vf rg -> inside rg p ->
  (at_index m vf p = Ok vec <-> holds m vf p vec).
Proof. exact at_index_iff. Qed.
Print Assumptions C116_read.

Theorem C116_component : forall m vf rg p vec t, on_range vf rg -> inside rg p -> In t (vf_tags vf) ->
  at_index m vf p = Ok vec -> exists v, component vf t = Ok v /\ get m v p = vec_get (vf_tags vf) vec t.
Proof. exact component_value. Qed.
Print Assumptions C116_component.

Theorem C116_assign : forall m vf rg p vec, on_range vf rg -> separate vf rg -> writable m vf rg -> inside rg p ->
  length vec = length (vf_tags vf) ->
  exists m', assign m vf p vec = Ok m' /\ writable m' vf rg /\ holds m' vf p vec /\
    unchanged_but (uses_at vf p) m m' /\
    forall q, inside rg q -> ~ same_point rg p q -> forall w, holds m vf q w -> holds m' vf q w.
Proof. exact assign_ok. Qed.
Print Assumptions C116_assign.

Theorem C116_assign_each : forall vf rg f l m, on_range vf rg -> separate vf rg -> writable m vf rg ->
  (forall p, In p l -> inside rg p /\ length (f p) = length (vf_tags vf)) ->
  (forall p q, In p l -> In q l -> same_point rg p q -> f p = f q) ->
  exists m', assign_each m vf f l = Ok m' /\ writable m' vf rg /\ unchanged_but (uses vf rg) m m' /\
    (forall p, In p l -> holds m' vf p (f p)) /\
    (forall q, inside rg q -> (forall p, In p l -> ~ same_point rg p q) -> forall w, holds m vf q w -> holds m' vf q w).
Proof. exact assign_each_ok. Qed.
Example C116_assign_ex :
  let '(m, next, vf) := new_vector_field_mem (fun _ => Free) 100 [7; 9] xrg in
  match assign_each m vf xval xpts with
  | Ok m' => at_index m' vf (pt 1 3) = Ok [IZR 13; IZR (-3)] /\ at_index m vf (pt 1 3) = Ub /\
             at_index m' vf (pt 2 3) = Ub /\
             match component vf 9 with Ok v => get m' v (pt 0 4) = Ok (IZR (-4)) | _ => False end
  | _ => False
  end.
Proof. exact ex_rw. Qed.
Print Assumptions C116_assign_each.

Theorem C116_view : forall vf rg, on_range vf rg -> span_view vf = Ok vf.
Proof. exact span_same. Qed.
Print Assumptions C116_view.

(** Finding: a VectorField built from fields which do not have the same index range is accepted; its idx_range()
    is that of the first component and reading it at a point of idx_range() is then out of bounds
    (vector_field.hpp 298-303, vector_field_common.hpp 135-138). *)
Theorem C116_ranges_refuted : exists (m : mem) (ts : list tag) (vals : list view) (p : index),
  NoDup ts /\ length vals = length ts /\
  (forall v q, In v vals -> inside (range_of v) q -> exists r, get m v q = Ok r) /\
  inside (idx_range (vector_field_of ts vals)) p /\
  at_index m (vector_field_of ts vals) p = Ub.
Proof. exact mixed_ranges. Qed.
Print Assumptions C116_ranges_refuted.

(** * C117 *)
Theorem C117_slice : forall vf rg spec, on_range vf rg -> fixed_ok rg spec ->
  exists vf', vslice vf spec = Ok vf' /\ vf_tags vf' = vf_tags vf /\ on_range vf' (remaining rg spec) /\
    (forall p, inside (remaining rg spec) p -> inside rg (overlay spec p)) /\
    same_elements vf vf' (remaining rg spec) (overlay spec) /\
    (separate vf rg -> separate vf' (remaining rg spec)) /\
    forall m, writable m vf rg -> writable m vf' (remaining rg spec).
Proof. exact vslice_ok. Qed.
Example C117_slice_ex :
  let '(m, next, vf) := new_vector_field_mem (fun _ => Free) 100 [7; 9] xrg in
  match assign_each m vf xval xpts, vslice vf [(0, 1%Z)], vsub vf [(1, (4%Z, 1))] with
  | Ok m', Ok s, Ok u => at_index m' s (fun _ => 4%Z) = Ok [IZR 14; IZR (-4)] /\ vslice vf [(0, 2%Z)] = Ub /\
             at_index m' u (pt 0 4) = Ok [IZR 4; IZR (-4)] /\ at_index m' u (pt 0 3) = Ub
  | _, _, _ => False
  end.
Proof. exact ex_slice. Qed.
Example C117_slice_hyp : fixed_ok xrg [(0, 1%Z)] /\ ~ fixed_ok xrg [(0, 2%Z)] /\
  sub_range_ok xrg [(1, (4%Z, 1))] /\ ~ sub_range_ok xrg [(1, (4%Z, 2))].
Proof. exact ex_slice_hyp. Qed.
Print Assumptions C117_slice.

Theorem C117_slice_outside : forall vf rg spec, on_range vf rg -> vf_vals vf <> [] -> ~ fixed_ok rg spec ->
  vslice vf spec = Ub.
Proof. exact vslice_ub. Qed.
Print Assumptions C117_slice_outside.

Theorem C117_sub_range : forall vf rg spec, on_range vf rg -> sub_range_ok rg spec ->
  exists vf', vsub vf spec = Ok vf' /\ vf_tags vf' = vf_tags vf /\ on_range vf' (restricted rg spec) /\
    (forall p, inside (restricted rg spec) p -> inside rg p) /\
    same_elements vf vf' (restricted rg spec) (fun p => p) /\
    (separate vf rg -> separate vf' (restricted rg spec)) /\
    forall m, writable m vf rg -> writable m vf' (restricted rg spec).
Proof. exact vsub_ok. Qed.
Print Assumptions C117_sub_range.

Theorem C117_sub_range_outside : forall vf rg spec, on_range vf rg -> vf_vals vf <> [] -> ~ sub_range_ok rg spec ->
  vsub vf spec = Ub.
Proof. exact vsub_ub. Qed.
Print Assumptions C117_sub_range_outside.

(** * C118 *)
Theorem C118_deepcopy : forall m dst src rgd rgs, on_range dst rgd -> on_range src rgs -> vf_tags src = vf_tags dst ->
  same_extents rgd rgs -> separate dst rgd -> writable m dst rgd ->
  (forall a, uses dst rgd a -> ~ uses src rgs a) ->
  (forall q, inside rgs q -> exists vec, holds m src q vec) ->
  exists m', deepcopy m dst src = Ok m' /\ writable m' dst rgd /\ unchanged_but (uses dst rgd) m m' /\
    forall p q vec, inside rgd p -> inside rgs q -> corresponding rgd rgs p q -> holds m src q vec -> holds m' dst p vec.
Proof. exact deepcopy_ok. Qed.
Example C118_deepcopy_ex :
  let '(m, next, src) := new_vector_field_mem (fun _ => Free) 100 [7; 9] xrg in
  match assign_each m src xval xpts with
  | Ok m1 => let '(m2, _, dst) := new_vector_field_mem m1 next [7; 9] xrg' in
      match deepcopy m2 dst src with
      | Ok m3 => at_index m3 dst (pt 6 0) = Ok [IZR 13; IZR (-3)] /\ at_index m3 dst (pt 5 1) = Ok [IZR 4; IZR (-4)] /\
                 at_index m3 src (pt 1 3) = Ok [IZR 13; IZR (-3)]
      | _ => False
      end
  | _ => False
  end.
Proof. exact ex_copy. Qed.
Example C118_deepcopy_hyp : same_extents xrg' xrg /\ corresponding xrg' xrg (pt 6 0) (pt 1 3) /\ ~ same_extents xrg [(0, (0%Z, 2))].
Proof. exact ex_copy_hyp. Qed.
Print Assumptions C118_deepcopy.

Theorem C118_deepcopy_extents : forall m dst src rgd rgs, on_range dst rgd -> on_range src rgs -> vf_tags src = vf_tags dst ->
  vf_tags dst <> [] -> ~ same_extents rgd rgs -> deepcopy m dst src = AssertFail.
Proof. exact deepcopy_extents. Qed.
Print Assumptions C118_deepcopy_extents.

Theorem C118_deepcopy_only_if : forall m dst src m' t d s, deepcopy m dst src = Ok m' -> In t (vf_tags dst) ->
  component dst t = Ok d -> component src t = Ok s -> extents d = extents s.
Proof. exact deepcopy_only_if. Qed.
Print Assumptions C118_deepcopy_only_if.

(** * C119 *)
Theorem C119_pdi_get_arrays : forall file l vs, l <> [] -> NoDup (map snd l) -> complete file (map fst l) ->
  exists vs', PDI_get_arrays file (alternate l) vs = Ok vs' /\
    (forall s v, In (s, v) l -> data_of file s = Some (vs' v)) /\
    (forall v, ~ In v (map snd l) -> vs' v = vs v).
Proof. exact get_arrays_ok. Qed.
Example C119_pdi_get_arrays_ex :
  let file := {| sizes_of := fun s => if String.eqb s "a_extents" then Some 2 else if String.eqb s "b_extents" then Some 1 else None;
                 data_of := fun s => if String.eqb s "a" then Some [1; 2]%R else if String.eqb s "b" then Some [3]%R else None |} in
  complete file ["a"; "b"]%string /\
  match PDI_get_arrays file (alternate [("a"%string, 4); ("b"%string, 2)]) (fun _ => []) with
  | Ok vs => vs 4 = [1; 2]%R /\ vs 2 = [3]%R
  | _ => False
  end.
Proof. exact ex_pdi. Qed.
Print Assumptions C119_pdi_get_arrays.

Theorem C119_pdi_expose_vf : forall stem vf rg suffixes, on_range vf rg -> length suffixes = length (vf_tags vf) ->
  exists l, expose_vector_field stem vf suffixes = Ok l /\ length l = length (vf_tags vf) /\
    forall i s v, nth_error suffixes i = Some s -> nth_error (vf_vals vf) i = Some v ->
      nth_error l i = Some ((stem ++ s)%string, v).
Proof. exact expose_vector_ok. Qed.
Example C119_pdi_expose_ex :
  let '(_, _, vf) := new_vector_field_mem (fun _ => Free) 100 [7; 9] xrg in
  match expose_vector_field "E" vf ["_x"; "_y"]%string with
  | Ok l => map fst l = ["E_x"; "E_y"]%string
  | _ => False
  end /\ expose_idx_range xrg "r" = [("r_starts"%string, [0; 3]%Z); ("r_extents"%string, [2; 2]%Z)].
Proof. exact ex_expose. Qed.
Print Assumptions C119_pdi_expose_vf.

Theorem C119_pdi_expose_idx_range : forall rg name, (forall g f n, In (g, (f, n)) rg -> (0 <= f < 2 ^ 64)%Z /\ (Z.of_nat n < 2 ^ 64)%Z) ->
  expose_idx_range rg name =
    [((name ++ "_starts")%string, map (fun x => fst (snd x)) rg);
     ((name ++ "_extents")%string, map (fun x => Z.of_nat (snd (snd x))) rg)].
Proof. exact expose_range_ok. Qed.
Print Assumptions C119_pdi_expose_idx_range.

(** Finding: an odd number of trailing arguments is accepted by PDI_get_arrays (sizeof...(Args) / 2 + 1): the last
    name is dropped silently and nothing is read for it (pdi_helper.hpp 67). *)
Theorem C119_pdi_get_arrays_odd_refuted : ~ (forall file args vs vs', PDI_get_arrays file args vs = Ok vs' ->
  forall s, In (Name s) args -> exists d, data_of file s = Some d).
Proof. exact odd_argument_refuted. Qed.
Print Assumptions C119_pdi_get_arrays_odd_refuted.

(** Finding: PDI_get_arrays does not notice that an array is missing: if its event reads nothing its vector is
    silently made of zeros, and if the size is missing too the vector is resized with an uninitialised number
    (pdi_helper.hpp 19-34: sizes is not initialised, the status of PDI_event is not looked at). *)
Theorem C119_pdi_get_arrays_missing_refuted :
  (exists file vs vs', PDI_get_arrays file [Name "a"; Vec 0] vs = Ok vs' /\ data_of file "a" = None /\ vs' 0 = [0; 0]%R) /\
  (exists file vs, PDI_get_arrays file [Name "a"; Vec 0] vs = Ub).
Proof. exact missing_refuted. Qed.
Print Assumptions C119_pdi_get_arrays_missing_refuted.
