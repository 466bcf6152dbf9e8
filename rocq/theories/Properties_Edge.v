(** C35: equivalent coordinates and indices across an interface between two patches. *)
From Verif Require Import EdgeModel EdgeSpec EdgeProofs EdgeSlice EdgeFloat.
Open Scope R_scope.

(** the coordinate transformation is the documented affine map (the end of a period is its beginning) *)
Theorem C35_coordinate_map : forall agree cur tgt x, valid_edge cur -> valid_edge tgt ->
  e_min cur <= x <= e_max cur ->
  transform_edge_coord agree cur tgt x = Ok (canon tgt (edge_map agree cur tgt x)).
Proof. exact transform_ok. Qed.
Print Assumptions C35_coordinate_map.

(** the documented map sends the ends of an edge to the ends of the other one, in the order the
    orientation says *)
Theorem C35_ends : forall (agree : bool) cur tgt, valid_edge cur -> valid_edge tgt ->
  edge_map agree cur tgt (e_min cur) = (if agree then e_min tgt else e_max tgt) /\
  edge_map agree cur tgt (e_max cur) = (if agree then e_max tgt else e_min tgt).
Proof. exact edge_map_ends. Qed.
Print Assumptions C35_ends.

(** there and back is the identity, and the image lies on the other edge *)
Theorem C35_coordinate_round_trip : forall agree cur tgt x, valid_edge cur -> valid_edge tgt ->
  e_per cur = e_per tgt -> on_edge cur x ->
  exists y, transform_edge_coord agree cur tgt x = Ok y /\ on_edge tgt y /\
    transform_edge_coord agree tgt cur y = Ok x.
Proof. exact transform_round_trip. Qed.
Print Assumptions C35_coordinate_round_trip.

(** periodic edges: an index within ten periods is reduced to the range ... *)
Theorem C35_index_wrap : forall e i, valid_edge e -> e_per e = true ->
  (e_fr e - 10 * n_cells e <= i < e_fr e + 11 * n_cells e)%Z ->
  wrap_index e i = (e_fr e + (i - e_fr e) mod (n_cells e))%Z.
Proof. exact wrap_index_ok. Qed.
Print Assumptions C35_index_wrap.

(** ... and further away the assertion fails *)
Theorem C35_index_far : forall rescale agree cur tgt i, valid_edge cur -> e_per cur = true ->
  (i < e_fr cur - 10 * n_cells cur \/ e_fr cur + 11 * n_cells cur < i)%Z ->
  search_uniform rescale agree cur tgt i = AssertFail.
Proof. exact wrap_index_far. Qed.
Print Assumptions C35_index_far.

(** uniform grids, index rescaling in exact arithmetic: a match is found exactly when the other grid
    has the same point, and it is that point.  [_partial]: exact arithmetic; see
    [C35_uniform_binary_ratio] and [C35_uniform_float_refuted]. *)
Theorem C35_uniform_partial : forall agree cur tgt i, valid_edge cur -> valid_edge tgt ->
  uniform cur -> uniform tgt -> in_range cur i ->
  (exists j, search_uniform rescale_exact agree cur tgt i = Ok (Some j) /\ in_range tgt j /\ equivalent agree cur tgt i j) \/
  (search_uniform rescale_exact agree cur tgt i = Ok None /\ forall j, in_range tgt j -> ~ equivalent agree cur tgt i j).
Proof. exact uniform_search. Qed.
Print Assumptions C35_uniform_partial.

(** the public operators: is_match_available tells whether the other grid has the point, operator() gives
    it and asserts when there is none *)
Theorem C35_operator_partial : forall agree cur tgt i, valid_edge cur -> valid_edge tgt ->
  uniform cur -> uniform tgt -> in_range cur i ->
  let s := search_uniform rescale_exact agree cur tgt i in
  (is_match_available s = Ok true /\ exists j, transform_idx s = Ok j /\ in_range tgt j /\ equivalent agree cur tgt i j) \/
  (is_match_available s = Ok false /\ transform_idx s = AssertFail /\ forall j, in_range tgt j -> ~ equivalent agree cur tgt i j).
Proof. exact uniform_interface. Qed.
Print Assumptions C35_operator_partial.

Theorem C35_uniform_round_trip_partial : forall agree cur tgt i j, valid_edge cur -> valid_edge tgt ->
  uniform cur -> uniform tgt -> e_per cur = e_per tgt -> in_range cur i ->
  search_uniform rescale_exact agree cur tgt i = Ok (Some j) ->
  search_uniform rescale_exact agree tgt cur j = Ok (Some i).
Proof. exact uniform_round_trip. Qed.
Print Assumptions C35_uniform_round_trip_partial.

(** in IEEE binary64 arithmetic the search is the exact one whenever the ratio of the numbers of cells
    is a binary fraction (equal numbers, multiples, powers of two) *)
Theorem C35_uniform_binary_ratio : forall agree cur tgt i q k, valid_edge cur -> valid_edge tgt -> in_range cur i ->
  (n_cells cur < 2 ^ 31)%Z -> (n_cells tgt < 2 ^ 31)%Z -> (0 <= k <= 20)%Z ->
  (n_cells cur * 2 ^ k = q * n_cells tgt)%Z ->
  search_uniform rescale_b64 agree cur tgt i = search_uniform rescale_exact agree cur tgt i.
Proof. exact search_binary_ratio. Qed.
Print Assumptions C35_uniform_binary_ratio.

(** refuted: with 32 cells against 123 the rounding of the ratio makes the search return index 122 for
    the last point, whose counterpart is 123 *)
Theorem C35_uniform_float_refuted : let e1 := unit_edge 32 false in let e2 := unit_edge 123 false in
  search_uniform rescale_b64 true e1 e2 32 = Ok (Some 122%Z) /\
  search_uniform rescale_exact true e1 e2 32 = Ok (Some 123%Z) /\
  equivalent true e1 e2 32 123 /\ ~ equivalent true e1 e2 32 122.
Proof. exact float_rescale_wrong. Qed.
Print Assumptions C35_uniform_float_refuted.

(** non uniform grids: the dichotomy ends and gives the nearest index, accepted within 1e-14 *)
Theorem C35_nonuniform : forall fuel agree cur tgt i, valid_edge cur -> valid_edge tgt -> e_per cur = e_per tgt ->
  in_range cur i -> (n_cells tgt <= Z.of_nat fuel)%Z ->
  (exists j, search_nonuniform fuel agree cur tgt i = Ok (Some (Some j)) /\ in_range tgt j /\
     Rabs (pt cur i - image agree cur tgt j) < / 10 ^ 14 /\
     forall k, in_range tgt k -> Rabs (pt cur i - image agree cur tgt j) <= Rabs (pt cur i - image agree cur tgt k)) \/
  (search_nonuniform fuel agree cur tgt i = Ok (Some None) /\
     forall k, in_range tgt k -> / 10 ^ 14 <= Rabs (pt cur i - image agree cur tgt k)).
Proof. exact nonuniform_search. Qed.
Print Assumptions C35_nonuniform.

(** an exact counterpart is always found *)
Theorem C35_nonuniform_exact : forall fuel agree cur tgt i j, valid_edge cur -> valid_edge tgt -> e_per cur = e_per tgt ->
  in_range cur i -> in_range tgt j -> (n_cells tgt <= Z.of_nat fuel)%Z ->
  equivalent agree cur tgt i j -> search_nonuniform fuel agree cur tgt i = Ok (Some (Some j)).
Proof. exact nonuniform_exact. Qed.
Print Assumptions C35_nonuniform_exact.

(** refuted: "the search ends on every grid": with a one-point target it never does *)
Theorem C35_single_point_refuted : forall fuel agree cur tgt x, valid_edge cur -> e_per tgt = false -> e_n tgt = 1%nat ->
  (0 <= e_fr tgt < Z.of_nat (length (e_pts tgt)))%Z ->
  get_target_idx fuel agree cur tgt x = Ok None.
Proof. exact single_point_diverges. Qed.
Print Assumptions C35_single_point_refuted.

(** C53: conforming index slices.  Uniform, non periodic: the two slices list exactly the common
    points, in the same order or in reverse order. *)
Theorem C53_uniform : forall agree e1 e2, valid_edge e1 -> valid_edge e2 -> uniform e1 -> uniform e2 ->
  e_per e1 = false -> e_per e2 = false -> (Z.of_nat (e_n e1) < 2 ^ 64)%Z -> (Z.of_nat (e_n e2) < 2 ^ 64)%Z ->
  exists l1 l2, slices_uniform e1 e2 = Ok (l1, l2) /\ s_size l1 = s_size l2 /\ (2 <= s_size l1)%Z /\
    (forall k, (0 <= k < s_size l1)%Z -> in_range e1 (slice_at l1 k) /\ in_range e2 (slice_at l2 k) /\
       equivalent agree e1 e2 (slice_at l1 k) (slice_at l2 (if agree then k else s_size l1 - 1 - k)%Z)) /\
    (forall i j, in_range e1 i -> in_range e2 j -> equivalent agree e1 e2 i j ->
       exists k, (0 <= k < s_size l1)%Z /\ i = slice_at l1 k).
Proof. exact slices_uniform_ok. Qed.
Print Assumptions C53_uniform.

(** non uniform, non periodic, same orientation: either the "steps have to be uniform" exception, or
    two slices that list exactly the matched pairs *)
Theorem C53_nonuniform : forall e1 e2, valid_edge e1 -> valid_edge e2 -> e_per e1 = false -> e_per e2 = false ->
  (Z.of_nat (e_n e1) < 2 ^ 64)%Z -> (Z.of_nat (e_n e2) < 2 ^ 64)%Z ->
  slices_nonuniform (search_of true e1 e2) e1 e2 = Throw \/
  exists l1 l2, slices_nonuniform (search_of true e1 e2) e1 e2 = Ok (l1, l2) /\ s_size l1 = s_size l2 /\ (2 <= s_size l1)%Z /\
    (forall k, (0 <= k < s_size l1)%Z -> in_range e1 (slice_at l1 k) /\
       search_of true e1 e2 (slice_at l1 k) = Ok (Some (slice_at l2 k))) /\
    (forall i j, in_range e1 i -> search_of true e1 e2 i = Ok (Some j) ->
       exists k, (0 <= k < s_size l1)%Z /\ i = slice_at l1 k /\ j = slice_at l2 k).
Proof. exact slices_nonuniform_ok. Qed.
Print Assumptions C53_nonuniform.

(** the exception is raised exactly when the matched indices of one of the edges are not evenly
    spaced *)
Theorem C53_throw : forall search m e1 e2, (forall i, in_range e1 i -> search i = Ok (m i)) ->
  (2 <= e_n e1)%nat -> (2 <= e_n e2)%nat -> (Z.of_nat (e_n e1) < 2 ^ 64)%Z -> (Z.of_nat (e_n e2) < 2 ^ 64)%Z ->
  m (e_fr e1) = Some (e_fr e2) ->
  m (e_fr e1 + Z.of_nat (e_n e1) - 1)%Z = Some (e_fr e2 + Z.of_nat (e_n e2) - 1)%Z ->
  let L := conf_pairs m (e_fr e1) (e_n e1) in
  (exists l1 l2, slices_nonuniform search e1 e2 = Ok (l1, l2) /\
     s_size l1 = Z.of_nat (length L) /\ s_size l2 = Z.of_nat (length L) /\
     forall k, (k < length L)%nat -> nth k L (0, 0)%Z = (slice_at l1 (Z.of_nat k), slice_at l2 (Z.of_nat k))) \/
  (slices_nonuniform search e1 e2 = Throw /\
     exists k, (k + 1 < length L)%nat /\
       ((fst (nth (k + 1) L (0, 0)) - fst (nth k L (0, 0)) <> fst (nth 1 L (0, 0)) - fst (nth 0 L (0, 0))) \/
        (snd (nth (k + 1) L (0, 0)) - snd (nth k L (0, 0)) <> snd (nth 1 L (0, 0)) - snd (nth 0 L (0, 0))))%Z).
Proof. exact slices_generic. Qed.
Print Assumptions C53_throw.

(** refuted: periodic uniform edges (4 and 8 cells): the slices pair points that do not coincide and
    miss the common points *)
Theorem C53_periodic_refuted : let e1 := unit_edge 4 true in let e2 := unit_edge 8 true in
  slices_uniform e1 e2 = Ok (Slice 0 2 3, Slice 0 2 7) /\ ~ equivalent true e1 e2 3 7 /\
  equivalent true e1 e2 1 2 /\ equivalent true e1 e2 2 4 /\ equivalent true e1 e2 3 6.
Proof. exact slices_periodic_wrong. Qed.
Print Assumptions C53_periodic_refuted.

(** refuted: non uniform edges of opposite orientation: the second slice always has a single element
    and a negative stride *)
Theorem C53_reversed_refuted : forall e1 e2 l1 l2, valid_edge e1 -> valid_edge e2 -> e_per e1 = false -> e_per e2 = false ->
  (Z.of_nat (e_n e1) < 2 ^ 63)%Z -> (Z.of_nat (e_n e2) < 2 ^ 63)%Z ->
  slices_nonuniform (search_of false e1 e2) e1 e2 = Ok (l1, l2) ->
  (2 <= s_size l1)%Z /\ s_size l2 = 1%Z /\ (s_stride l2 < 0)%Z.
Proof. exact slices_reversed. Qed.
Print Assumptions C53_reversed_refuted.

(** refuted: periodic edges with a single common point: out of bounds read *)
Theorem C53_single_match_refuted : let e1 := unit_edge 2 true in let e2 := unit_edge 3 true in
  slices_nonuniform (search_of true e1 e2) e1 e2 = Ub.
Proof. exact slices_single_match_ub. Qed.
Print Assumptions C53_single_match_refuted.

(** the hypotheses are met *)
Example C35_nonvacuous : forall n per, (1 <= n)%nat ->
  valid_edge (unit_edge n per) /\ uniform (unit_edge n per) /\ in_range (unit_edge n per) 0 /\
  on_edge (unit_edge n per) 0.
Proof.
  intros n per H. destruct (unit_valid n per H) as [V U]. destruct (unit_min_max n per H) as [E0 E1].
  split; [exact V|]. split; [exact U|]. split.
  - unfold in_range. cbn [e_fr e_n unit_edge]. destruct per; lia.
  - unfold on_edge. rewrite E0, E1. split; intros; lra.
Qed.

Example C35_nonuniform_nonvacuous : valid_edge (Edge [0; 1; 3] 0 3 false) /\ ~ uniform (Edge [0; 1; 3] 0 3 false).
Proof.
  split.
  - split; [|split; simpl; lia]. intros i j H. simpl in H. destruct i as [|[|[|i]]]; destruct j as [|[|[|j]]]; simpl; lra || lia.
  - intros [h U]. pose proof (U 1%Z) as U1. pose proof (U 2%Z) as U2.
    unfold e_last, e_min, pt in *. simpl in U1, U2. specialize (U1 ltac:(lia)). specialize (U2 ltac:(lia)). lra.
Qed.

Example C53_reversed_nonvacuous : let e := unit_edge 2 false in
  exists l1 l2, slices_nonuniform (search_of false e e) e e = Ok (l1, l2).
Proof. exact slices_reversed_instance. Qed.
