(** C37: derivative fields store values and derivatives without overlap. *)
From Verif Require Import DerivLife.
Open Scope Z_scope.

(** a field with first to third derivatives along dimensions 0 (two known positions, 9 apart) and 1
    (three consecutive positions), and a plain dimension 2; tags in mixed order *)
Definition ex_shape : shape :=
  Shape [Phys 2; Der 1; Phys 0; Der 0; Phys 1]
        (fun d => match d with O => Range 2 10 | 1%nat => Range (-1) 5 | _ => Range 0 4 end)
        (fun d => match d with O => Slice 2 2 9 | _ => Slice 0 3 1 end) 3.
Definition ex_fields : list view := fst (construct ex_shape (Heap 7 [])).
Definition ex_idx : tag -> Z :=
  fun t => match t with Der 0 => 2 | Der _ => 0 | Phys 0 => 11 | Phys 1 => 3 | Phys _ => 1 end.
Lemma ex_wf : wf_shape ex_shape.
Proof.
  split.
  - simpl. repeat constructor; simpl; intuition discriminate.
  - intros d _. destruct d as [|d]; simpl; lia.
Qed.
Lemma ex_accepted : accepted ex_shape ex_idx.
Proof.
  split.
  - intros d [H|[H|[H|[H|[H|[]]]]]]; try discriminate; injection H as <-; simpl; lia.
  - intros d [H|[H|[H|[H|[H|[]]]]]]; try discriminate; injection H as <-.
    + right. split; [intros [H _]; simpl in H; intuition discriminate|]. unfold in_range. simpl. lia.
    + left. split; [simpl; tauto|]. split; [discriminate|]. exists 1%nat. simpl. lia.
    + right. split; [intros [_ H]; apply H; reflexivity|]. unfold in_range. simpl. lia.
Qed.

(** Every accepted combination of orders and positions is a cell of a block that the object allocated,
    inside the bounds of that block; a combination which is not accepted never yields a cell. *)
Theorem C37_in_bounds : forall f h fields h' elem idx, wf_shape f ->
  construct f h = (fields, h') -> completes f elem idx ->
  (accepted f idx -> exists b o n, call f fields elem = Ok (b, o) /\ In (b, n) (h_live h') /\
     (h_next h <= b < h_next h')%nat /\ 0 <= o < Z.of_nat n) /\
  (~ accepted f idx -> call f fields elem = AssertFail \/ call f fields elem = Ub).
Proof.
  intros f h fields h' elem idx Hf C Hc. pose proof (construct_fields _ _ _ _ C) as (HF & Hn & Hl). split.
  - intros Ha. destruct (call_accepted f Hf _ _ HF _ _ Hc Ha) as (ks & _ & _ & E).
    destruct (call_bounds f Hf _ _ HF _ _ _ Hc E) as (A & HA & E1 & E2). cbn [fst snd] in *.
    eexists _, _, (alloc_size f A). split; [exact E|]. split; [apply Hl; right; eauto|]. split; [lia|exact E2].
  - apply (call_not_accepted f Hf _ _ HF); auto.
Qed.
Print Assumptions C37_in_bounds.
Example C37_in_bounds_ex : wf_shape ex_shape /\ accepted ex_shape ex_idx /\
  completes ex_shape (fun t => match t with Der 1 => None | _ => Some (ex_idx t) end) ex_idx /\
  call ex_shape ex_fields (fun t => match t with Der 1 => None | _ => Some (ex_idx t) end)
  = Ok (9%nat, 1 * (1 * 2 * 3 * 5) + 1 * (3 * 5) + 1 * 5 + 4).
Proof.
  split; [apply ex_wf|]. split; [apply ex_accepted|]. split; [|reflexivity].
  intros t Ht. destruct t as [d|[|[|d]]]; auto. right. split; auto. exists 1%nat. auto.
Qed.

(** Different combinations are stored in different cells. *)
Theorem C37_no_overlap : forall f h fields h' ei ej i j ci cj, wf_shape f ->
  construct f h = (fields, h') -> completes f ei i -> completes f ej j ->
  call f fields ei = Ok ci -> call f fields ej = Ok cj -> differ f i j -> ci <> cj.
Proof.
  intros f h fields h' ei ej i j ci cj Hf C Hi Hj Ei Ej (t & Ht & Hd) <-.
  pose proof (construct_fields _ _ _ _ C) as (HF & _).
  apply Hd. exact (call_inj f Hf _ _ HF i j ei ej ci Hi Hj Ei Ej t Ht).
Qed.
Print Assumptions C37_no_overlap.
Example C37_no_overlap_ex :
  call ex_shape ex_fields (fun t => Some (ex_idx t)) = Ok (9%nat, 54) /\
  call ex_shape ex_fields (fun t => match t with Der 0 => Some 3 | _ => Some (ex_idx t) end) = Ok (9%nat, 59) /\
  call ex_shape ex_fields (fun t => match t with Der 0 => None | _ => Some (ex_idx t) end) = Ok (7%nat, 99).
Proof. repeat split; reflexivity. Qed.

(** No memory is wasted: every cell of every allocated block holds exactly one combination. *)
Theorem C37_all_cells_used : forall f h fields h' b n o, wf_shape f ->
  construct f h = (fields, h') ->
  In (b, n) (h_live h') -> ~ In (b, n) (h_live h) -> 0 <= o < Z.of_nat n ->
  exists idx, accepted f idx /\ call f fields (fun t => Some (idx t)) = Ok (b, o) /\
    forall elem idx', completes f elem idx' -> call f fields elem = Ok (b, o) -> same_idx f idx idx'.
Proof.
  intros f h fields h' b n o Hf C Hin Hnin Ho. pose proof (construct_fields _ _ _ _ C) as (HF & _ & Hl).
  apply Hl in Hin. destruct Hin as [?|(a & Ha & -> & ->)]; [tauto|].
  destruct (call_surj f Hf _ _ HF a o Ha Ho) as (idx & Hacc & E). exists idx. split; auto. split; auto.
  intros elem idx' Hc E'. apply (call_inj f Hf _ _ HF idx idx' (fun t => Some (idx t)) elem ((h_next h + a)%nat, o)); auto. intros t _; auto.
Qed.
Print Assumptions C37_all_cells_used.
Example C37_all_cells_used_ex :
  h_live (snd (construct ex_shape (Heap 7 [])))
  = [(10, 4 * 3 * 2 * 3 * 3); (9, 4 * 1 * 2 * 3 * 5); (8, 4 * 3 * 10 * 1 * 3); (7, 4 * 1 * 10 * 1 * 5)]%nat /\
  call ex_shape ex_fields (fun t => match t with Phys 2 => Some 3 | Der _ => Some 3 | Phys 0 => Some 11 | Phys _ => Some 2 end)
  = Ok (10%nat, 215).
Proof. repeat split; reflexivity. Qed.

(** A slice on index ranges: the returned field has the index range that was asked for (positions not
    mentioned: the whole grid, orders not mentioned: dropped), exactly the extents it declares, and its elements are the cells
    of operator(). *)
Theorem C37_range_slice : forall f h fields h' rg fld, wf_shape f ->
  construct f h = (fields, h') -> get_internal_field_range f fields rg = Ok fld ->
  well_sized fld /\
  (forall t r, In (t, r) (f_dom fld) <->
     In t (dims f) /\ (rg t = Some r \/ (rg t = None /\ exists d, t = Phys d /\ r = phys f d))) /\
  (forall idx, in_request f rg idx ->
     exists c, field_call fld idx = Ok c /\ call f fields (fun t => Some (idx t)) = Ok c).
Proof.
  intros f h fields h' rg fld Hf C E. pose proof (construct_fields _ _ _ _ C) as (HF & _ & _).
  split; [exact (range_field_sized f Hf _ _ HF _ _ E)|]. split.
  - intros t r. exact (range_field_dom f Hf _ _ HF rg fld t r E).
  - intros idx. exact (range_field_cells f Hf _ _ HF rg fld idx E).
Qed.
Print Assumptions C37_range_slice.

(** The slices which are accepted: every sensible request succeeds ... *)
Theorem C37_range_slice_accepts : forall f h fields h' rg, wf_shape f ->
  construct f h = (fields, h') -> sensible_request f rg ->
  exists fld, get_internal_field_range f fields rg = Ok fld.
Proof.
  intros f h fields h' rg Hf C. pose proof (construct_fields _ _ _ _ C) as (HF & _ & _).
  exact (range_field_accepts f Hf _ _ HF rg).
Qed.
Print Assumptions C37_range_slice_accepts.

(** orders 1..2 along dimension 1 at the consecutive positions 1..2, order 3 along dimension 0 at position 11 *)
Definition ex_request : tag -> option range :=
  fun t => match t with Der 1 => Some (Range 1 2) | Der _ => Some (Range 3 1) | Phys 0 => Some (Range 11 1)
                      | Phys 1 => Some (Range 1 2) | Phys _ => None end.
Example C37_range_slice_ex : sensible_request ex_shape ex_request /\
  exists fld, get_internal_field_range ex_shape ex_fields ex_request = Ok fld /\
    map fst (v_dims (f_view fld)) = [4; 2; 1; 1; 2]%nat.
Proof.
  split.
  - intros t r Ht Hr.
    assert (Hs : forall i, in_range (Range 11 1) i -> in_slice (dslice ex_shape 0) i).
    { unfold in_range. simpl. intros i Hi. exists 1%nat. simpl. lia. }
    assert (Hs' : forall i, in_range (Range 1 2) i -> in_slice (dslice ex_shape 1) i).
    { unfold in_range. simpl. intros i Hi. exists (Z.to_nat i). simpl. lia. }
    destruct Ht as [<-|[<-|[<-|[<-|[<-|[]]]]]]; destruct Hr as [Hr|(Hr & d & Ed & ->)]; try discriminate.
    + injection Ed as <-. split; [simpl; lia|]. right. split; auto. intros [H _]. simpl in H. intuition discriminate.
    + injection Hr as <-. split; [simpl; lia|]. right. simpl. lia.
    + injection Hr as <-. split; [simpl; lia|]. left. split; auto. split; [simpl; tauto|]. exists (Range 3 1). simpl. split; [auto|lia].
    + injection Hr as <-. split; [simpl; lia|]. right. simpl. lia.
    + injection Hr as <-. split; [simpl; lia|]. left. split; auto. split; [simpl; tauto|]. exists (Range 1 2). simpl. split; [auto|lia].
  - eexists. split; reflexivity.
Qed.

(** ... a request containing a combination for which there is no value never returns a field ... *)
Theorem C37_bad_request_rejected : forall f h fields h' rg idx, wf_shape f ->
  construct f h = (fields, h') -> in_request f rg idx -> ~ accepted f idx ->
  forall fld, get_internal_field_range f fields rg <> Ok fld.
Proof.
  intros f h fields h' rg idx Hf C Hr Hn fld E. pose proof (construct_fields _ _ _ _ C) as (HF & _ & _).
  destruct (range_field_cells f Hf _ _ HF rg fld idx E Hr) as (c & _ & Ec). apply Hn.
  eapply (call_ok_inv f Hf _ _ HF); eauto. intros t _; auto.
Qed.
Print Assumptions C37_bad_request_rejected.
Example C37_bad_request_rejected_ex :
  get_internal_field_range ex_shape ex_fields
    (fun t => match t with Der 0 => Some (Range 1 2) | Phys 0 => Some (Range 2 10) | _ => None end) = AssertFail /\
  get_internal_field_range ex_shape ex_fields (fun t => match t with Phys 0 => Some (Range 2 11) | _ => None end) = Ub.
Proof. split; reflexivity. Qed.

(** ... and a request which mixes values (order 0) with derivatives is refused as well. *)
Theorem C37_mixed_request_rejected : forall f h fields h' rg d r, wf_shape f ->
  construct f h = (fields, h') -> In (Der d) (dims f) -> rg (Der d) = Some r ->
  r_front r = 0 -> (2 <= r_ext r)%nat -> forall fld, get_internal_field_range f fields rg <> Ok fld.
Proof.
  intros f h fields h' rg d r Hf C Hd Er H0 He fld E. pose proof (construct_fields _ _ _ _ C) as (HF & _ & _).
  apply (range_field_inv f Hf _ _ HF) in E. cbn zeta in E.
  destruct E as (a & b & _ & _ & _ & _ & Hp & _). specialize (Hp _ Hd). unfold ppair in Hp.
  rewrite (holds_array_index f _ _ Hf Hd eq_refl) in Hp. unfold fr_of in Hp. rewrite Er, H0 in Hp. cbn [Z.eqb negb check bind] in Hp.
  unfold r_back in Hp. rewrite H0 in Hp.
  destruct (Z.eqb_spec (0 + Z.of_nat (r_ext r) - 1) 0); [lia|discriminate].
Qed.
Print Assumptions C37_mixed_request_rejected.
Example C37_mixed_request_rejected_ex :
  get_internal_field_range ex_shape ex_fields (fun t => match t with Der 1 => Some (Range 0 2) | _ => None end) = AssertFail.
Proof. reflexivity. Qed.

(** Fixing some of the indices: the remaining field has the extents it declares and the cells of
    operator(), provided that along the positions which are not fixed the values (order 0) are asked. *)
Theorem C37_index_slice_partial : forall f h fields h' elem fld idx, wf_shape f ->
  construct f h = (fields, h') -> get_internal_field_idx f fields elem = Ok fld ->
  (forall t, In t (dims f) -> match elem t, t with
     | Some i, _ => idx t = i
     | None, Der _ => idx t = 0
     | None, Phys d => ~ (In (Der d) (dims f) /\ idx (Der d) <> 0)
     end) ->
  well_sized fld /\
  ((forall d, In (Phys d) (dims f) -> elem (Phys d) = None -> in_range (phys f d) (idx (Phys d))) ->
   exists c, field_call fld idx = Ok c /\ call f fields (fun t => Some (idx t)) = Ok c).
Proof.
  intros f h fields h' elem fld idx Hf C. pose proof (construct_fields _ _ _ _ C) as (HF & _ & _).
  exact (idx_field_cells f Hf _ _ HF elem fld idx).
Qed.
Print Assumptions C37_index_slice_partial.
Example C37_index_slice_ex :
  exists fld, get_internal_field_idx ex_shape ex_fields
     (fun t => match t with Der 0 => Some 2 | Phys 0 => Some 11 | _ => None end) = Ok fld /\
   field_call fld (fun t => ex_idx t) = Ok (9%nat, 54) /\ map fst (f_dom fld) = [Phys 2; Phys 1].
Proof. eexists. repeat split; reflexivity. Qed.

(** Finding: without that proviso the field declares the whole grid while the memory region only has the
    positions where derivatives are known: index 3 (second grid point) reads the derivative stored for
    index 11, and index 11 itself is out of bounds. *)
Theorem C37_index_slice_refuted : exists fld,
  get_internal_field_idx ex_shape ex_fields (fun t => match t with Der 0 => Some 2 | Phys 1 => Some 3 | Phys 2 => Some 1 | _ => None end) = Ok fld /\
  f_dom fld = [(Phys 0, Range 2 10)] /\ ~ well_sized fld /\
  field_call fld (fun t => match t with Phys 0 => 3 | _ => ex_idx t end) = call ex_shape ex_fields (fun t => Some (ex_idx t)) /\
  field_call fld ex_idx = Ub.
Proof.
  eexists. split; [reflexivity|]. split; [reflexivity|]. split; [|split; reflexivity].
  intros H. inversion H as [|? ? ? ? H1 _]. simpl in H1. discriminate.
Qed.
Print Assumptions C37_index_slice_refuted.

(** Finding: an order above NDerivs is not caught by any assertion: the access is out of bounds. *)
Theorem C37_order_unchecked_refuted : exists elem,
  (forall t, t <> Der 0 -> elem t = Some (ex_idx t)) /\ elem (Der 0) = Some (Z.of_nat (nderivs ex_shape) + 1) /\
  accepted ex_shape ex_idx /\ call ex_shape ex_fields elem = Ub.
Proof.
  exists (fun t => match t with Der 0 => Some 4 | _ => Some (ex_idx t) end). split; [|split; [reflexivity|split; [apply ex_accepted|reflexivity]]].
  intros [d|[|d]] H; try reflexivity. congruence.
Qed.
Print Assumptions C37_order_unchecked_refuted.

(** The raw memory region of get_mdspan: the elements are those of operator(), in order of position. *)
Theorem C37_mdspan : forall f h fields h' rg v idx, wf_shape f ->
  construct f h = (fields, h') -> (forall d, rg (Phys d) = None) ->
  get_mdspan f fields rg = Ok v -> accepted f idx ->
  (forall d, In (Der d) (dims f) -> match rg (Der d) with Some r => in_range r (idx (Der d)) | None => idx (Der d) = 0 end) ->
  exists ks b o, Forall2 (position f rg idx) (filter (kept rg) (dims f)) ks /\
    submdspan v (map At ks) = Ok (View b o []) /\ call f fields (fun t => Some (idx t)) = Ok (b, o).
Proof.
  intros f h fields h' rg v idx Hf C. pose proof (construct_fields _ _ _ _ C) as (HF & _ & _).
  exact (get_mdspan_cells f _ fields rg v idx Hf HF).
Qed.
Print Assumptions C37_mdspan.
Example C37_mdspan_ex : exists v,
  get_mdspan ex_shape ex_fields (fun t => match t with Der 0 => Some (Range 2 2) | _ => None end) = Ok v /\
  map fst (v_dims v) = [4; 2; 2; 5]%nat.
Proof. eexists. split; reflexivity. Qed.

(** A DerivField made from a DerivFieldMem (or from another DerivField) is a view of the same cells. *)
Theorem C37_view_shares : forall f h fields h', wf_shape f ->
  construct f h = (fields, h') ->
  initialise_fields f fields = Ok fields.
Proof.
  intros f h fields h' Hf C. pose proof (construct_fields _ _ _ _ C) as (HF & _ & _).
  apply (initialise_fields_same f Hf). rewrite HF, map_length, seq_length. reflexivity.
Qed.
Print Assumptions C37_view_shares.
Example C37_view_shares_ex : length ex_fields = 4%nat /\ initialise_fields ex_shape ex_fields = Ok ex_fields.
Proof. split; reflexivity. Qed.

(** deepcopy makes every value and every derivative of the destination equal to that of the source, in both
    directions, and leaves the source alone. *)
Theorem C37_deepcopy : forall (V : Type) f h1 h2 fields1 fields2 h1' h2' (m : store V), wf_shape f ->
  construct f h1 = (fields1, h1') -> construct f h2 = (fields2, h2') -> (h_next h1' <= h_next h2)%nat ->
  exists m1 m2, deepcopy f fields1 fields2 m = Ok m1 /\ deepcopy f fields2 fields1 m = Ok m2 /\
   forall idx, accepted f idx ->
   exists b1 o1 b2 o2, call f fields1 (fun t => Some (idx t)) = Ok (b1, o1) /\
                       call f fields2 (fun t => Some (idx t)) = Ok (b2, o2) /\
     m1 b1 o1 = m b2 o2 /\ m1 b2 o2 = m b2 o2 /\ m2 b2 o2 = m b1 o1 /\ m2 b1 o1 = m b1 o1.
Proof. exact (fun V f => @deepcopy_reads V f). Qed.
Print Assumptions C37_deepcopy.
Example C37_deepcopy_ex :
  let (fs1, h1) := construct ex_shape (Heap 0 []) in
  let (fs2, h2) := construct ex_shape h1 in
  match deepcopy ex_shape fs1 fs2 (fun b o => (b, o)) with
  | Ok m => m 2%nat 54 = (6%nat, 54) /\ m 6%nat 54 = (6%nat, 54)
  | _ => False
  end.
Proof. vm_compute. split; reflexivity. Qed.

(** Lifetime: any program which creates and destroys such objects frees each block exactly once, and
    nothing is leaked once all the objects are destroyed. *)
Theorem C37_lifetime_partial : forall ops, exists h objs,
  life_run (Heap 0 [], []) ops = Ok (h, objs) /\ (objs = [] -> h_live h = []).
Proof. exact life_safe. Qed.
Print Assumptions C37_lifetime_partial.
Example C37_lifetime_ex :
  match life_run (Heap 0 [], []) [New ex_shape; New ex_shape; Delete 0; New ex_shape; Delete 1; Delete 0] with
  | Ok (h, []) => h_next h = 12%nat
  | _ => False
  end.
Proof. vm_compute. reflexivity. Qed.

(** Finding: move assignment is part of the interface, but it copies the pointers: afterwards both objects
    free the same blocks, and the previous blocks of the destination are lost. *)
Theorem C37_move_assignment_refuted :
  let (fs1, h1) := construct ex_shape (Heap 0 []) in
  let (fs2, h2) := construct ex_shape h1 in
  let '((fa, va), (fb, vb)) := move_assign (ex_shape, fs1) (ex_shape, fs2) in
  exists h3, destroy fa va h2 = Ok h3 /\ h_live h3 = h_live h1 /\ destroy fb vb h3 = Ub.
Proof. simpl. eexists. repeat split; reflexivity. Qed.
Print Assumptions C37_move_assignment_refuted.
