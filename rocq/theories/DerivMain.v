(** Proofs about derivative fields (C37): element access. *)
From Verif Require Export DerivProofs.
From Coq Require Import ZifyBool.
Open Scope nat_scope.
Local Opaque Nat.div Nat.modulo Z.div Z.modulo.

Lemma Forall2_len {A B} (R : A -> B -> Prop) l l' : Forall2 R l l' -> length l = length l'.
Proof. induction 1; simpl; congruence. Qed.

(** ** Construction *)
Lemma init_chunks f : forall n s h fields h',
  initialise_chunks f h (seq s n) = (fields, h') ->
  fields = map (fun a => make_internal_mdspan f (h_next h + (a - s)) a) (seq s n) /\
  h_next h' = h_next h + n /\
  h_live h' = rev (map (fun a => (h_next h + (a - s), alloc_size f a)) (seq s n)) ++ h_live h.
Proof.
  induction n as [|n IH]; intros s h fields h' H; simpl in H.
  - injection H as <- <-. simpl. repeat split; lia.
  - destruct (initialise_chunks f _ (seq (S s) n)) as [vs h2] eqn:E.
    injection H as <- <-. apply IH in E. simpl in E. destruct E as (-> & E2 & E3).
    split; [|split].
    + cbn [seq map]. f_equal; [f_equal; lia|]. apply map_ext_in. intros a Ha. apply in_seq in Ha.
      f_equal. lia.
    + lia.
    + rewrite E3. cbn [seq map rev]. rewrite <- app_assoc. simpl. f_equal.
      * f_equal. apply map_ext_in. intros a Ha. apply in_seq in Ha. f_equal. lia.
      * do 2 f_equal. lia.
Qed.

Lemma rd_map_seq {A} (g : nat -> A) n i : i < n -> rd (map g (seq 0 n)) (Z.of_nat i) = Ok (g i).
Proof.
  intros H. unfold rd. replace (Z.of_nat i <? 0)%Z with false by lia. rewrite Nat2Z.id.
  rewrite nth_error_map. rewrite (nth_error_nth' (seq 0 n) 0) by (rewrite seq_length; lia).
  simpl. now rewrite seq_nth by lia.
Qed.

(** the fields of an object constructed on blocks [p], [p+1], ... *)
Definition fields_at (f : shape) (p : nat) (fields : list view) : Prop :=
  fields = map (fun a => make_internal_mdspan f (p + a) a) (seq 0 (n_fields f)).

Lemma construct_fields f h fields h' : construct f h = (fields, h') ->
  fields_at f (h_next h) fields /\ h_next h' = h_next h + n_fields f /\
  (forall b n, In (b, n) (h_live h') <->
     In (b, n) (h_live h) \/ exists a, a < n_fields f /\ b = h_next h + a /\ n = alloc_size f a).
Proof.
  intros H. apply init_chunks in H. destruct H as (H1 & H2 & H3). split; [|split].
  - unfold fields_at. rewrite H1. apply map_ext_in. intros a _. f_equal. lia.
  - auto.
  - intros b n. rewrite H3, in_app_iff, <- in_rev, in_map_iff.
    split.
    + intros [(a & Ea & Ha)|?]; auto. right. apply in_seq in Ha. injection Ea as <- <-.
      exists a. repeat split; lia.
    + intros [?|(a & Ha & -> & ->)]; auto. left. exists a. split; [f_equal; lia|]. apply in_seq. lia.
Qed.

(** ** Position along one dimension *)
Definition pos (f : shape) (A : nat) (idx : tag -> Z) (t : tag) : res Z :=
  match t with
  | Phys d => if (has_deriv f d && holds_deriv f A (Der d))%bool then get_index f d (idx t)
              else Ok (idx t - r_front (phys f d))%Z
  | Der _ => if holds_deriv f A t then Ok (idx t - 1)%Z
             else let* _ := check (Z.eqb (idx t) 0) in Ok 0%Z
  end.

Lemma slicer_pos f idx A t (sidx : tag -> option Z) : sidx t = Some (idx t) ->
  get_slicer_for_idx f sidx A t = (let* k := pos f A idx t in Ok (At k)).
Proof.
  intros H. unfold get_slicer_for_idx, pos. rewrite H. destruct t as [d|d].
  - destruct (_ && _)%bool; auto.
  - destruct (holds_deriv f A (Der d)); auto. destruct (Z.eqb (idx (Der d)) 0); auto.
Qed.

Definition accepted_at (f : shape) (idx : tag -> Z) (t : tag) : Prop :=
  match t with
  | Der d => (0 <= idx (Der d) <= Z.of_nat (nderivs f))%Z
  | Phys d =>
     (In (Der d) (dims f) /\ idx (Der d) <> 0%Z /\ in_slice (dslice f d) (idx (Phys d))) \/
     (~ (In (Der d) (dims f) /\ idx (Der d) <> 0%Z) /\ in_range (phys f d) (idx (Phys d)))
  end.

Lemma accepted_iff f idx : accepted f idx <-> forall t, In t (dims f) -> accepted_at f idx t.
Proof.
  unfold accepted. split.
  - intros [H1 H2] [d|d] H; simpl; auto.
  - intros H. split; intros d Hd; apply (H _ Hd).
Qed.

Lemma slice_contains_iff s i : (0 < s_stride s) -> (slice_contains s i = true <-> in_slice s i).
Proof.
  intros Hs. unfold slice_contains, in_slice.
  set (st := Z.of_nat (s_stride s)). assert (0 < st)%Z by lia.
  rewrite !andb_true_iff, Z.leb_le, Z.eqb_eq, Z.ltb_lt. split.
  - intros [[H1 H2] H3]. pose proof (Z.div_mod (i - s_front s) st).
    assert (0 <= (i - s_front s) / st)%Z by (apply Z.div_pos; lia).
    exists (Z.to_nat ((i - s_front s) / st)). split; [lia|]. lia.
  - intros (k & Hk & ->). replace (s_front s + Z.of_nat k * st - s_front s)%Z with (Z.of_nat k * st)%Z by lia.
    rewrite Z.mod_mul, Z.div_mul by lia. lia.
Qed.

Lemma get_index_ok f d i : 0 < s_stride (dslice f d) -> in_slice (dslice f d) i ->
  exists k, get_index f d i = Ok k /\ inb k (s_ext (dslice f d)) /\
            i = (s_front (dslice f d) + k * Z.of_nat (s_stride (dslice f d)))%Z.
Proof.
  intros Hs Hi. unfold get_index. rewrite (proj2 (slice_contains_iff _ _ Hs) Hi). simpl.
  destruct Hi as (k & Hk & ->). unfold distance_from_front.
  replace (_ + _ - _)%Z with (Z.of_nat k * Z.of_nat (s_stride (dslice f d)))%Z by lia.
  rewrite Z.div_mul by lia. exists (Z.of_nat k). unfold inb. repeat split; lia.
Qed.

Lemma get_index_inv f d i k : 0 < s_stride (dslice f d) -> get_index f d i = Ok k ->
  in_slice (dslice f d) i /\ i = (s_front (dslice f d) + k * Z.of_nat (s_stride (dslice f d)))%Z.
Proof.
  intros Hs H. assert (Hi : in_slice (dslice f d) i).
  { apply slice_contains_iff; auto. unfold get_index in H.
    destruct (slice_contains (dslice f d) i); auto. discriminate. }
  split; auto. destruct (get_index_ok f d i Hs Hi) as (k' & E & _ & ->). congruence.
Qed.

Section Access.
  Variables (f : shape) (Hf : wf_shape f).

  Lemma stride_pos d : has_deriv f d = true -> 0 < s_stride (dslice f d).
  Proof. rewrite has_deriv_iff by auto. apply Hf. Qed.

  Lemma holds_idx idx d : has_deriv f d = true ->
    holds_deriv f (get_array_index f idx) (Der d) = negb (Z.eqb (idx (Der d)) 0).
  Proof. intros H. apply holds_array_index; auto. now apply has_deriv_iff. Qed.

  Lemma has_deriv_false d : has_deriv f d = false <-> ~ In (Der d) (dims f).
  Proof. rewrite <- (has_deriv_iff f d Hf). split; intros H; [congruence|now apply not_true_is_false]. Qed.

  Lemma pos_accepted idx t : In t (dims f) -> accepted_at f idx t ->
    exists k, pos f (get_array_index f idx) idx t = Ok k /\
              inb k (get_mdspan_size f (get_array_index f idx) t).
  Proof.
    intros Ht H. destruct t as [d|d]; simpl in H; unfold pos, get_mdspan_size.
    - destruct (has_deriv f d) eqn:Ed; cbn [andb].
      + rewrite holds_idx by auto. destruct (Z.eqb_spec (idx (Der d)) 0) as [E|E]; simpl.
        * destruct H as [(_ & ? & _)|[_ H]]; [tauto|]. unfold in_range in H.
          eexists; split; eauto. unfold inb. lia.
        * destruct H as [(_ & _ & H)|[H _]].
          -- destruct (get_index_ok f d (idx (Phys d)) (stride_pos d Ed) H) as (k & ? & ? & _). eauto.
          -- exfalso. apply H. split; auto. now apply has_deriv_iff.
      + apply has_deriv_false in Ed. destruct H as [(? & _)|[_ H]]; [tauto|]. unfold in_range in H.
        eexists; split; eauto. unfold inb. lia.
    - rewrite holds_array_index by auto. destruct (Z.eqb_spec (idx (Der d)) 0) as [E|E]; simpl.
      + eexists; split; eauto. unfold inb. lia.
      + eexists; split; eauto. unfold inb. lia.
  Qed.

  Lemma pos_inv idx t k : In t (dims f) -> pos f (get_array_index f idx) idx t = Ok k ->
    inb k (get_mdspan_size f (get_array_index f idx) t) -> accepted_at f idx t.
  Proof.
    intros Ht H Hk. destruct t as [d|d]; simpl; unfold pos, get_mdspan_size in *.
    - destruct (has_deriv f d) eqn:Ed; cbn [andb] in *.
      + rewrite holds_idx in H, Hk by auto. destruct (Z.eqb_spec (idx (Der d)) 0) as [E|E]; simpl in *.
        * right. split; [tauto|]. injection H as <-. unfold in_range, inb in *. lia.
        * left. split; [now apply has_deriv_iff|]. split; auto.
          apply get_index_inv in H; [tauto | now apply stride_pos].
      + right. apply has_deriv_false in Ed. split; [tauto|]. injection H as <-. unfold in_range, inb in *. lia.
    - rewrite holds_array_index in H, Hk by auto. destruct (Z.eqb_spec (idx (Der d)) 0) as [E|E]; simpl in *.
      + lia.
      + injection H as <-. unfold inb in *. lia.
  Qed.

  Lemma pos_no_wild A idx t : pos f A idx t = AssertFail \/ exists k, pos f A idx t = Ok k.
  Proof.
    unfold pos. destruct t as [d|d].
    - destruct (_ && _)%bool; eauto. unfold get_index. destruct (slice_contains _ _); simpl; eauto.
    - destruct (holds_deriv _ _ _); eauto. destruct (Z.eqb _ 0); simpl; eauto.
  Qed.

  Lemma pos_inj A i j t k : In t (dims f) -> pos f A i t = Ok k -> pos f A j t = Ok k -> i t = j t.
  Proof.
    intros Ht Hi Hj. unfold pos in *. destruct t as [d|d].
    - destruct (has_deriv f d) eqn:Ed; cbn [andb] in *.
      + destruct (holds_deriv f A (Der d)).
        * apply get_index_inv in Hi, Hj; auto using stride_pos. destruct Hi as [_ ->], Hj as [_ ->]. reflexivity.
        * assert (i (Phys d) - r_front (phys f d) = j (Phys d) - r_front (phys f d))%Z by congruence. lia.
      + assert (i (Phys d) - r_front (phys f d) = j (Phys d) - r_front (phys f d))%Z by congruence. lia.
    - destruct (holds_deriv f A (Der d)).
      + assert (i (Der d) - 1 = j (Der d) - 1)%Z by congruence. lia.
      + destruct (Z.eqb_spec (i (Der d)) 0), (Z.eqb_spec (j (Der d)) 0); simpl in *; try discriminate. lia.
  Qed.

  (** ** All the dimensions *)
  Definition posns A idx ks := Forall2 (fun t k => pos f A idx t = Ok k) (dims f) ks.

  Lemma map_res_slicers A idx (sidx : tag -> option Z) l :
    (forall t, In t l -> sidx t = Some (idx t)) ->
    (exists ks, map_res (get_slicer_for_idx f sidx A) l = Ok (map At ks) /\
                Forall2 (fun t k => pos f A idx t = Ok k) l ks) \/
    (map_res (get_slicer_for_idx f sidx A) l = AssertFail /\ exists t, In t l /\ pos f A idx t = AssertFail).
  Proof.
    induction l as [|t l IH]; intros H.
    - left. exists []. split; [reflexivity|constructor].
    - cbn [map_res]. rewrite (slicer_pos f idx) by (apply H; simpl; auto).
      destruct (pos_no_wild A idx t) as [E|[k E]]; rewrite E; cbn [bind].
      + right. split; auto. exists t. simpl; auto.
      + destruct IH as [(ks & E1 & E2)|(E1 & t' & Ht' & E2)]; [intros; apply H; simpl; auto| |];
          rewrite E1; cbn [bind].
        * left. exists (k :: ks). split; [reflexivity|]. constructor; auto.
        * right. split; auto. exists t'. simpl; auto.
  Qed.

  Variables (p : nat) (fields : list view) (HF : fields_at f p fields).

  Lemma rd_fields A : A < n_fields f -> rd fields (Z.of_nat A) = Ok (make_internal_mdspan f (p + A) A).
  Proof. intros H. rewrite HF. now rewrite rd_map_seq. Qed.

  Definition sizes A := map (get_mdspan_size f A) (dims f).

  Lemma elem_index elem idx : completes f elem idx ->
    get_array_index f (fun t => match elem t with Some i => i | None => 0%Z end) = get_array_index f idx.
  Proof.
    intros H. apply array_index_ext; auto. intros t Ht _.
    destruct (H t Ht) as [->|(-> & d & _ & ->)]; tauto.
  Qed.

  Lemma call_eq elem idx : completes f elem idx ->
    let A := get_array_index f idx in
    (exists ks, posns A idx ks /\
       call f fields elem =
       (let* (o, _) := submdspan_dims 0 (layout_right (sizes A)) (map At ks) in Ok (p + A, o))) \/
    (call f fields elem = AssertFail /\ exists t, In t (dims f) /\ pos f A idx t = AssertFail).
  Proof.
    intros H A. unfold call, get_internal_field_idx. rewrite (elem_index elem idx H). fold A.
    rewrite rd_fields by (apply array_index_lt; auto). cbn [bind].
    set (sidx := fun t => match elem t with Some i => Some i | None => if is_deriv_dim t then Some 0%Z else None end).
    assert (Hs : forall t, In t (dims f) -> sidx t = Some (idx t)).
    { intros t Ht. unfold sidx. destruct (H t Ht) as [->|(-> & d & -> & ->)]; reflexivity. }
    destruct (map_res_slicers A idx sidx (dims f) Hs) as [(ks & E1 & E2)|(E1 & E2)]; rewrite E1; cbn [bind].
    - left. exists ks. split; auto. unfold submdspan, make_internal_mdspan. cbn [v_off v_dims v_block].
      fold (sizes A).
      destruct (submdspan_dims 0 (layout_right (sizes A)) (map At ks)) as [[o r]| | |] eqn:E; simpl; auto.
      pose proof (sub_at_inv _ _ _ _ E) as Hi. rewrite layout_fst in Hi.
      rewrite sub_at_right in E by auto. injection E as <- <-. reflexivity.
    - right. auto.
  Qed.

  Lemma posns_accepted idx : accepted f idx ->
    exists ks, posns (get_array_index f idx) idx ks /\ Forall2 inb ks (sizes (get_array_index f idx)).
  Proof.
    rewrite accepted_iff. unfold posns, sizes. intros H.
    assert (G : forall l, incl l (dims f) ->
      exists ks, Forall2 (fun t k => pos f (get_array_index f idx) idx t = Ok k) l ks /\
        Forall2 inb ks (map (get_mdspan_size f (get_array_index f idx)) l)).
    { induction l as [|t l IH]; intros Hl.
      - exists []. split; constructor.
      - destruct IH as (ks & H1 & H2); [apply incl_cons_inv in Hl; tauto|].
        assert (Ht : In t (dims f)) by (apply Hl; simpl; auto).
        destruct (pos_accepted idx t Ht (H t Ht)) as (k & Hk1 & Hk2).
        exists (k :: ks). split; constructor; auto. }
    apply G, incl_refl.
  Qed.

  Lemma posns_unique A idx ks ks' : posns A idx ks -> posns A idx ks' -> ks = ks'.
  Proof.
    unfold posns. intros H. revert ks'. induction H; intros ks' H'; inversion H'; subst; f_equal; auto.
    congruence.
  Qed.

  Lemma posns_inj A i j ks : posns A i ks -> posns A j ks -> same_idx f i j.
  Proof.
    unfold posns, same_idx. intros H H' t Ht.
    assert (G : forall l ks, incl l (dims f) -> Forall2 (fun t k => pos f A i t = Ok k) l ks ->
                Forall2 (fun t k => pos f A j t = Ok k) l ks -> In t l -> i t = j t).
    { induction l as [|u l IH]; intros kk Hl G1 G2; [intros []|].
      inversion G1; subst; inversion G2; subst. intros [<-|Hu].
      - eapply pos_inj; eauto; try (apply Hl; simpl; auto).
      - apply incl_cons_inv in Hl; eapply IH; eauto; tauto. }
    eapply G; eauto using incl_refl.
  Qed.

  Lemma posns_notinb idx ks : posns (get_array_index f idx) idx ks ->
    Forall2 inb ks (sizes (get_array_index f idx)) -> accepted f idx.
  Proof.
    unfold posns, sizes. rewrite accepted_iff. intros H H' t Ht.
    assert (G : forall l ks, incl l (dims f) ->
      Forall2 (fun t k => pos f (get_array_index f idx) idx t = Ok k) l ks ->
      Forall2 inb ks (map (get_mdspan_size f (get_array_index f idx)) l) -> In t l -> accepted_at f idx t).
    { induction l as [|u l IH]; intros kk Hl G1 G2; [intros []|].
      inversion G1; subst; inversion G2; subst. intros [<-|Hu].
      - eapply pos_inv; eauto; try (apply Hl; simpl; auto).
      - apply incl_cons_inv in Hl; eapply IH; eauto; tauto. }
    eapply G; eauto using incl_refl.
  Qed.

  Lemma call_accepted elem idx : completes f elem idx -> accepted f idx ->
    let A := get_array_index f idx in
    exists ks, posns A idx ks /\ Forall2 inb ks (sizes A) /\
      call f fields elem = Ok (p + A, enc (sizes A) ks).
  Proof.
    intros H Ha A. destruct (posns_accepted idx Ha) as (ks & H1 & H2). exists ks. repeat (split; auto).
    destruct (call_eq elem idx H) as [(ks' & H1' & E)|(_ & t & Ht & E)].
    - rewrite (posns_unique _ _ _ _ H1' H1) in E. rewrite sub_at_right in E by auto.
      cbn [bind] in E. rewrite Z.add_0_l in E. exact E.
    - exfalso. rewrite accepted_iff in Ha. destruct (pos_accepted idx t Ht (Ha t Ht)) as (k & Ek & _). congruence.
  Qed.

  Lemma call_ok_inv elem idx c : completes f elem idx -> call f fields elem = Ok c -> accepted f idx.
  Proof.
    intros H E. destruct (call_eq elem idx H) as [(ks & H1 & E')|(E' & _)]; [|congruence].
    rewrite E' in E. destruct (submdspan_dims _ _ _) as [q| | |] eqn:Eq; try discriminate.
    apply sub_at_inv in Eq. rewrite layout_fst in Eq. eapply posns_notinb; eauto.
  Qed.

  Lemma call_not_accepted elem idx : completes f elem idx -> ~ accepted f idx ->
    call f fields elem = AssertFail \/ call f fields elem = Ub.
  Proof.
    intros H Hn. destruct (call_eq elem idx H) as [(ks & H1 & E')|(E' & _)]; [|auto].
    right. rewrite E', sub_at_notok; auto.
    - rewrite <- (map_length fst (layout_right _)), layout_fst. unfold sizes. rewrite map_length.
      symmetry. eapply Forall2_len; eauto.
    - rewrite layout_fst. intros Hi. apply Hn. eapply posns_notinb; eauto.
  Qed.

  Lemma alloc_size_prod A : alloc_size f A = prod (sizes A).
  Proof.
    unfold alloc_size, sizes, prod. generalize 1 as a.
    induction (dims f) as [|t l IH]; intros a; simpl; auto.
  Qed.

  Lemma call_inj i j ei ej c : completes f ei i -> completes f ej j ->
    call f fields ei = Ok c -> call f fields ej = Ok c -> same_idx f i j.
  Proof.
    intros Hi Hj Ei Ej.
    pose proof (call_ok_inv _ _ _ Hi Ei) as Ai. pose proof (call_ok_inv _ _ _ Hj Ej) as Aj.
    destruct (call_accepted _ _ Hi Ai) as (ks & P1 & B1 & E1).
    destruct (call_accepted _ _ Hj Aj) as (ks' & P2 & B2 & E2).
    rewrite Ei in E1. rewrite Ej in E2. rewrite E1 in E2.
    assert (EA : get_array_index f i = get_array_index f j).
    { assert (p + get_array_index f i = p + get_array_index f j) by congruence. lia. }
    rewrite <- EA in P2, B2, E2.
    assert (Ee : enc (sizes (get_array_index f i)) ks = enc (sizes (get_array_index f i)) ks') by congruence.
    apply enc_inj in Ee; auto. subst ks'. eapply posns_inj; eauto.
  Qed.

  (** the combination stored at position [k] along [t] in array [A] *)
  Definition value_at (A : nat) (t : tag) (k : Z) : Z :=
    match t with
    | Der _ => if holds_deriv f A t then (k + 1)%Z else 0%Z
    | Phys d => if (has_deriv f d && holds_deriv f A (Der d))%bool
                then (s_front (dslice f d) + k * Z.of_nat (s_stride (dslice f d)))%Z
                else (r_front (phys f d) + k)%Z
    end.

  Lemma value_pos A t k idx : idx t = value_at A t k -> inb k (get_mdspan_size f A t) ->
    pos f A idx t = Ok k.
  Proof.
    intros E Hk. unfold pos, value_at, get_mdspan_size in *. destruct t as [d|d].
    - destruct (has_deriv f d) eqn:Ed; cbn [andb] in *.
      + destruct (holds_deriv f A (Der d)).
        * assert (Hi : in_slice (dslice f d) (idx (Phys d))).
          { exists (Z.to_nat k). unfold inb in Hk. split; [lia|]. rewrite E. lia. }
          destruct (get_index_ok f d _ (stride_pos d Ed) Hi) as (k' & Ek & _ & E'). rewrite Ek. f_equal.
          pose proof (stride_pos d Ed). rewrite E in E'. nia.
        * rewrite E. f_equal. lia.
      + rewrite E. f_equal. lia.
    - destruct (holds_deriv f A (Der d)).
      + rewrite E. f_equal. lia.
      + rewrite E. simpl. unfold inb in Hk. f_equal. lia.
  Qed.

  Lemma value_order A d k : In (Der d) (dims f) -> inb k (get_mdspan_size f A (Der d)) ->
    negb (Z.eqb (value_at A (Der d) k) 0) = holds_deriv f A (Der d).
  Proof. unfold value_at, inb. intros _ Hk. destruct (holds_deriv f A (Der d)); lia. Qed.

  Lemma idx_of_positions A : forall l ks, NoDup l ->
    Forall2 inb ks (map (get_mdspan_size f A) l) ->
    exists idx, Forall2 (fun t k => idx t = value_at A t k /\ inb k (get_mdspan_size f A t)) l ks.
  Proof.
    induction l as [|t l IH]; intros ks Hn H; inversion H as [|k ? ks' ? H1 H2]; subst.
    - exists (fun _ => 0%Z). constructor.
    - inversion Hn; subst. destruct (IH ks') as (idx & Hidx); auto.
      exists (fun u => if tag_dec u t then value_at A t k else idx u). constructor.
      + destruct (tag_dec t t); [auto|congruence].
      + assert (Hni : ~ In t l) by auto. clear - Hidx Hni. revert Hni.
        induction Hidx as [|u k' l ks' Hu Hr IH]; intros Hni; constructor.
        * destruct (tag_dec u t) as [->|]; [exfalso; apply Hni; simpl; auto | auto].
        * apply IH. intros ?. apply Hni; simpl; auto.
  Qed.

  Lemma call_surj A o : A < n_fields f -> (0 <= o < Z.of_nat (alloc_size f A))%Z ->
    exists idx, accepted f idx /\ call f fields (fun t => Some (idx t)) = Ok (p + A, o).
  Proof.
    intros HA Ho. rewrite alloc_size_prod in Ho. destruct (enc_surj _ _ Ho) as (ks & Hk & <-).
    destruct (idx_of_positions A (dims f) ks (proj1 Hf) Hk) as (idx & Hidx).
    assert (Hin : forall t, In t (dims f) -> exists k, idx t = value_at A t k /\ inb k (get_mdspan_size f A t)).
    { intros t Ht. clear - Hidx Ht. induction Hidx; destruct Ht; subst; eauto. }
    assert (EA : get_array_index f idx = A).
    { apply array_index_of_bits; auto. intros [d|d] Ht Hd; [discriminate|].
      destruct (Hin _ Ht) as (k & -> & Hk'). now apply value_order. }
    assert (Hp : posns A idx ks).
    { unfold posns. clear - Hidx Hf. induction Hidx as [|t k l ks' [H1 H2]]; constructor; auto.
      now apply value_pos. }
    assert (Ha : accepted f idx). { eapply posns_notinb; rewrite EA; eauto. }
    exists idx. split; auto.
    destruct (call_accepted (fun t => Some (idx t)) idx) as (ks' & P & B & E); auto.
    { intros t _. auto. }
    rewrite EA in *. now rewrite (posns_unique _ _ _ _ Hp P).
  Qed.

  Lemma call_bounds elem idx c : completes f elem idx -> call f fields elem = Ok c ->
    exists A, A < n_fields f /\ fst c = p + A /\ (0 <= snd c < Z.of_nat (alloc_size f A))%Z.
  Proof.
    intros H E. pose proof (call_ok_inv _ _ _ H E) as Ha.
    destruct (call_accepted _ _ H Ha) as (ks & P & B & E1).
    rewrite E in E1. assert (c = (p + get_array_index f idx, enc (sizes (get_array_index f idx)) ks)) by congruence.
    subst c. exists (get_array_index f idx). split; [now apply array_index_lt|]. split; auto.
    rewrite alloc_size_prod. simpl. now apply enc_bounds.
  Qed.
End Access.
