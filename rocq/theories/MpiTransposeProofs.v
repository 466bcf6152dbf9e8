(** Lemmas for the all-to-all transpose (C13). *)
From Verif Require Export MpiProofs.
From Coq Require Import Permutation ZifyBool.
Open Scope nat_scope.
Local Opaque Nat.div Nat.modulo Nat.gcd.

(** ** Insertion of the MPI dimensions *)
Lemma insert_before_perm x b s : In b s -> Permutation (insert_before x b s) (x :: s).
Proof.
  induction s as [|h t IH]; simpl; [tauto|]. intros H.
  destruct (tag_eqb h b) eqn:E; [reflexivity|].
  destruct H as [->|H]; [rewrite tag_eqb_refl in E; discriminate|].
  etransitivity; [apply perm_skip, IH, H|]. apply perm_swap.
Qed.

Lemma insert_mpi_tags_perm mpis s : (forall d, In d mpis -> In (Dim d) s) ->
  Permutation (insert_mpi_tags mpis s) (map MPIDim mpis ++ s).
Proof.
  revert s; induction mpis as [|d mpis IH]; intros s H; simpl; [reflexivity|].
  assert (Hp : Permutation (insert_before (MPIDim d) (Dim d) s) (MPIDim d :: s)).
  { apply insert_before_perm, H. left; auto. }
  rewrite IH.
  - rewrite Hp. rewrite Permutation_middle. reflexivity.
  - intros d' Hd'. eapply Permutation_in; [apply Permutation_sym, Hp|]. right. apply H. right; auto.
Qed.

Definition merge_ext (mpis : list nat) (ext : tag -> nat) (t : tag) : nat :=
  match t with
  | Dim d => if in_tags d mpis then ext (MPIDim d) * ext (Dim d) else ext (Dim d)
  | MPIDim d => ext (MPIDim d)
  end.
Definition merge_idx (mpis : list nat) (ext idx : tag -> nat) (t : tag) : nat :=
  match t with
  | Dim d => if in_tags d mpis then idx (MPIDim d) * ext (Dim d) + idx (Dim d) else idx (Dim d)
  | MPIDim d => idx (MPIDim d)
  end.

Lemma with_extents_ext ts e1 e2 : (forall t, In t ts -> e1 t = e2 t) -> with_extents e1 ts = with_extents e2 ts.
Proof. intros H. apply map_ext_in. intros t Ht. rewrite H; auto. Qed.
Lemma tags_with_extents e ts : tags_of (with_extents e ts) = ts.
Proof. unfold tags_of, with_extents. rewrite map_map. apply map_id. Qed.

Lemma insert_one ext idx d s : NoDup s -> ~ In (MPIDim d) s ->
  let s' := insert_before (MPIDim d) (Dim d) s in
  shape_size (with_extents ext s') = shape_size (with_extents (merge_ext [d] ext) s) /\
  offset (with_extents ext s') idx = offset (with_extents (merge_ext [d] ext) s) (merge_idx [d] ext idx).
Proof.
  intros Hn Hm; cbv zeta. induction s as [|h t IH]; [simpl; auto|].
  inversion Hn as [|? ? Hn1 Hn2]; subst. cbn [insert_before].
  destruct (tag_eqb h (Dim d)) eqn:E.
  - apply tag_eqb_iff in E; subst h.
    assert (Et : with_extents (merge_ext [d] ext) t = with_extents ext t).
    { apply with_extents_ext. intros [x|x] Hx; simpl; auto.
      rewrite orb_false_r. destruct (Nat.eqb_spec x d); [subst; tauto|auto]. }
    assert (Eo : offset (with_extents ext t) (merge_idx [d] ext idx) = offset (with_extents ext t) idx).
    { apply offset_ext. rewrite tags_with_extents. intros [x|x] Hx; simpl; auto.
      rewrite orb_false_r. destruct (Nat.eqb_spec x d); [subst; tauto|auto]. }
    cbn [with_extents map]. fold (with_extents ext t). fold (with_extents (merge_ext [d] ext) t).
    rewrite Et. cbn [offset]. rewrite Eo.
    assert (E1 : merge_ext [d] ext (Dim d) = ext (MPIDim d) * ext (Dim d)) by (simpl; rewrite Nat.eqb_refl; auto).
    assert (E2 : merge_idx [d] ext idx (Dim d) = idx (MPIDim d) * ext (Dim d) + idx (Dim d)) by (simpl; rewrite Nat.eqb_refl; auto).
    rewrite E1, E2.
    change (shape_size ((MPIDim d, ext (MPIDim d)) :: (Dim d, ext (Dim d)) :: with_extents ext t))
      with (ext (MPIDim d) * (ext (Dim d) * shape_size (with_extents ext t))).
    change (shape_size ((Dim d, ext (Dim d)) :: with_extents ext t))
      with (ext (Dim d) * shape_size (with_extents ext t)).
    change (shape_size ((Dim d, ext (MPIDim d) * ext (Dim d)) :: with_extents ext t))
      with (ext (MPIDim d) * ext (Dim d) * shape_size (with_extents ext t)).
    split; ring.
  - destruct IH as [I1 I2]; auto. { intros H; apply Hm; right; auto. }
    cbn [with_extents map]. fold (with_extents ext (insert_before (MPIDim d) (Dim d) t)).
    fold (with_extents (merge_ext [d] ext) t). cbn [offset]. rewrite I1, I2.
    assert (E1 : merge_ext [d] ext h = ext h).
    { destruct h as [x|x]; simpl; auto. rewrite orb_false_r. simpl in E. rewrite E. auto. }
    assert (E2 : merge_idx [d] ext idx h = idx h).
    { destruct h as [x|x]; simpl; auto. rewrite orb_false_r. simpl in E. rewrite E. auto. }
    rewrite E1, E2. split; auto.
    change (ext h * shape_size (with_extents ext (insert_before (MPIDim d) (Dim d) t)) =
            ext h * shape_size (with_extents (merge_ext [d] ext) t)). rewrite I1; auto.
Qed.

Lemma insert_mpi_tags_offset ext idx mpis s : NoDup s -> NoDup mpis ->
  (forall d, In d mpis -> In (Dim d) s /\ ~ In (MPIDim d) s) ->
  shape_size (with_extents ext (insert_mpi_tags mpis s)) = shape_size (with_extents (merge_ext mpis ext) s) /\
  offset (with_extents ext (insert_mpi_tags mpis s)) idx
  = offset (with_extents (merge_ext mpis ext) s) (merge_idx mpis ext idx).
Proof.
  revert s; induction mpis as [|d mpis IH]; intros s Hs Hm Hd; simpl.
  - split.
    + f_equal. apply with_extents_ext. intros [x|x] _; auto.
    + transitivity (offset (with_extents ext s) (merge_idx [] ext idx)).
      * apply offset_ext. intros [x|x] _; auto.
      * f_equal. apply with_extents_ext. intros [x|x] _; auto.
  - inversion Hm as [|? ? Hm1 Hm2]; subst.
    assert (Hp : Permutation (insert_before (MPIDim d) (Dim d) s) (MPIDim d :: s)).
    { apply insert_before_perm, Hd. left; auto. }
    assert (Hn' : NoDup (insert_before (MPIDim d) (Dim d) s)).
    { eapply Permutation_NoDup; [apply Permutation_sym, Hp|]. constructor; auto. apply Hd; left; auto. }
    destruct (IH _ Hn' Hm2) as [I1 I2].
    { intros d' Hd'. assert (d <> d') by (intros ->; tauto).
      destruct (Hd d' (or_intror Hd')) as [H1 H2]. split.
      - eapply Permutation_in; [apply Permutation_sym, Hp|]. right; auto.
      - intros H'. apply (Permutation_in _ Hp) in H'. destruct H'; [congruence|tauto]. }
    destruct (insert_one (merge_ext mpis ext) (merge_idx mpis ext idx) d s Hs) as [J1 J2].
    { apply Hd; left; auto. }
    assert (Ed : in_tags d mpis = false) by (apply in_tags_false; auto).
    assert (X1 : forall t, merge_ext [d] (merge_ext mpis ext) t = merge_ext (d :: mpis) ext t).
    { intros [x|x]; simpl; auto. rewrite orb_false_r.
      destruct (Nat.eqb_spec x d); simpl; auto. subst. rewrite Ed. auto. }
    assert (X2 : forall t, merge_idx [d] (merge_ext mpis ext) (merge_idx mpis ext idx) t
                 = merge_idx (d :: mpis) ext idx t).
    { intros [x|x]; simpl; auto. rewrite orb_false_r.
      destruct (Nat.eqb_spec x d); simpl; auto. subst. rewrite Ed. auto. }
    split.
    + rewrite I1, J1. f_equal. apply with_extents_ext. auto.
    + rewrite I2, J2. rewrite (with_extents_ext s _ (merge_ext (d :: mpis) ext)) by auto.
      apply offset_ext. auto.
Qed.

Lemma type_seq_merge_disjoint a b : (forall t, In t b -> ~ In t a) -> type_seq_merge a b = a ++ b.
Proof.
  intros H. unfold type_seq_merge. f_equal.
  induction b as [|t b IH]; simpl; auto.
  destruct (existsb (tag_eqb t) a) eqn:E; simpl.
  - apply existsb_exists in E. destruct E as (x & Hx & E). apply tag_eqb_iff in E; subst.
    exfalso; apply (H x); simpl; auto.
  - rewrite IH; auto. intros t' Ht'. apply H; right; auto.
Qed.
Lemma merge_mpi_dims D o : type_seq_merge (map MPIDim D) (map Dim o) = map MPIDim D ++ map Dim o.
Proof.
  apply type_seq_merge_disjoint. intros t Ht Hm.
  apply in_map_iff in Ht. apply in_map_iff in Hm.
  destruct Ht as (x & <- & _). destruct Hm as (y & E & _). discriminate.
Qed.

(** ** Misc *)
Lemma mapM_seq_ok {Y} (f : nat -> res Y) (h : nat -> Y) n m :
  (forall r, m <= r < m + n -> f r = Ok (h r)) -> mapM f (seq m n) = Ok (map h (seq m n)).
Proof.
  revert m; induction n as [|n IH]; intros m H; simpl; auto.
  rewrite H by lia. simpl. rewrite IH; [reflexivity|]. intros; apply H; lia.
Qed.
Lemma mapM_seq_ex {Y} (f : nat -> res Y) (Q : nat -> Y -> Prop) n m :
  (forall r, m <= r < m + n -> exists y, f r = Ok y /\ Q r y) ->
  exists ys, mapM f (seq m n) = Ok ys /\ length ys = n /\
    forall r, r < n -> exists y, nth_error ys r = Some y /\ Q (m + r) y.
Proof.
  revert m; induction n as [|n IH]; intros m H.
  - exists []. simpl. repeat split; auto. intros; lia.
  - destruct (H m) as (y & E & Hy); [lia|].
    destruct (IH (S m)) as (ys & Es & Hl & Hys); [intros; apply H; lia|].
    exists (y :: ys). simpl. rewrite E. simpl. rewrite Es. simpl. split; auto. split; [lia|].
    intros [|r] Hr; simpl.
    + exists y. rewrite Nat.add_0_r. auto.
    + destruct (Hys r) as (y' & E' & Hy'); [lia|]. exists y'. split; auto.
      replace (m + S r) with (S m + r) by lia. auto.
Qed.
Lemma nth_error_rd {X} (l : list X) k x : nth_error l k = Some x -> rd l (Z.of_nat k) = Ok x.
Proof.
  intros H. unfold rd. replace (Z.of_nat k <? 0)%Z with false by lia. rewrite Nat2Z.id, H. auto.
Qed.
Lemma rd_nth_error {X} (l : list X) k x : rd l (Z.of_nat k) = Ok x -> nth_error l k = Some x.
Proof.
  unfold rd. replace (Z.of_nat k <? 0)%Z with false by lia. rewrite Nat2Z.id.
  destruct (nth_error l k); congruence.
Qed.

Lemma nth_error_block {X} c r (b : list X) k : k < c -> nth_error (block c r b) k = nth_error b (r * c + k).
Proof.
  intros Hk. unfold block.
  assert (F : forall n (l : list X) i, i < n -> nth_error (firstn n l) i = nth_error l i).
  { induction n as [|n IH]; intros l i Hi; [lia|]. destruct l, i; simpl; auto. apply IH; lia. }
  assert (S' : forall n (l : list X) i, nth_error (skipn n l) i = nth_error l (n + i)).
  { induction n as [|n IH]; intros l i; simpl; auto. destruct l; simpl; auto. destruct i; auto. }
  rewrite F by auto. apply S'.
Qed.

Lemma nth_error_concat_blocks {X} c (bs : list (list X)) q k b :
  (forall x, In x bs -> length x = c) -> nth_error bs q = Some b -> k < c ->
  nth_error (concat bs) (q * c + k) = nth_error b k.
Proof.
  revert q; induction bs as [|x bs IH]; intros q Hl Hq Hk; [destruct q; discriminate|].
  simpl. pose proof (Hl x (or_introl eq_refl)) as Hx.
  destruct q as [|q]; simpl in *.
  - injection Hq as ->. rewrite nth_error_app1 by lia. auto.
  - rewrite nth_error_app2 by lia. rewrite Hx. replace (c + q * c + k - c) with (q * c + k) by lia.
    apply IH; auto.
Qed.
Lemma length_concat_blocks {X} c (bs : list (list X)) :
  (forall x, In x bs -> length x = c) -> length (concat bs) = length bs * c.
Proof.
  induction bs as [|x bs IH]; intros H; simpl; auto. rewrite app_length, IH.
  - rewrite H by (left; auto). auto.
  - intros; apply H; right; auto.
Qed.

Lemma alltoall_spec {X} comm c (send recv : list (list X)) :
  length send = comm -> length recv = comm ->
  (forall b, In b send -> length b = comm * c) -> (forall b, In b recv -> length b = comm * c) ->
  exists out, mpi_alltoall comm c c send recv = Ok out /\ length out = comm /\
    forall r, r < comm -> exists b, nth_error out r = Some b /\ length b = comm * c /\
      forall q bq k, nth_error send q = Some bq -> k < c -> nth_error b (q * c + k) = nth_error bq (r * c + k).
Proof.
  intros Hs Hr Hbs Hbr. unfold mpi_alltoall. rewrite Hs, Hr, !Nat.eqb_refl.
  assert (F1 : forallb (fun b : list X => comm * c <=? length b) send = true).
  { apply forallb_forall. intros b Hb. apply Hbs in Hb. lia. }
  assert (F2 : forallb (fun b : list X => comm * c <=? length b) recv = true).
  { apply forallb_forall. intros b Hb. apply Hbr in Hb. lia. }
  rewrite F1, F2. simpl.
  eexists; split; [reflexivity|]. split; [rewrite map_length, seq_length; auto|].
  intros r Hrr.
  assert (Hblk : forall x, In x (map (block c r) send) -> length x = c).
  { intros x Hx. apply in_map_iff in Hx. destruct Hx as (b & <- & Hb). apply Hbs in Hb.
    unfold block. rewrite firstn_length, skipn_length. nia. }
  exists (concat (map (block c r) send) ++ skipn (comm * c) (nth r recv [])).
  assert (Hlen : length (concat (map (block c r) send)) = comm * c).
  { rewrite (length_concat_blocks c), map_length; auto. }
  split.
  { apply (map_nth_error (fun r => concat (map (block c r) send) ++ skipn (comm * c) (nth r recv []))).
    rewrite nth_error_nth' with (d := 0) by (rewrite seq_length; auto). rewrite seq_nth; auto. }
  assert (Hskip : skipn (comm * c) (nth r recv []) = []).
  { apply skipn_all2. rewrite Hbr; [auto|]. apply nth_In. lia. }
  rewrite Hskip, app_nil_r. split; auto.
  intros q bq k Hq Hk.
  rewrite (nth_error_concat_blocks c _ q k (block c r bq)); auto.
  - apply nth_error_block; auto.
  - apply map_nth_error; auto.
Qed.

(** ** Layouts *)
Section OneLayout.
  Variable g : idx_range.
  Variable L : layout.
  Variable P : nat.
  Hypothesis HL : good_layout g L.
  Hypothesis HP : 0 < P.
  Hypothesis Hdiv : Nat.divide P (distributed_size (l_distr L) g).
  Hypothesis Hpos : forall d, In d (l_order L) -> 0 < snd (select d g).

  Definition gL := sub_range (l_order L) g.
  Definition grL := grid (l_distr L) gL P.
  Definition nL (d : nat) := extent grL (MPIDim d).
  Definition mL (d : nat) := if in_tags d (l_distr L) then snd (select d g) / nL d else snd (select d g).
  Definition locL (r : nat) := local_range (l_distr L) gL P r.

  Lemma distr_nodup : NoDup (l_distr L).
  Proof. destruct HL as (H1 & _ & <-). apply NoDup_filter'; auto. Qed.
  Lemma distr_incl : incl (l_distr L) (l_order L).
  Proof. destruct HL as (_ & _ & <-). intros d Hd. apply filter_In in Hd. tauto. Qed.
  Lemma dims_gL : dims gL = l_order L.
  Proof. unfold dims, gL, sub_range. rewrite map_map. apply map_id. Qed.
  Lemma select_map h ds d : In d ds -> select d (map (fun d => (d, h d)) ds) = h d.
  Proof.
    induction ds as [|x ds IH]; simpl; [tauto|]. intros H.
    destruct (Nat.eqb_spec d x) as [->|]; auto. destruct H; [congruence|auto].
  Qed.
  Lemma select_gL d : In d (l_order L) -> select d gL = select d g.
  Proof. intros H. unfold gL, sub_range. apply select_map; auto. Qed.
  Lemma gL_nodup : NoDup (dims gL).
  Proof. rewrite dims_gL. apply HL. Qed.
  Lemma distr_size_gL : distributed_size (l_distr L) gL = distributed_size (l_distr L) g.
  Proof.
    unfold distributed_size. f_equal. apply map_ext_in. intros d Hd. rewrite select_gL; auto.
    apply distr_incl; auto.
  Qed.
  Lemma distribute_L r : r < P -> distribute_idx_range (l_distr L) gL P r = Ok (locL r).
  Proof.
    intros Hr. apply distribute_ok; auto.
    - apply gL_nodup.
    - apply distr_nodup.
    - rewrite dims_gL. apply distr_incl.
    - rewrite distr_size_gL; auto.
  Qed.
  Lemma Hdiv' : Nat.divide P (nprod (dsizes (l_distr L) gL)).
  Proof.
    rewrite dsizes_perm; [|apply gL_nodup|apply distr_nodup|rewrite dims_gL; apply distr_incl].
    fold (distributed_size (l_distr L) gL). rewrite distr_size_gL; auto.
  Qed.
  Lemma grL_form : grL = map (fun d => (MPIDim d, nL d)) (l_distr L).
  Proof.
    assert (H : forall s, NoDup (tags_of s) -> s = map (fun t => (t, extent s t)) (tags_of s)).
    { intros s Hs. unfold tags_of. rewrite map_map. rewrite <- (map_id s) at 1.
      apply map_ext_in. intros [t n] Hi. simpl. rewrite (extent_in s t n); auto. }
    unfold grL at 1. rewrite (H (grid (l_distr L) gL P)) at 1 by (apply grid_nodup, gL_nodup).
    rewrite grid_tags, dims_gL. destruct HL as (_ & _ & ->). rewrite map_map. reflexivity.
  Qed.
  Lemma grL_size : shape_size grL = P.
  Proof. apply grid_size; auto. apply Hdiv'. Qed.
  Lemma nL_mul d : In d (l_distr L) -> snd (select d g) = nL d * mL d /\ 0 < nL d /\ 0 < mL d.
  Proof.
    intros Hd. assert (Ho := distr_incl d Hd).
    assert (Ht : in_tags d (l_distr L) = true) by (apply in_tags_iff; auto).
    assert (Hd' : In d (dims gL)) by (rewrite dims_gL; auto).
    pose proof (extent_mul (l_distr L) gL P gL_nodup HP Hdiv' d Hd' Ht) as [E Hp].
    fold grL in E, Hp. fold (nL d) in E, Hp. rewrite select_gL in E by auto.
    unfold mL. rewrite Ht. split; auto. split; auto. specialize (Hpos d Ho).
    destruct (snd (select d g) / nL d); lia.
  Qed.

  Lemma locL_form r : locL r = map (fun d => (d, loc grL r (l_distr L) d (select d g))) (l_order L).
  Proof. unfold locL, local_range. fold grL. unfold gL, sub_range. rewrite map_map. reflexivity. Qed.
  Lemma select_locL r d : In d (l_order L) -> select d (locL r) = loc grL r (l_distr L) d (select d g).
  Proof. intros H. rewrite locL_form. rewrite (select_map (fun d => loc grL r (l_distr L) d (select d g))); auto. Qed.
  Lemma size_locL r d : In d (l_order L) -> snd (select d (locL r)) = mL d.
  Proof.
    intros H. rewrite select_locL by auto. unfold loc, mL. destruct (in_tags d (l_distr L)); reflexivity.
  Qed.
  Lemma local_shape_L r : local_shape (locL r) = map (fun d => (Dim d, mL d)) (l_order L).
  Proof.
    unfold local_shape. rewrite locL_form, map_map. apply map_ext. intros d. cbn [fst snd]. f_equal.
    unfold loc, mL. destruct (in_tags d (l_distr L)); reflexivity.
  Qed.
  Lemma range_size_L r : range_size (locL r) = shape_size (map (fun d => (Dim d, mL d)) (l_order L)).
  Proof.
    rewrite <- (local_shape_L r). unfold range_size, local_shape, shape_size. rewrite map_map. reflexivity.
  Qed.

  Lemma get_distribution_L r : get_distribution (l_distr L) (locL r) gL = Ok (map (fun d => (d, nL d)) (l_distr L)).
  Proof.
    unfold get_distribution.
    match goal with |- fold_right ?F _ _ = _ => set (step := F) end.
    assert (H : forall l, incl l (l_distr L) -> fold_right step (Ok []) l = Ok (map (fun d => (d, nL d)) l)).
    { induction l as [|d l IH]; intros Hl; cbn [fold_right map]; auto.
      rewrite IH by (intros x Hx; apply Hl; right; auto). unfold step. cbn [bind]. cbv zeta.
      assert (Hd : In d (l_distr L)) by (apply Hl; left; auto).
      assert (Ho := distr_incl d Hd).
      pose proof (nL_mul d Hd) as (E & H1 & H2).
      rewrite size_locL, select_gL by auto.
      replace (mL d =? 0) with false by lia.
      rewrite E. rewrite Nat.div_mul by lia. reflexivity. }
    apply H. apply incl_refl.
  Qed.

  (** in the local range of rank r *)
  Lemma in_locL_iff idx r : r < P -> in_range idx (locL r) <->
    in_range idx gL /\ forall d, In d (l_distr L) ->
      Z.to_nat (idx d - fst (select d g)) / mL d = decode grL r (MPIDim d).
  Proof.
    intros Hr. pose proof (in_local_iff (l_distr L) gL P gL_nodup HP Hdiv' idx r Hr) as H.
    rewrite dims_gL in H. fold grL in H. fold (locL r) in H. rewrite H. clear H.
    split; intros [H1 H2]; split; auto; intros d Hd.
    - assert (Ho := distr_incl d Hd). assert (Ht : in_tags d (l_distr L) = true) by (apply in_tags_iff; auto).
      specialize (H2 d Ho Ht). unfold gidx in H2. rewrite select_gL in H2 by auto.
      unfold mL. rewrite Ht. exact H2.
    - intros Ht. apply in_tags_iff in Ht. specialize (H2 d Ht). unfold gidx.
      rewrite select_gL by auto. unfold mL in H2. apply in_tags_iff in Ht. rewrite Ht in H2. exact H2.
  Qed.

  Definition ridx (idx : nat -> Z) (t : tag) : nat :=
    match t with MPIDim d => Z.to_nat (idx d - fst (select d g)) / mL d | Dim _ => 0 end.

  Lemma gidx_ridx idx : offset grL (gidx grL gL idx) = offset grL (ridx idx).
  Proof.
    apply offset_ext. intros t Ht. rewrite grL_form in Ht. unfold tags_of in Ht. rewrite map_map in Ht.
    apply in_map_iff in Ht. destruct Ht as (d & <- & Hd). simpl.
    assert (Ho := distr_incl d Hd). assert (Ht : in_tags d (l_distr L) = true) by (apply in_tags_iff; auto).
    rewrite select_gL by auto. unfold mL. rewrite Ht. reflexivity.
  Qed.
  Lemma owner_L idx : in_range idx gL ->
    offset grL (ridx idx) < P /\ in_range idx (locL (offset grL (ridx idx))).
  Proof.
    intros H. rewrite <- gidx_ridx. apply (owner_exists (l_distr L) gL P gL_nodup HP Hdiv' idx H).
  Qed.
  Lemma owner_L_unique idx r : r < P -> in_range idx (locL r) -> r = offset grL (ridx idx).
  Proof.
    intros Hr H. rewrite <- gidx_ridx.
    apply (owner_unique (l_distr L) gL P gL_nodup HP Hdiv'); auto. apply in_locL_iff in H; tauto.
  Qed.

  (** position of idx in the local range in terms of the block-local coordinate *)
  Lemma local_pos idx r d : r < P -> in_range idx (locL r) -> In d (l_order L) ->
    Z.to_nat (idx d - fst (select d (locL r))) =
    (if in_tags d (l_distr L) then Z.to_nat (idx d - fst (select d g)) mod mL d
     else Z.to_nat (idx d - fst (select d g))).
  Proof.
    intros Hr Hi Hd. rewrite select_locL by auto. unfold loc.
    destruct (in_tags d (l_distr L)) eqn:Et; auto. cbn [fst].
    assert (Hdd : In d (l_distr L)) by (apply in_tags_iff; auto).
    apply in_locL_iff in Hi; auto. destruct Hi as [H1 H2]. specialize (H2 d Hdd).
    pose proof (H1 d (fst (select d g)) (snd (select d g))) as H3.
    rewrite <- surjective_pairing in H3.
    assert (Hin : In (d, select d g) gL).
    { unfold gL, sub_range. apply in_map_iff. exists d. auto. }
    specialize (H3 Hin). pose proof (nL_mul d Hdd) as (_ & _ & Hm).
    assert (Em : snd (select d g) / extent grL (MPIDim d) = mL d) by (unfold mL; rewrite Et; reflexivity).
    rewrite Em, <- H2.
    pose proof (Nat.div_mod (Z.to_nat (idx d - fst (select d g))) (mL d)) as Hdm. nia.
  Qed.
End OneLayout.

Lemma assoc_map h ds d : In d ds -> assoc d (map (fun d => (d, h d)) ds) = h d.
Proof.
  induction ds as [|x ds IH]; simpl; [tauto|]. intros H.
  destruct (Nat.eqb_spec d x) as [->|]; auto. destruct H; [congruence|auto].
Qed.

Section Two.
  Variable A : Type.
  Variable uninit : A.
  Variable g : idx_range.
  Variable Lin Lout : layout.
  Variable P : nat.
  Hypothesis Hgin : good_layout g Lin.
  Hypothesis Hgout : good_layout g Lout.
  Hypothesis Hperm : Permutation (l_order Lin) (l_order Lout).
  Hypothesis Hdisj : forall d, In d (l_distr Lin) -> ~ In d (l_distr Lout).
  Hypothesis HP : 0 < P.
  Hypothesis Hdin : Nat.divide P (distributed_size (l_distr Lin) g).
  Hypothesis Hdout : Nat.divide P (distributed_size (l_distr Lout) g).
  Hypothesis Hpos : forall d, In d (l_order Lin) -> 0 < snd (select d g).

  Let Hpos' : forall d, In d (l_order Lout) -> 0 < snd (select d g).
  Proof. intros d Hd. apply Hpos. eapply Permutation_in; [apply Permutation_sym, Hperm|exact Hd]. Qed.
  Let nin := nL g Lin P.
  Let nout := nL g Lout P.
  Let min := mL g Lin P.
  Let mout := mL g Lout P.
  Let mpi_in := map (fun d => (d, nin d)) (l_distr Lin).
  Let mpi_out := map (fun d => (d, nout d)) (l_distr Lout).

  (** common extents of the block exchanged by two ranks *)
  Definition core (d : nat) : nat := if in_tags d (l_distr Lout) then mout d else min d.
  Let rest : shape := map (fun d => (Dim d, core d)) (l_order Lin).

  (** multi-index of a global index in the split spaces *)
  Definition split_idx (idx : nat -> Z) (t : tag) : nat :=
    match t with
    | Dim d => Z.to_nat (idx d - fst (select d g)) mod core d
    | MPIDim d => Z.to_nat (idx d - fst (select d g))
                  / (if in_tags d (l_distr Lin) then min d else mout d)
    end.

  Lemma order_out_in d : In d (l_order Lout) -> In d (l_order Lin).
  Proof. intros Hd. eapply Permutation_in; [apply Permutation_sym, Hperm|exact Hd]. Qed.
  Lemma order_in_out d : In d (l_order Lin) -> In d (l_order Lout).
  Proof. intros Hd. eapply Permutation_in; [apply Hperm|exact Hd]. Qed.

  Lemma min_batch d : in_tags d (l_distr Lin) = false -> min d = snd (select d g).
  Proof. intros H. unfold min, mL. rewrite H. auto. Qed.
  Lemma mout_batch d : in_tags d (l_distr Lout) = false -> mout d = snd (select d g).
  Proof. intros H. unfold mout, mL. rewrite H. auto. Qed.
  Lemma in_not_out d : in_tags d (l_distr Lin) = true -> in_tags d (l_distr Lout) = false.
  Proof. rewrite in_tags_iff, in_tags_false. apply Hdisj. Qed.
  Lemma out_not_in d : in_tags d (l_distr Lout) = true -> in_tags d (l_distr Lin) = false.
  Proof. rewrite in_tags_iff, in_tags_false. intros H H'. apply (Hdisj d H' H). Qed.

  Lemma nin_mul d : In d (l_distr Lin) -> snd (select d g) = nin d * min d /\ 0 < nin d /\ 0 < min d.
  Proof. apply (nL_mul g Lin P Hgin HP Hdin Hpos). Qed.
  Lemma nout_mul d : In d (l_distr Lout) -> snd (select d g) = nout d * mout d /\ 0 < nout d /\ 0 < mout d.
  Proof. apply (nL_mul g Lout P Hgout HP Hdout Hpos'). Qed.

  Lemma core_pos d : In d (l_order Lin) -> 0 < core d.
  Proof.
    intros Hd. unfold core. destruct (in_tags d (l_distr Lout)) eqn:E.
    - apply in_tags_iff in E. apply nout_mul; auto.
    - destruct (in_tags d (l_distr Lin)) eqn:E'.
      + apply in_tags_iff in E'. apply nin_mul; auto.
      + rewrite min_batch by auto. auto.
  Qed.

  (** extents used before the alltoall *)
  Let ext1 (r : nat) := mpi_extent mpi_out (l_distr Lout) (locL g Lout P r) (locL g Lin P r).
  Let ext2 (r : nat) := mpi_extent mpi_in (l_distr Lout) (locL g Lout P r) (locL g Lin P r).

  Lemma ext1_mpi r d : In d (l_distr Lout) -> ext1 r (MPIDim d) = nout d.
  Proof. intros H. apply (assoc_map nout); auto. Qed.
  Lemma ext2_mpi r d : In d (l_distr Lin) -> ext2 r (MPIDim d) = nin d.
  Proof. intros H. apply (assoc_map nin); auto. Qed.
  Lemma ext1_dim r d : In d (l_order Lin) -> ext1 r (Dim d) = core d.
  Proof.
    intros H. simpl. unfold core. destruct (in_tags d (l_distr Lout)).
    - apply size_locL. apply order_in_out; auto.
    - apply size_locL; auto.
  Qed.
  Lemma ext2_dim r d : In d (l_order Lin) -> ext2 r (Dim d) = core d.
  Proof. exact (ext1_dim r d). Qed.

  Lemma shape_a2a_1 r : with_extents (ext1 r) (type_seq_merge (map MPIDim (l_distr Lout)) (map Dim (l_order Lin)))
    = grL g Lout P ++ rest.
  Proof.
    rewrite merge_mpi_dims. unfold with_extents. rewrite map_app, !map_map.
    rewrite (grL_form g Lout P Hgout). f_equal; apply map_ext_in; intros d Hd; f_equal.
    - apply ext1_mpi; auto.
    - apply ext1_dim; auto.
  Qed.
  Lemma shape_a2a_2 r : with_extents (ext2 r) (type_seq_merge (map MPIDim (l_distr Lin)) (map Dim (l_order Lin)))
    = grL g Lin P ++ rest.
  Proof.
    rewrite merge_mpi_dims. unfold with_extents. rewrite map_app, !map_map.
    rewrite (grL_form g Lin P Hgin). f_equal; apply map_ext_in; intros d Hd; f_equal.
    - apply ext2_mpi; auto.
    - apply ext2_dim; auto.
  Qed.

  Lemma dim_nodup o : NoDup o -> NoDup (map Dim o).
  Proof. apply NoDup_map_inj. congruence. Qed.
  Lemma dim_mpi_not_in d o : ~ In (MPIDim d) (map Dim o).
  Proof. intros H. apply in_map_iff in H. destruct H as (x & E & _). discriminate. Qed.

  Lemma in_shape_offset r idx :
    let s := with_extents (ext1 r) (insert_mpi_tags (l_distr Lout) (map Dim (l_order Lin))) in
    shape_size s = range_size (locL g Lin P r) /\
    offset s idx = offset (local_shape (locL g Lin P r)) (merge_idx (l_distr Lout) (ext1 r) idx).
  Proof.
    cbv zeta.
    destruct (insert_mpi_tags_offset (ext1 r) idx (l_distr Lout) (map Dim (l_order Lin))) as [E1 E2].
    - apply dim_nodup, Hgin.
    - apply (distr_nodup g Lout Hgout).
    - intros d Hd. split; [|apply dim_mpi_not_in]. apply in_map, order_out_in, (distr_incl g Lout Hgout); auto.
    - rewrite E1, E2. rewrite range_size_L, local_shape_L by auto.
      assert (Es : with_extents (merge_ext (l_distr Lout) (ext1 r)) (map Dim (l_order Lin))
                   = map (fun d => (Dim d, mL g Lin P d)) (l_order Lin)).
      { unfold with_extents. rewrite map_map. apply map_ext_in. intros d Hd. f_equal.
        unfold merge_ext. rewrite ext1_dim by auto. unfold core. fold min.
        destruct (in_tags d (l_distr Lout)) eqn:E; auto.
        assert (Hd' : In d (l_distr Lout)) by (apply in_tags_iff; auto).
        rewrite ext1_mpi by auto. pose proof (nout_mul d Hd') as (H & _ & _). rewrite <- H.
        symmetry. apply min_batch, out_not_in; auto. }
      rewrite Es. auto.
  Qed.

  Lemma out_shape_offset r idx :
    let s := with_extents (ext2 r) (insert_mpi_tags (l_distr Lin) (map Dim (l_order Lout))) in
    shape_size s = range_size (locL g Lout P r) /\
    offset s idx = offset (local_shape (locL g Lout P r)) (merge_idx (l_distr Lin) (ext2 r) idx).
  Proof.
    cbv zeta.
    destruct (insert_mpi_tags_offset (ext2 r) idx (l_distr Lin) (map Dim (l_order Lout))) as [E1 E2].
    - apply dim_nodup, Hgout.
    - apply (distr_nodup g Lin Hgin).
    - intros d Hd. split; [|apply dim_mpi_not_in]. apply in_map, order_in_out, (distr_incl g Lin Hgin); auto.
    - rewrite E1, E2. rewrite range_size_L, local_shape_L by auto.
      assert (Es : with_extents (merge_ext (l_distr Lin) (ext2 r)) (map Dim (l_order Lout))
                   = map (fun d => (Dim d, mL g Lout P d)) (l_order Lout)).
      { unfold with_extents. rewrite map_map. apply map_ext_in. intros d Hd. f_equal.
        unfold merge_ext. rewrite ext2_dim by (apply order_out_in; auto). unfold core. fold mout.
        destruct (in_tags d (l_distr Lin)) eqn:E.
        - assert (Hd' : In d (l_distr Lin)) by (apply in_tags_iff; auto).
          rewrite ext2_mpi by auto. rewrite (in_not_out d E).
          pose proof (nin_mul d Hd') as (H & _ & _). rewrite <- H.
          symmetry. apply mout_batch, in_not_out; auto.
        - destruct (in_tags d (l_distr Lout)) eqn:E'; auto.
          rewrite min_batch, mout_batch; auto. }
      rewrite Es. auto.
  Qed.

  Lemma split_bounds idx : in_range idx (gL g Lin) ->
    in_bounds (grL g Lin P ++ rest) (split_idx idx) /\ in_bounds (grL g Lout P ++ rest) (split_idx idx).
  Proof.
    intros Hi.
    assert (Hr : forall d, In d (l_order Lin) -> Z.to_nat (idx d - fst (select d g)) < snd (select d g)).
    { intros d Hd. pose proof (Hi d (fst (select d g)) (snd (select d g))) as H3.
      rewrite <- surjective_pairing in H3.
      assert (Hin : In (d, select d g) (gL g Lin)).
      { unfold gL, sub_range. apply in_map_iff. exists d. auto. }
      specialize (H3 Hin). specialize (Hpos d Hd). lia. }
    assert (Hrest : forall t n, In (t, n) rest -> split_idx idx t < n).
    { intros t n Ht. apply in_map_iff in Ht. destruct Ht as (d & E & Hd). injection E as <- <-.
      simpl. apply Nat.mod_upper_bound. pose proof (core_pos d Hd). lia. }
    split; intros t n Ht; apply in_app_or in Ht; destruct Ht as [Ht|Ht]; auto.
    - rewrite (grL_form g Lin P Hgin) in Ht. apply in_map_iff in Ht. destruct Ht as (d & E & Hd).
      injection E as <- <-. simpl. assert (Et : in_tags d (l_distr Lin) = true) by (apply in_tags_iff; auto).
      rewrite Et. apply div_lt_range. pose proof (nin_mul d Hd) as (H & _ & _).
      fold nin. rewrite <- H. apply Hr, (distr_incl g Lin Hgin); auto.
    - rewrite (grL_form g Lout P Hgout) in Ht. apply in_map_iff in Ht. destruct Ht as (d & E & Hd).
      injection E as <- <-. simpl. assert (Et : in_tags d (l_distr Lin) = false).
      { apply out_not_in, in_tags_iff; auto. }
      rewrite Et. apply div_lt_range. pose proof (nout_mul d Hd) as (H & _ & _).
      fold nout. rewrite <- H. apply Hr, order_out_in, (distr_incl g Lout Hgout); auto.
  Qed.

  Lemma split_rank_in idx : offset (grL g Lin P) (split_idx idx) = offset (grL g Lin P) (ridx g Lin P idx).
  Proof.
    apply offset_ext. intros t Ht. rewrite (grL_form g Lin P Hgin) in Ht. unfold tags_of in Ht.
    rewrite map_map in Ht. apply in_map_iff in Ht. destruct Ht as (d & <- & Hd). simpl.
    apply in_tags_iff in Hd. rewrite Hd. reflexivity.
  Qed.
  Lemma split_rank_out idx : offset (grL g Lout P) (split_idx idx) = offset (grL g Lout P) (ridx g Lout P idx).
  Proof.
    apply offset_ext. intros t Ht. rewrite (grL_form g Lout P Hgout) in Ht. unfold tags_of in Ht.
    rewrite map_map in Ht. apply in_map_iff in Ht. destruct Ht as (d & <- & Hd). simpl.
    apply in_tags_iff in Hd. rewrite (out_not_in d Hd). reflexivity.
  Qed.

  Lemma in_pos q idx : q < P -> in_range idx (locL g Lin P q) ->
    offset (local_shape (locL g Lin P q)) (merge_idx (l_distr Lout) (ext1 q) (split_idx idx)) =
    offset (local_shape (locL g Lin P q))
      (fun t => match t with Dim d => Z.to_nat (idx d - fst (select d (locL g Lin P q))) | MPIDim _ => 0 end).
  Proof.
    intros Hq Hi. apply offset_ext. intros t Ht. rewrite local_shape_L in Ht by auto.
    unfold tags_of in Ht. rewrite map_map in Ht. apply in_map_iff in Ht. destruct Ht as (d & <- & Hd).
    cbn [fst]. rewrite (local_pos g Lin P Hgin HP Hdin Hpos) by auto. fold min.
    unfold merge_idx. rewrite ext1_dim by auto. unfold split_idx, core.
    set (j := Z.to_nat (idx d - fst (select d g))).
    destruct (in_tags d (l_distr Lout)) eqn:E.
    - rewrite (out_not_in d E).
      apply in_tags_iff in E. pose proof (nout_mul d E) as (_ & _ & Hm).
      pose proof (Nat.div_mod j (mout d)). lia.
    - destruct (in_tags d (l_distr Lin)) eqn:E'; auto.
      apply Nat.mod_small. rewrite min_batch by auto. unfold j.
      apply (in_locL_iff g Lin P Hgin HP Hdin) in Hi; auto. destruct Hi as [Hi _].
      pose proof (Hi d (fst (select d g)) (snd (select d g))) as H3.
      rewrite <- surjective_pairing in H3.
      assert (Hin : In (d, select d g) (gL g Lin)).
      { unfold gL, sub_range. apply in_map_iff. exists d. auto. }
      specialize (H3 Hin). specialize (Hpos d Hd). lia.
  Qed.

  Lemma out_pos r idx : r < P -> in_range idx (locL g Lout P r) ->
    offset (local_shape (locL g Lout P r)) (merge_idx (l_distr Lin) (ext2 r) (split_idx idx)) =
    offset (local_shape (locL g Lout P r))
      (fun t => match t with Dim d => Z.to_nat (idx d - fst (select d (locL g Lout P r))) | MPIDim _ => 0 end).
  Proof.
    intros Hq Hi. apply offset_ext. intros t Ht. rewrite local_shape_L in Ht by auto.
    unfold tags_of in Ht. rewrite map_map in Ht. apply in_map_iff in Ht. destruct Ht as (d & <- & Hd).
    cbn [fst]. rewrite (local_pos g Lout P Hgout HP Hdout Hpos') by auto. fold mout.
    unfold merge_idx. rewrite ext2_dim by (apply order_out_in; auto). unfold split_idx, core.
    set (j := Z.to_nat (idx d - fst (select d g))).
    destruct (in_tags d (l_distr Lin)) eqn:E'.
    - rewrite (in_not_out d E').
      apply in_tags_iff in E'. pose proof (nin_mul d E') as (_ & _ & Hm).
      pose proof (Nat.div_mod j (min d)). lia.
    - destruct (in_tags d (l_distr Lout)) eqn:E; auto.
      apply Nat.mod_small. rewrite min_batch by auto. unfold j.
      apply (in_locL_iff g Lout P Hgout HP Hdout) in Hi; auto. destruct Hi as [Hi _].
      pose proof (Hi d (fst (select d g)) (snd (select d g))) as H3.
      rewrite <- surjective_pairing in H3.
      assert (Hin : In (d, select d g) (gL g Lout)).
      { unfold gL, sub_range. apply in_map_iff. exists d. auto. }
      specialize (H3 Hin). specialize (Hpos' d Hd). lia.
  Qed.

  Lemma mpi_rest_nodup L : good_layout g L -> NoDup (tags_of (grL g L P ++ rest)).
  Proof.
    intros HL. unfold tags_of. rewrite map_app. rewrite (grL_form g L P HL). unfold rest.
    rewrite !map_map. cbn [fst].
    assert (H1 : NoDup (map MPIDim (l_distr L))) by (apply NoDup_map_inj; [congruence|apply (distr_nodup g L HL)]).
    assert (H2 : NoDup (map Dim (l_order Lin))) by (apply dim_nodup, Hgin).
    induction (l_distr L) as [|x l IH]; simpl in *; auto.
    inversion H1; subst. constructor; [|auto]. intros H. apply in_app_or in H. destruct H as [H|H]; [tauto|].
    apply in_map_iff in H. destruct H as (y & E & _). discriminate.
  Qed.

  Lemma perm_shapes ext L o : (forall d, In d (l_distr L) -> In d o) -> Permutation o (l_order Lin) ->
    Permutation (with_extents ext (insert_mpi_tags (l_distr L) (map Dim o)))
                (with_extents ext (map MPIDim (l_distr L) ++ map Dim (l_order Lin))).
  Proof.
    intros H Ho. apply Permutation_map. rewrite insert_mpi_tags_perm by (intros; apply in_map; auto).
    apply Permutation_app_head, Permutation_map, Ho.
  Qed.

  Lemma in_range_perm idx : in_range idx (gL g Lin) <-> in_range idx (gL g Lout).
  Proof.
    unfold in_range, gL, sub_range. split; intros H d f n Hi; apply in_map_iff in Hi;
      destruct Hi as (d' & E & Hd); injection E as <- E; apply H; apply in_map_iff; exists d'; rewrite E;
      split; auto.
    - apply order_out_in; auto.
    - apply order_in_out; auto.
  Qed.

  (** the alltoall send buffer of rank q *)
  Lemma before_spec q (send : list A) : q < P -> length send = range_size (locL g Lin P q) ->
    exists sb, before_alltoall uninit Lin Lout (locL g Lin P q) (locL g Lout P q) mpi_in mpi_out send = Ok sb /\
      length sb = P * shape_size rest /\
      forall idx, in_range idx (locL g Lin P q) ->
        nth_error sb (offset (grL g Lout P) (ridx g Lout P idx) * shape_size rest + offset rest (split_idx idx)) =
        nth_error send (offset (local_shape (locL g Lin P q))
          (fun t => match t with Dim d => Z.to_nat (idx d - fst (select d (locL g Lin P q))) | MPIDim _ => 0 end)).
  Proof.
    intros Hq Hl. unfold before_alltoall. fold (ext1 q).
    destruct (in_shape_offset q (fun _ => 0)) as [Hsz _]. rewrite Hsz, Nat.eqb_refl. cbn [check bind].
    set (ins := with_extents (ext1 q) (insert_mpi_tags (l_distr Lout) (map Dim (l_order Lin)))) in *.
    rewrite shape_a2a_1.
    assert (Hp : Permutation ins (grL g Lout P ++ rest)).
    { rewrite <- (shape_a2a_1 q). rewrite merge_mpi_dims. apply perm_shapes; [|reflexivity].
      intros d Hd. apply order_out_in, (distr_incl g Lout Hgout); auto. }
    assert (Hnd : NoDup (tags_of ins)).
    { eapply Permutation_NoDup; [apply Permutation_sym, Permutation_map, Hp|]. apply mpi_rest_nodup; auto. }
    destruct (transpose_layout_spec (grL g Lout P ++ rest)
       (repeat uninit (shape_size (grL g Lout P ++ rest))) ins send Hp Hnd) as (out & E & Hlo & Ho).
    - rewrite Hsz; auto.
    - rewrite repeat_length; auto.
    - exists out. split; [exact E|]. split.
      { rewrite Hlo, shape_size_app, (grL_size g Lout P Hgout HP Hdout). auto. }
      intros idx Hi.
      assert (Hi2 : in_range idx (gL g Lin)) by (apply (in_locL_iff g Lin P Hgin HP Hdin) in Hi; tauto).
      destruct (split_bounds idx Hi2) as [_ Hb].
      assert (Hb' : in_bounds ins (split_idx idx)).
      { intros t n Ht. apply Hb. eapply Permutation_in; eauto. }
      specialize (Ho (split_idx idx) Hb'). rewrite offset_app in Ho. rewrite split_rank_out in Ho.
      rewrite Ho. f_equal.
      destruct (in_shape_offset q (split_idx idx)) as [_ E']. fold ins in E'. rewrite E'.
      apply in_pos; auto.
  Qed.

  Lemma after_spec r (rb recv : list A) : r < P -> length rb = P * shape_size rest ->
    length recv = range_size (locL g Lout P r) ->
    exists out, after_alltoall Lin Lout (locL g Lin P r) (locL g Lout P r) mpi_in mpi_out rb recv = Ok out /\
      length out = range_size (locL g Lout P r) /\
      forall idx, in_range idx (locL g Lout P r) ->
        nth_error out (offset (local_shape (locL g Lout P r))
          (fun t => match t with Dim d => Z.to_nat (idx d - fst (select d (locL g Lout P r))) | MPIDim _ => 0 end)) =
        nth_error rb (offset (grL g Lin P) (ridx g Lin P idx) * shape_size rest + offset rest (split_idx idx)).
  Proof.
    intros Hq Hl Hlr. unfold after_alltoall. fold (ext2 r).
    destruct (out_shape_offset r (fun _ => 0)) as [Hsz _]. rewrite Hsz, Nat.eqb_refl. cbn [check bind].
    set (outs := with_extents (ext2 r) (insert_mpi_tags (l_distr Lin) (map Dim (l_order Lout)))) in *.
    rewrite shape_a2a_2.
    assert (Hp : Permutation (grL g Lin P ++ rest) outs).
    { apply Permutation_sym. rewrite <- (shape_a2a_2 r). rewrite merge_mpi_dims.
      apply perm_shapes; [|apply Permutation_sym, Hperm].
      intros d Hd. apply order_in_out, (distr_incl g Lin Hgin); auto. }
    destruct (transpose_layout_spec outs recv (grL g Lin P ++ rest) rb Hp (mpi_rest_nodup Lin Hgin))
      as (out & E & Hlo & Ho).
    - rewrite shape_size_app, (grL_size g Lin P Hgin HP Hdin). auto.
    - rewrite Hsz; auto.
    - exists out. split; [exact E|]. split.
      { rewrite Hlo, Hsz. auto. }
      intros idx Hi.
      assert (Hi2 : in_range idx (gL g Lin)).
      { apply in_range_perm. apply (in_locL_iff g Lout P Hgout HP Hdout) in Hi; tauto. }
      destruct (split_bounds idx Hi2) as [Hb _].
      specialize (Ho (split_idx idx) Hb). rewrite offset_app in Ho. rewrite split_rank_in in Ho.
      rewrite <- Ho. f_equal.
      destruct (out_shape_offset r (split_idx idx)) as [_ E']. fold outs in E'. rewrite E'.
      symmetry. apply out_pos; auto.
  Qed.

  Lemma recv_count_spec r : recv_count Lin Lout (locL g Lin P r) (locL g Lout P r) mpi_in = P * shape_size rest.
  Proof.
    unfold recv_count. fold (ext2 r). rewrite shape_a2a_2, shape_size_app, (grL_size g Lin P Hgin HP Hdin). auto.
  Qed.

  (** The collective call once every rank has been constructed. *)
  Lemma exchange_spec (send recv : list (list A)) (F : (nat -> Z) -> A) :
    holds_field P (locL g Lin P) send F ->
    length recv = P -> (forall r b, r < P -> nth_error recv r = Some b -> length b = range_size (locL g Lout P r)) ->
    exists sb rb out,
      mapM (fun r => let* b := rd send (Z.of_nat r) in
         before_alltoall uninit Lin Lout (locL g Lin P r) (locL g Lout P r) mpi_in mpi_out b) (seq 0 P) = Ok sb /\
      (exists b0, rd sb 0%Z = Ok b0 /\
         let rc := recv_count Lin Lout (locL g Lin P 0) (locL g Lout P 0) mpi_in in
         mpi_alltoall P (length b0 / P) (rc / P) sb (repeat (repeat uninit rc) P) = Ok rb) /\
      mapM (fun r => let* b := rd rb (Z.of_nat r) in let* o := rd recv (Z.of_nat r) in
         after_alltoall Lin Lout (locL g Lin P r) (locL g Lout P r) mpi_in mpi_out b o) (seq 0 P) = Ok out /\
      holds_field P (locL g Lout P) out F.
  Proof.
    intros [Hls Hs] Hlr Hr.
    set (c := shape_size rest).
    destruct (mapM_seq_ex (fun r => let* b := rd send (Z.of_nat r) in
         before_alltoall uninit Lin Lout (locL g Lin P r) (locL g Lout P r) mpi_in mpi_out b)
       (fun q sb => length sb = P * c /\
          forall idx, in_range idx (locL g Lin P q) ->
          nth_error sb (offset (grL g Lout P) (ridx g Lout P idx) * c + offset rest (split_idx idx)) = Some (F idx)) P 0)
      as (sb & Esb & Hlsb & Hsb).
    { intros q Hq. destruct (Hs q) as (b & Eb & Hlb & Hfb); [lia|].
      rewrite (nth_error_rd _ _ _ Eb). cbn [bind].
      destruct (before_spec q b) as (sb & E & Hl & Hn); [lia|auto|].
      exists sb. split; auto. split; auto. intros idx Hi. unfold c. rewrite Hn by auto.
      specialize (Hfb idx Hi). unfold field_at in Hfb. apply rd_nth_error in Hfb. exact Hfb. }
    assert (Hsbl : forall b, In b sb -> length b = P * c).
    { intros b Hb. apply In_nth_error in Hb. destruct Hb as [q Hq].
      assert (q < P) by (rewrite <- Hlsb; apply nth_error_Some; congruence).
      destruct (Hsb q) as (b' & E & H1 & _); auto. congruence. }
    destruct (alltoall_spec P c sb (repeat (repeat uninit (P * c)) P)) as (rb & Erb & Hlrb & Hrb); auto.
    { apply repeat_length. }
    { intros b Hb. apply repeat_spec in Hb. subst. apply repeat_length. }
    destruct (mapM_seq_ex (fun r => let* b := rd rb (Z.of_nat r) in let* o := rd recv (Z.of_nat r) in
         after_alltoall Lin Lout (locL g Lin P r) (locL g Lout P r) mpi_in mpi_out b o)
       (fun r out => length out = range_size (locL g Lout P r) /\
          forall idx, in_range idx (locL g Lout P r) -> field_at (locL g Lout P r) out idx = Ok (F idx)) P 0)
      as (out & Eout & Hlout & Hout).
    { intros r Hrr. destruct (Hrb r) as (b & Eb & Hlb & Hb); [lia|].
      rewrite (nth_error_rd _ _ _ Eb). cbn [bind].
      destruct (nth_error recv r) as [o|] eqn:Eo.
      2:{ apply nth_error_None in Eo. lia. }
      rewrite (nth_error_rd _ _ _ Eo). cbn [bind].
      destruct (after_spec r b o) as (out & E & Hl & Hn); [lia|auto|apply Hr; auto; lia|].
      exists out. split; auto. split; auto. intros idx Hi. unfold field_at. apply nth_error_rd.
      rewrite Hn by auto. fold c.
      assert (Hig : in_range idx (gL g Lin)).
      { apply in_range_perm. apply (in_locL_iff g Lout P Hgout HP Hdout) in Hi; [tauto|lia]. }
      destruct (owner_L g Lin P Hgin HP Hdin idx Hig) as [Hq Hiq].
      set (q := offset (grL g Lin P) (ridx g Lin P idx)) in *.
      destruct (Hsb q Hq) as (bq & Ebq & _ & Hbq). simpl in Hbq.
      destruct (split_bounds idx Hig) as [Hb1 _].
      assert (Hk : offset rest (split_idx idx) < c).
      { apply offset_lt. intros t n Ht. apply Hb1. apply in_or_app; right; auto. }
      rewrite (Hb q bq _ Ebq Hk).
      rewrite (owner_L_unique g Lout P Hgout HP Hdout idx r) by (auto; lia).
      apply Hbq; auto. }
    exists sb, rb, out. split; auto. split.
    { destruct (Hsb 0 HP) as (b0 & E0 & Hl0 & _). exists b0. split.
      - apply (nth_error_rd sb 0). auto.
      - cbv zeta. rewrite recv_count_spec. fold c.
        assert (Ed : P * c / P = c) by (rewrite Nat.mul_comm; apply Nat.div_mul; lia).
        rewrite Hl0. rewrite Ed. auto. }
    split; auto. split; auto.
  Qed.
End Two.

Lemma mapM_ext {X Y} (f h : X -> res Y) l : (forall x, In x l -> f x = h x) -> mapM f l = mapM h l.
Proof.
  induction l as [|x l IH]; intros H; simpl; auto. rewrite H by (left; auto). rewrite IH; auto.
  intros; apply H; right; auto.
Qed.

Definition mpiL g L P := map (fun d => (d, nL g L P d)) (l_distr L).

Lemma construct_ok g L1 L2 P r : compatible g L1 L2 P -> r < P ->
  construct L1 L2 g P r = Ok {| t_local1 := locL g L1 P r; t_local2 := locL g L2 P r;
                                t_mpi1 := mpiL g L1 P; t_mpi2 := mpiL g L2 P |}.
Proof.
  intros (H1 & H2 & Hp & Hd & HP & D1 & D2 & Hs) Hr. unfold construct.
  fold (gL g L1). fold (gL g L2).
  assert (E : range_size (sub_range (l_distr L1) (gL g L1)) = distributed_size (l_distr L1) g).
  { unfold range_size, sub_range. rewrite map_map. cbn [snd].
    fold (distributed_size (l_distr L1) (gL g L1)). apply (distr_size_gL g L1 H1). }
  rewrite E.
  assert (Hpos : 0 < distributed_size (l_distr L1) g).
  { unfold distributed_size. apply nprod_pos. intros x Hx. apply in_map_iff in Hx.
    destruct Hx as (d & <- & Hdd). apply Hs. apply (distr_incl g L1 H1); auto. }
  replace (distributed_size (l_distr L1) g <? P) with false.
  2:{ destruct D1 as [k Hk]. symmetry. apply Nat.ltb_ge. destruct k; [lia|]. nia. }
  replace (distributed_size (l_distr L1) g mod P) with 0 by (symmetry; apply Nat.mod_divide; [lia|auto]).
  cbn [negb Nat.eqb].
  rewrite (distribute_L g L1 P H1 HP D1 r Hr), (distribute_L g L2 P H2 HP D2 r Hr). cbn [bind].
  rewrite (get_distribution_L g L1 P H1 HP D1 Hs r).
  rewrite (get_distribution_L g L2 P H2 HP D2).
  - reflexivity.
  - intros d Hdd. apply Hs. eapply Permutation_in; [apply Permutation_sym, Hp|exact Hdd].
Qed.

Lemma transpose_world_spec {A} (uninit : A) (fw : bool) g L1 L2 P (send recv : list (list A)) F :
  compatible g L1 L2 P ->
  holds_field P (locL g (if fw then L1 else L2) P) send F ->
  length recv = P ->
  (forall r b, r < P -> nth_error recv r = Some b -> length b = range_size (locL g (if fw then L2 else L1) P r)) ->
  exists out, transpose_world uninit fw L1 L2 g P send recv = Ok out /\
    holds_field P (locL g (if fw then L2 else L1) P) out F.
Proof.
  intros HC Hh Hl Hr. pose proof HC as (H1 & H2 & Hp & Hd & HP & D1 & D2 & Hs).
  unfold transpose_world.
  rewrite (mapM_seq_ok _ (fun r => {| t_local1 := locL g L1 P r; t_local2 := locL g L2 P r;
                                t_mpi1 := mpiL g L1 P; t_mpi2 := mpiL g L2 P |})).
  2:{ intros r Hrr. apply construct_ok; auto; lia. }
  cbn [bind].
  set (ops := map _ (seq 0 P)).
  assert (Hops : forall r, r < P -> rd ops (Z.of_nat r) = Ok {| t_local1 := locL g L1 P r; t_local2 := locL g L2 P r;
                                t_mpi1 := mpiL g L1 P; t_mpi2 := mpiL g L2 P |}).
  { intros r Hrr. apply nth_error_rd. unfold ops.
    apply (map_nth_error (fun r => {| t_local1 := locL g L1 P r; t_local2 := locL g L2 P r;
        t_mpi1 := mpiL g L1 P; t_mpi2 := mpiL g L2 P |})).
    rewrite nth_error_nth' with (d := 0) by (rewrite seq_length; auto). rewrite seq_nth; auto. }
  assert (HC' : exists (sb rb out : list (list A)),
      let Lin := if fw then L1 else L2 in let Lout := if fw then L2 else L1 in
      mapM (fun r => let* b := rd send (Z.of_nat r) in
         before_alltoall uninit Lin Lout (locL g Lin P r) (locL g Lout P r) (mpiL g Lin P) (mpiL g Lout P) b) (seq 0 P) = Ok sb /\
      (exists b0, rd sb 0%Z = Ok b0 /\
         let rc := recv_count Lin Lout (locL g Lin P 0) (locL g Lout P 0) (mpiL g Lin P) in
         mpi_alltoall P (length b0 / P) (rc / P) sb (repeat (repeat uninit rc) P) = Ok rb) /\
      mapM (fun r => let* b := rd rb (Z.of_nat r) in let* o := rd recv (Z.of_nat r) in
         after_alltoall Lin Lout (locL g Lin P r) (locL g Lout P r) (mpiL g Lin P) (mpiL g Lout P) b o) (seq 0 P) = Ok out /\
      holds_field P (locL g Lout P) out F).
  { destruct fw; cbv zeta.
    - apply (exchange_spec A uninit g L1 L2 P); auto.
    - apply (exchange_spec A uninit g L2 L1 P); auto.
      + apply Permutation_sym; auto.
      + intros d Hd1 Hd2. apply (Hd d); auto.
      + intros d Hdd. apply Hs. eapply Permutation_in; [apply Permutation_sym, Hp|exact Hdd]. }
  destruct HC' as (sb & rb & out & E1 & (b0 & E2 & E3) & E4 & E5).
  rewrite (mapM_ext _ (fun r => let* b := rd send (Z.of_nat r) in
         before_alltoall uninit (if fw then L1 else L2) (if fw then L2 else L1) (locL g (if fw then L1 else L2) P r) (locL g (if fw then L2 else L1) P r) (mpiL g (if fw then L1 else L2) P) (mpiL g (if fw then L2 else L1) P) b)).
  2:{ intros r Hrr. apply in_seq in Hrr. rewrite Hops by lia. cbn [bind]. destruct fw; reflexivity. }
  cbv zeta in E1. rewrite E1. cbn [bind].
  rewrite (Hops 0 HP : rd ops 0%Z = _). cbn [bind].
  rewrite E2. cbn [bind].
  replace (if fw then t_local1 _ else t_local2 _) with (locL g (if fw then L1 else L2) P 0) by (destruct fw; reflexivity).
  replace (if fw then t_local2 _ else t_local1 _) with (locL g (if fw then L2 else L1) P 0) by (destruct fw; reflexivity).
  replace (if fw then t_mpi1 _ else t_mpi2 _) with (mpiL g (if fw then L1 else L2) P) by (destruct fw; reflexivity).
  cbv zeta in E3. rewrite E3. cbn [bind].
  exists out. split; [|exact E5].
  cbv zeta in E4. rewrite <- E4. apply mapM_ext. intros r Hrr. apply in_seq in Hrr. rewrite Hops by lia. cbn [bind].
  destruct fw; reflexivity.
Qed.

(** ** Round trip *)
Lemma field_at_ok {A} lr (b : list A) idx : NoDup (dims lr) -> length b = range_size lr -> in_range idx lr ->
  exists x, field_at lr b idx = Ok x.
Proof.
  intros Hn Hl Hi. unfold field_at. apply rd_ok.
  assert (H : in_bounds (local_shape lr) (fun t => match t with Dim d => Z.to_nat (idx d - fst (select d lr)) | MPIDim _ => 0 end)).
  { intros t n Ht. unfold local_shape in Ht. apply in_map_iff in Ht. destruct Ht as ([d [f m]] & E & Hin).
    simpl in E. injection E as <- <-. rewrite (select_in lr d f m Hn Hin). simpl.
    specialize (Hi d f m Hin). lia. }
  apply offset_lt in H.
  assert (E : shape_size (local_shape lr) = range_size lr).
  { unfold shape_size, local_shape, range_size. rewrite map_map. reflexivity. }
  lia.
Qed.

Lemma nth_error_ext {X} (a b : list X) : (forall k, nth_error a k = nth_error b k) -> a = b.
Proof.
  revert b; induction a as [|x a IH]; intros [|z b] Hk; auto.
  - specialize (Hk 0); discriminate.
  - specialize (Hk 0); discriminate.
  - pose proof (Hk 0) as H0. simpl in H0. injection H0 as ->. f_equal. apply IH. intros k. apply (Hk (S k)).
Qed.

Lemma field_determined {A} lr (b1 b2 : list A) F : NoDup (dims lr) ->
  length b1 = range_size lr -> length b2 = range_size lr ->
  (forall idx, in_range idx lr -> field_at lr b1 idx = Ok (F idx)) ->
  (forall idx, in_range idx lr -> field_at lr b2 idx = Ok (F idx)) -> b1 = b2.
Proof.
  intros Hn H1 H2 F1 F2.
  assert (E : shape_size (local_shape lr) = range_size lr).
  { unfold shape_size, local_shape, range_size. rewrite map_map. reflexivity. }
  assert (Hnd : NoDup (tags_of (local_shape lr))).
  { unfold tags_of, local_shape. rewrite map_map. cbn [fst]. rewrite <- (map_map fst Dim).
    apply NoDup_map_inj; [congruence|exact Hn]. }
  assert (Hk : forall k, nth_error b1 k = nth_error b2 k).
  { intros k. destruct (Nat.lt_ge_cases k (range_size lr)) as [Hk|Hk].
    - set (idx := fun d => (fst (select d lr) + Z.of_nat (decode (local_shape lr) k (Dim d)))%Z).
      assert (Hin : in_range idx lr).
      { intros d f n Hi. unfold idx. rewrite (select_in lr d f n Hn Hi). simpl.
        assert (decode (local_shape lr) k (Dim d) < n); [|lia].
        apply decode_in_bounds; auto; [lia|]. unfold local_shape.
        apply in_map_iff. exists (d, (f, n)). auto. }
      assert (Ho : offset (local_shape lr) (fun t => match t with Dim d => Z.to_nat (idx d - fst (select d lr)) | MPIDim _ => 0 end) = k).
      { transitivity (offset (local_shape lr) (decode (local_shape lr) k)); [|apply offset_decode; auto; lia].
        apply offset_ext. intros t Ht. unfold tags_of, local_shape in Ht. rewrite map_map in Ht.
        apply in_map_iff in Ht. destruct Ht as (x & <- & _). cbn [fst]. unfold idx. lia. }
      specialize (F1 idx Hin). specialize (F2 idx Hin). unfold field_at in F1, F2. rewrite Ho in F1, F2.
      apply rd_nth_error in F1. apply rd_nth_error in F2. congruence.
    - assert (E1 : nth_error b1 k = None) by (apply nth_error_None; lia).
      assert (E2 : nth_error b2 k = None) by (apply nth_error_None; lia). congruence. }
  apply nth_error_ext; auto.
Qed.

Lemma worlds_equal {A} P local (w1 w2 : list (list A)) F : (forall r, r < P -> NoDup (dims (local r))) ->
  holds_field P local w1 F -> holds_field P local w2 F -> w1 = w2.
Proof.
  intros Hn [L1 H1] [L2 H2].
  assert (Hk : forall r, nth_error w1 r = nth_error w2 r).
  { intros r. destruct (Nat.lt_ge_cases r P) as [Hr|Hr].
    - destruct (H1 r Hr) as (b1 & E1 & Z1 & F1). destruct (H2 r Hr) as (b2 & E2 & Z2 & F2).
      rewrite E1, E2. f_equal. eapply field_determined; eauto.
    - assert (E1 : nth_error w1 r = None) by (apply nth_error_None; lia).
      assert (E2 : nth_error w2 r = None) by (apply nth_error_None; lia). congruence. }
  apply nth_error_ext; auto.
Qed.

Lemma locL_dims g L P r : dims (locL g L P r) = l_order L.
Proof. unfold locL. rewrite local_dims. apply dims_gL. Qed.

(** any set of buffers of the right sizes holds some global field *)
Lemma field_of_world {A} (uninit : A) g L P (w : list (list A)) :
  good_layout g L -> 0 < P -> Nat.divide P (distributed_size (l_distr L) g) ->
  length w = P -> (forall r b, r < P -> nth_error w r = Some b -> length b = range_size (locL g L P r)) ->
  exists F, holds_field P (locL g L P) w F.
Proof.
  intros HL HP HD Hl Hb.
  exists (fun idx => let r := offset (grL g L P) (ridx g L P idx) in
     match field_at (locL g L P r) (nth r w []) idx with Ok x => x | _ => uninit end).
  split; auto. intros r Hr.
  destruct (nth_error w r) as [b|] eqn:E.
  2:{ apply nth_error_None in E. lia. }
  exists b. split; auto. split; [apply Hb; auto|]. intros idx Hi.
  rewrite <- (owner_L_unique g L P HL HP HD idx r Hr Hi). cbv zeta.
  rewrite (nth_error_nth _ _ _ E).
  destruct (field_at_ok (locL g L P r) b idx) as [x Ex]; auto.
  - rewrite locL_dims. apply HL.
  - rewrite Ex. reflexivity.
Qed.

Lemma compatible_sym_pos g L1 L2 P : compatible g L1 L2 P -> forall d, In d (l_order L2) -> 0 < snd (select d g).
Proof.
  intros (H1 & H2 & Hp & Hd & HP & D1 & D2 & Hs) d Hdd. apply Hs.
  eapply Permutation_in; [apply Permutation_sym, Hp|exact Hdd].
Qed.

(** ** Property-level statements *)
Lemma layout_ranges_locL g L P local : good_layout g L -> 0 < P ->
  Nat.divide P (distributed_size (l_distr L) g) -> layout_ranges g L P local ->
  forall r, r < P -> local r = locL g L P r.
Proof.
  intros HL HP HD H r Hr. specialize (H r Hr).
  pose proof (distribute_L g L P HL HP HD r Hr) as H'. unfold gL in H'. congruence.
Qed.

Lemma holds_ext {A} P l1 l2 (w : list (list A)) F : (forall r, r < P -> l1 r = l2 r) ->
  holds_field P l1 w F -> holds_field P l2 w F.
Proof.
  intros H [H1 H2]. split; auto. intros r Hr. rewrite <- (H r Hr). auto.
Qed.

Lemma transpose_correct : forall A (uninit : A) (forward : bool) g L1 L2 P local1 local2 send recv F,
  compatible g L1 L2 P -> layout_ranges g L1 P local1 -> layout_ranges g L2 P local2 ->
  let lin := if forward then local1 else local2 in
  let lout := if forward then local2 else local1 in
  holds_field P lin send F ->
  length recv = P -> (forall r b, r < P -> nth_error recv r = Some b -> length b = range_size (lout r)) ->
  exists out, transpose_world uninit forward L1 L2 g P send recv = Ok out /\ holds_field P lout out F.
Proof.
  intros A uninit fw g L1 L2 P l1 l2 send recv F HC R1 R2 lin lout Hs Hl Hr.
  pose proof HC as (H1 & H2 & Hp & Hd & HP & D1 & D2 & Hpos).
  pose proof (layout_ranges_locL g L1 P l1 H1 HP D1 R1) as E1.
  pose proof (layout_ranges_locL g L2 P l2 H2 HP D2 R2) as E2.
  assert (Ein : forall r, r < P -> lin r = locL g (if fw then L1 else L2) P r) by (unfold lin; destruct fw; auto).
  assert (Eout : forall r, r < P -> lout r = locL g (if fw then L2 else L1) P r) by (unfold lout; destruct fw; auto).
  destruct (transpose_world_spec uninit fw g L1 L2 P send recv F HC) as (out & E & H); auto.
  - eapply holds_ext; [|exact Hs]. auto.
  - intros r b Hrr Hb. rewrite <- Eout by auto. apply Hr; auto.
  - exists out. split; auto. eapply holds_ext; [|exact H]. intros; symmetry; auto.
Qed.

Lemma transpose_roundtrip : forall A (uninit : A) (forward : bool) g L1 L2 P local1 local2 send recv1 recv2,
  compatible g L1 L2 P -> layout_ranges g L1 P local1 -> layout_ranges g L2 P local2 ->
  let lin := if forward then local1 else local2 in
  let lout := if forward then local2 else local1 in
  length send = P -> (forall r b, r < P -> nth_error send r = Some b -> length b = range_size (lin r)) ->
  length recv1 = P -> (forall r b, r < P -> nth_error recv1 r = Some b -> length b = range_size (lout r)) ->
  length recv2 = P -> (forall r b, r < P -> nth_error recv2 r = Some b -> length b = range_size (lin r)) ->
  (let* mid := transpose_world uninit forward L1 L2 g P send recv1 in
   transpose_world uninit (negb forward) L1 L2 g P mid recv2) = Ok send.
Proof.
  intros A uninit fw g L1 L2 P l1 l2 send recv1 recv2 HC R1 R2 lin lout Ls Hs Lr1 Hr1 Lr2 Hr2.
  pose proof HC as (H1 & H2 & Hp & Hd & HP & D1 & D2 & Hpos).
  pose proof (layout_ranges_locL g L1 P l1 H1 HP D1 R1) as E1.
  pose proof (layout_ranges_locL g L2 P l2 H2 HP D2 R2) as E2.
  assert (Ein : forall r, r < P -> lin r = locL g (if fw then L1 else L2) P r) by (unfold lin; destruct fw; auto).
  assert (HF : exists F, holds_field P lin send F).
  { destruct (field_of_world uninit g (if fw then L1 else L2) P send) as (F & HF); auto.
    - destruct fw; auto.
    - destruct fw; auto.
    - intros r b Hr Hb. rewrite <- Ein by auto. auto.
    - exists F. eapply holds_ext; [|exact HF]. intros; symmetry; auto. }
  destruct HF as (F & HF).
  destruct (transpose_correct A uninit fw g L1 L2 P l1 l2 send recv1 F HC R1 R2 HF Lr1 Hr1) as (mid & Em & Hm).
  rewrite Em. cbn [bind].
  destruct (transpose_correct A uninit (negb fw) g L1 L2 P l1 l2 mid recv2 F HC R1 R2) as (back & Eb & Hb); auto.
  - destruct fw; exact Hm.
  - intros r b Hr Hb. destruct fw; apply Hr2; auto.
  - rewrite Eb. f_equal. apply (worlds_equal P lin back send F).
    + intros r Hr. rewrite Ein by auto. rewrite locL_dims. destruct fw; [apply H1|apply H2].
    + destruct fw; exact Hb.
    + exact HF.
Qed.

Lemma construct_throws : forall L1 L2 g P r, 0 < P -> good_layout g L1 ->
  ~ Nat.divide P (distributed_size (l_distr L1) g) -> construct L1 L2 g P r = Throw.
Proof.
  intros L1 L2 g P r HP HL Hn. unfold construct. fold (gL g L1).
  assert (E : range_size (sub_range (l_distr L1) (gL g L1)) = distributed_size (l_distr L1) g).
  { unfold range_size, sub_range. rewrite map_map. cbn [snd].
    fold (distributed_size (l_distr L1) (gL g L1)). apply (distr_size_gL g L1 HL). }
  rewrite E. destruct (_ <? P); auto.
  destruct (Nat.eqb_spec (distributed_size (l_distr L1) g mod P) 0) as [H|H]; auto.
  exfalso; apply Hn. apply Nat.mod_divide; [lia|auto].
Qed.
