(** Proofs: numbering of tensor elements and permutation parity. *)
From Verif Require Import TensorModel TensorSpec.
From Coq Require Import Lia ZifyBool Permutation.
Open Scope nat_scope.
Local Opaque Nat.div Nat.modulo.

(** ** Row-major numbering *)
Definition prod_ext (exts : list nat) : nat := fold_right Nat.mul 1 exts.

Lemma layout_acc exts pos acc : length exts = length pos ->
  layout_right_acc acc exts pos = acc * prod_ext exts + layout_right_acc 0 exts pos.
Proof.
  revert pos acc. induction exts as [|e es IH]; intros [|p ps] acc H; simpl in *; try lia.
  rewrite (IH ps (acc * e + p)) by lia. rewrite (IH ps p) by lia. nia.
Qed.
Lemma layout_cons e es p ps : length es = length ps ->
  layout_right (e :: es) (p :: ps) = p * prod_ext es + layout_right es ps.
Proof. intros H. unfold layout_right. simpl. apply layout_acc; auto. Qed.
Lemma in_box_length exts pos : in_box exts pos -> length exts = length pos.
Proof. revert pos. induction exts; intros [|p ps] H; simpl in *; try tauto. f_equal. apply IHexts. tauto. Qed.

Lemma layout_bound exts pos : in_box exts pos -> layout_right exts pos < prod_ext exts.
Proof.
  revert pos. induction exts as [|e es IH]; intros [|p ps] H; simpl in *; try tauto.
  - unfold layout_right. simpl. lia.
  - destruct H as [Hp H]. rewrite layout_cons by (apply in_box_length; auto).
    specialize (IH _ H). nia.
Qed.
Lemma layout_inj exts p q : in_box exts p -> in_box exts q ->
  layout_right exts p = layout_right exts q -> p = q.
Proof.
  revert p q. induction exts as [|e es IH]; intros [|p ps] [|q qs] Hp Hq; simpl in *; try tauto.
  destruct Hp as [P Hp], Hq as [Q Hq].
  rewrite !layout_cons by (apply in_box_length; auto). intros E.
  pose proof (layout_bound _ _ Hp). pose proof (layout_bound _ _ Hq).
  assert (p = q) by nia. subst. f_equal. apply IH; auto. lia.
Qed.

(** snoc decomposition *)
Lemma layout_snoc exts e pos p : length exts = length pos ->
  layout_right (exts ++ [e]) (pos ++ [p]) = layout_right exts pos * e + p.
Proof.
  revert pos. unfold layout_right. generalize 0. induction exts as [|x xs IH]; intros acc [|y ys] H; simpl in *; try lia.
  apply IH. lia.
Qed.
Lemma prod_snoc exts e : prod_ext (exts ++ [e]) = prod_ext exts * e.
Proof. induction exts; simpl; [lia|]. rewrite IHexts. lia. Qed.

Lemma nth_element_ext k (sets sets' : list index_set) elem :
  (forall i, i < k -> nth i sets [] = nth i sets' []) ->
  nth_element elem k sets = nth_element elem k sets'.
Proof.
  revert elem. induction k; intros elem H; cbn [nth_element]; [reflexivity|].
  cbv zeta. rewrite (H k) by lia. f_equal. apply IHk. intros; apply H; lia.
Qed.

Lemma get_nth_snoc sets s elem :
  get_nth_element elem (sets ++ [s]) = get_nth_element (elem / length s) sets ++ [nth (elem mod length s) s (Cart 0)].
Proof.
  unfold get_nth_element. rewrite app_length. replace (length sets + length [s]) with (S (length sets)) by (simpl; lia).
  cbn [nth_element]. rewrite app_nth2, Nat.sub_diag by lia. cbn [nth]. f_equal.
  apply nth_element_ext. intros i Hi. rewrite app_nth1 by lia. reflexivity.
Qed.

Lemma tags_at_snoc sets s pos p : length sets = length pos ->
  tags_at (sets ++ [s]) (pos ++ [p]) = tags_at sets pos ++ [nth p s (Cart 0)].
Proof. revert pos. induction sets; intros [|q qs] H; simpl in *; try lia; auto. f_equal. apply IHsets. lia. Qed.
Lemma in_box_snoc exts e pos p : in_box exts pos -> p < e -> in_box (exts ++ [e]) (pos ++ [p]).
Proof. revert pos. induction exts; intros [|q qs] H; simpl in *; try tauto. intros. destruct H. split; auto. Qed.

(** the n-th element is the one at the positions of the row-major numbering *)
Lemma get_nth_spec sets : forall n, n < n_elements sets ->
  exists pos, in_box (extents sets) pos /\ layout_right (extents sets) pos = n /\
              get_nth_element n sets = tags_at sets pos.
Proof.
  unfold n_elements, extents. induction sets as [|s sets IH] using rev_ind; intros n Hn.
  - exists []. cbn in Hn. split; [exact I|]. split; [|reflexivity]. cbn. lia.
  - rewrite map_app in *. cbn [map] in *. fold (prod_ext (map (@length tag) sets ++ [length s])) in Hn.
    rewrite prod_snoc in Hn. assert (Hs : length s <> 0) by (intros E; rewrite E in Hn; lia).
    destruct (IH (n / length s)) as [pos [B [L G]]].
    { apply Nat.div_lt_upper_bound; auto. fold (prod_ext (map (@length tag) sets)). rewrite Nat.mul_comm. exact Hn. }
    exists (pos ++ [n mod length s]). pose proof (in_box_length _ _ B) as HL. rewrite map_length in HL.
    split; [|split].
    + apply in_box_snoc; auto. apply Nat.mod_upper_bound; auto.
    + rewrite layout_snoc by (rewrite map_length; auto). rewrite L.
      pose proof (Nat.div_mod n (length s) Hs). lia.
    + rewrite get_nth_snoc, G, tags_at_snoc by auto. reflexivity.
Qed.
Lemma get_nth_layout sets pos : in_box (extents sets) pos ->
  get_nth_element (layout_right (extents sets) pos) sets = tags_at sets pos.
Proof.
  intros B. destruct (get_nth_spec sets (layout_right (extents sets) pos)) as [q [B' [L G]]].
  { apply layout_bound; auto. }
  rewrite G. f_equal. apply (layout_inj (extents sets)); auto.
Qed.

(** ranks *)
Section Ranks.
  Context {A : Type} (dec : forall x y : A, {x = y} + {x <> y}).
  Lemma rank_lt x l : In x l -> rank_v dec x l < length l.
  Proof. induction l; simpl; [tauto|]. intros H. destruct (dec x a); [lia|]. destruct H; [congruence|]. specialize (IHl H). lia. Qed.
  Lemma nth_rank x l d : In x l -> nth (rank_v dec x l) l d = x.
  Proof. induction l; simpl; [tauto|]. intros H. destruct (dec x a); [auto|]. destruct H; [congruence|]. auto. Qed.
  Lemma rank_nth k l d : NoDup l -> k < length l -> rank_v dec (nth k l d) l = k.
  Proof.
    revert k. induction l; intros k H Hk; simpl in *; [lia|]. inversion H; subst. destruct k; [destruct (dec a a); congruence|].
    destruct (dec (nth k l d) a) as [E|E].
    - exfalso. apply H2. rewrite <- E. apply nth_In. lia.
    - f_equal. apply IHl; auto. lia.
  Qed.
  Lemma in_tags_spec x l : in_tags dec x l = true <-> In x l.
  Proof. unfold in_tags. destruct (in_dec dec x l); split; auto; discriminate. Qed.
End Ranks.

Lemma valid_indexes sets dims : valid_indices sets dims = true <-> indexes sets dims.
Proof.
  revert dims. induction sets as [|s sets IH]; intros [|d dims]; simpl; try tauto; try (split; [discriminate|tauto]).
  rewrite Bool.andb_true_iff, in_tags_spec, IH. tauto.
Qed.
Lemma ranks_box sets dims : indexes sets dims -> in_box (extents sets) (ranks sets dims).
Proof.
  revert dims. induction sets as [|s sets IH]; intros [|d dims]; simpl; try tauto.
  intros [H1 H2]. split; [apply rank_lt; auto|apply IH; auto].
Qed.
Lemma tags_at_ranks sets dims : indexes sets dims -> tags_at sets (ranks sets dims) = dims.
Proof.
  revert dims. induction sets as [|s sets IH]; intros [|d dims]; simpl; try tauto.
  intros [H1 H2]. f_equal; [apply nth_rank; auto|apply IH; auto].
Qed.
Lemma ranks_tags_at sets pos : Forall (@NoDup tag) sets -> in_box (extents sets) pos ->
  ranks sets (tags_at sets pos) = pos.
Proof.
  revert pos. induction sets as [|s sets IH]; intros [|p pos] H; simpl; try tauto.
  inversion H; subst. intros [K1 K2]. f_equal; [apply rank_nth; auto|apply IH; auto].
Qed.
Lemma indexes_tags_at sets pos : in_box (extents sets) pos -> indexes sets (tags_at sets pos).
Proof.
  revert pos. induction sets as [|s sets IH]; intros [|p pos]; simpl; try tauto.
  intros [H1 H2]. split; [apply nth_In; auto|apply IH; auto].
Qed.

Lemma element_index_bound sets dims : indexes sets dims -> element_index sets dims < n_elements sets.
Proof. intros H. apply layout_bound. apply ranks_box; auto. Qed.
Lemma element_index_inj sets d1 d2 : indexes sets d1 -> indexes sets d2 ->
  element_index sets d1 = element_index sets d2 -> d1 = d2.
Proof.
  intros H1 H2 E. rewrite <- (tags_at_ranks sets d1), <- (tags_at_ranks sets d2) by auto. f_equal.
  eapply layout_inj; [apply ranks_box| apply ranks_box|]; eauto.
Qed.
Lemma nth_of_index sets dims : indexes sets dims -> get_nth_element (element_index sets dims) sets = dims.
Proof.
  intros H. unfold element_index. fold (extents sets). rewrite get_nth_layout by (apply ranks_box; auto).
  apply tags_at_ranks; auto.
Qed.
Lemma index_of_nth sets n : Forall (@NoDup tag) sets -> n < n_elements sets ->
  indexes sets (get_nth_element n sets) /\ element_index sets (get_nth_element n sets) = n.
Proof.
  intros HD Hn. destruct (get_nth_spec sets n Hn) as [pos [B [L G]]]. rewrite G. split.
  - apply indexes_tags_at; auto.
  - unfold element_index. rewrite ranks_tags_at; auto.
Qed.

(** get and set *)
Lemma tensor_set_get sets data dims x : length data = n_elements sets -> indexes sets dims ->
  exists data', tensor_set sets data dims x = Ok data' /\ length data' = n_elements sets /\
    tensor_get sets data' dims = Ok x /\
    forall d', indexes sets d' -> d' <> dims -> tensor_get sets data' d' = tensor_get sets data d'.
Proof.
  intros HL HI. unfold tensor_set, tensor_get. pose proof HI as HI'. apply valid_indexes in HI'. rewrite HI'.
  pose proof (element_index_bound sets dims HI) as HB.
  pose proof (wr_ok data (Z.of_nat (element_index sets dims)) x ltac:(lia)) as E.
  eexists. split; [exact E|]. split; [rewrite (wr_length _ _ _ _ E); auto|]. split; [exact (rd_wr_eq _ _ _ _ E)|].
  intros d' Hd' N. pose proof Hd' as Hd''. apply valid_indexes in Hd''. rewrite Hd''.
  eapply rd_wr_neq; [exact E|]. intros EQ. apply N. apply (element_index_inj sets); auto. lia.
Qed.

(** ** Uniqueness and parity *)
Section Parity.
  Context {A : Type} (dec : forall x y : A, {x = y} + {x <> y}).
  Lemma get_unique_nodup start : forall result, NoDup (result ++ start) -> get_unique dec start result = result ++ start.
  Proof.
    induction start as [|h t IH]; intros result H; simpl; [rewrite app_nil_r; auto|].
    destruct (in_tags dec h result) eqn:E.
    - apply in_tags_spec in E. exfalso. apply (NoDup_remove_2 _ _ _ H). apply in_or_app. auto.
    - rewrite IH; rewrite <- app_assoc; auto.
  Qed.
  Lemma get_unique_is_nodup start : forall result, NoDup result -> NoDup (get_unique dec start result).
  Proof.
    induction start as [|h t IH]; intros result H; simpl; [auto|]. apply IH.
    destruct (in_tags dec h result) eqn:E; auto.
    apply NoDup_Add with (l := result) (a := h).
    - rewrite <- (app_nil_r result) at 1. apply Add_app.
    - split; auto. intros C. apply (in_tags_spec dec) in C. congruence.
  Qed.
  Lemma has_unique_spec l : has_unique_elements dec l = true <-> NoDup l.
  Proof.
    unfold has_unique_elements, type_seq_unique. destruct (list_eq_dec dec l (get_unique dec l [])) as [E|E]; split; intros H; auto.
    - rewrite E. apply get_unique_is_nodup. constructor.
    - discriminate.
    - exfalso. apply E. rewrite get_unique_nodup; auto.
  Qed.

  Lemma replace_split u v o h : ~ In o u -> ~ In o v -> type_seq_replace dec (u ++ o :: v) o h = u ++ h :: v.
  Proof.
    intros Hu Hv. unfold type_seq_replace. rewrite map_app. cbn [map].
    assert (G : forall l, ~ In o l -> map (fun x => if dec x o then h else x) l = l).
    { intros l Hl. rewrite <- (map_id l) at 2. apply map_ext_in. intros a Ha. destruct (dec a o); congruence. }
    rewrite (G u Hu), (G v Hv). destruct (dec o o); congruence.
  Qed.
End Parity.

(** inversions *)
Definition cnt (p : nat -> bool) (l : list nat) : nat := length (filter p l).
Lemma cnt_app p u v : cnt p (u ++ v) = cnt p u + cnt p v.
Proof. unfold cnt. rewrite filter_app, app_length. reflexivity. Qed.
Lemma cnt_cons p x u : cnt p (x :: u) = (if p x then 1 else 0) + cnt p u.
Proof. unfold cnt. simpl. destruct (p x); reflexivity. Qed.
Fixpoint cross (u v : list nat) : nat :=
  match u with [] => 0 | x :: u' => cnt (fun y => y <? x) v + cross u' v end.
Lemma inversions_app u v : inversions (u ++ v) = inversions u + inversions v + cross u v.
Proof.
  induction u as [|x u IH]; simpl; [lia|]. fold (cnt (fun y => y <? x) (u ++ v)).
  fold (cnt (fun y => y <? x) u). rewrite cnt_app, IH. lia.
Qed.
Lemma cross_cons u b v : cross u (b :: v) = cnt (fun x => b <? x) u + cross u v.
Proof. induction u as [|x u IH]; simpl; [reflexivity|]. rewrite !cnt_cons, IH. lia. Qed.
Lemma cnt_compl a u : ~ In a u -> cnt (fun x => x <? a) u + cnt (fun x => a <? x) u = length u.
Proof.
  induction u as [|x u IH]; intros H; simpl; [reflexivity|]. rewrite !cnt_cons. simpl in H.
  assert (x <> a) by tauto. assert (~ In a u) by tauto. specialize (IH H1).
  destruct (Nat.ltb_spec x a), (Nat.ltb_spec a x); lia.
Qed.
Lemma inversions_swap a b u v : NoDup (a :: u ++ b :: v) ->
  Nat.even (inversions (a :: u ++ b :: v)) = negb (Nat.even (inversions (b :: u ++ a :: v))).
Proof.
  intros H. inversion H as [|? ? Ha H']; subst.
  assert (Hab : a <> b) by (intros ->; apply Ha, in_or_app; right; left; auto).
  assert (Hau : ~ In a u) by (intros C; apply Ha, in_or_app; auto).
  assert (Hbu : ~ In b u) by (intros C; apply (NoDup_remove_2 _ _ _ H'), in_or_app; auto).
  pose proof (cnt_compl a u Hau) as Ca. pose proof (cnt_compl b u Hbu) as Cb.
  assert (E : inversions (a :: u ++ b :: v) + inversions (b :: u ++ a :: v)
    = 2 * (length u + inversions u + inversions v + cross u v + cnt (fun x => x <? a) v + cnt (fun x => x <? b) v) + 1).
  { cbn [inversions]. fold (cnt (fun x => x <? a) (u ++ b :: v)). fold (cnt (fun x => x <? b) (u ++ a :: v)).
    rewrite !inversions_app, !cross_cons, !cnt_app, !cnt_cons. cbn [inversions].
    fold (cnt (fun x => x <? a) v). fold (cnt (fun x => x <? b) v).
    destruct (Nat.ltb_spec b a), (Nat.ltb_spec a b); lia. }
  assert (O : Nat.odd (inversions (a :: u ++ b :: v) + inversions (b :: u ++ a :: v)) = true).
  { rewrite E. rewrite Nat.odd_add, Nat.odd_mul. reflexivity. }
  rewrite Nat.odd_add in O. unfold Nat.odd in O. 
  destruct (Nat.even (inversions (a :: u ++ b :: v))), (Nat.even (inversions (b :: u ++ a :: v))); simpl in *; congruence.
Qed.
Lemma inversions_S l : inversions (map S l) = inversions l.
Proof.
  induction l as [|x l IH]; simpl; [reflexivity|]. rewrite IH. f_equal.
  clear IH. induction l as [|y l IH]; simpl; [reflexivity|].
  change (S y <? S x) with (y <? x). destruct (y <? x); simpl; rewrite IH; reflexivity.
Qed.

Section Parity2.
  Context {A : Type} (dec : forall x y : A, {x = y} + {x <> y}).
  Definition pos_of (o : list A) (l : list A) : list nat := map (fun x => rank_v dec x o) l.

  Lemma pos_of_cons oh ot l : ~ In oh l -> pos_of (oh :: ot) l = map S (pos_of ot l).
  Proof.
    intros H. unfold pos_of. rewrite map_map. apply map_ext_in. intros a Ha. simpl.
    destruct (dec a oh); [subst; tauto|reflexivity].
  Qed.
  Lemma rank_inj (o : list A) a b : In a o -> rank_v dec a o = rank_v dec b o -> In b o -> a = b.
  Proof. intros Ha E Hb. rewrite <- (nth_rank dec a o a Ha), <- (nth_rank dec b o a Hb). f_equal. auto. Qed.
  Lemma pos_of_nodup o l : NoDup l -> incl l o -> NoDup (pos_of o l).
  Proof.
    intros H. induction H; intros HI; simpl; constructor.
    - intros C. unfold pos_of in C. apply in_map_iff in C. destruct C as [y [E Hy]].
      assert (x = y); [|congruence]. apply (rank_inj o); auto; [apply HI; left; auto|apply HI; right; auto].
    - apply IHNoDup. intros z Hz. apply HI. right; auto.
  Qed.

  Lemma parity_perm o : forall l, NoDup o -> NoDup l -> Permutation l o ->
    permutation_parity dec l o = Some (sign (pos_of o l)).
  Proof.
    induction o as [|oh ot IH]; intros l Ho Hl HP.
    - apply Permutation_sym, Permutation_nil in HP. subst. reflexivity.
    - destruct l as [|h t]; [apply Permutation_nil in HP; discriminate|].
      cbn [permutation_parity].
      rewrite (proj2 (has_unique_spec dec _) Ho), (proj2 (has_unique_spec dec _) Hl). cbn [negb orb].
      inversion Ho as [|? ? Ho1 Ho2]; subst. inversion Hl as [|? ? Hl1 Hl2]; subst.
      destruct (dec h oh) as [->|N].
      + apply Permutation_cons_inv in HP. rewrite (IH t Ho2 Hl2 HP). unfold sign. do 2 f_equal.
        assert (E : pos_of (oh :: ot) (oh :: t) = 0 :: map S (pos_of ot t)).
        { rewrite <- (pos_of_cons oh ot t) by auto. unfold pos_of at 1. cbn [map]. f_equal.
          cbn [rank_v]. destruct (dec oh oh); congruence. }
        rewrite E. cbn [inversions]. rewrite inversions_S.
        replace (filter (fun x => x <? 0) (map S (pos_of ot t))) with (@nil nat); [reflexivity|].
        symmetry. generalize (map S (pos_of ot t)). induction l; simpl; auto.
      + assert (Hin : In oh t).
        { assert (In oh (h :: t)) by (eapply Permutation_in; [apply Permutation_sym; exact HP|left; auto]).
          destruct H; [congruence|auto]. }
        apply in_split in Hin. destruct Hin as [u [v ->]].
        pose proof (NoDup_remove_2 _ _ _ Hl2) as Huv. pose proof (NoDup_remove_1 _ _ _ Hl2) as Huv1.
        rewrite replace_split; [|intros C; apply Huv, in_or_app; auto|intros C; apply Huv, in_or_app; auto].
        assert (HP2 : Permutation (u ++ h :: v) ot).
        { apply (Permutation_cons_inv (a := oh)). rewrite <- HP.
          transitivity (oh :: h :: u ++ v); [constructor; symmetry; apply Permutation_middle|].
          rewrite perm_swap. constructor. apply Permutation_middle. }
        assert (Hn2 : NoDup (u ++ h :: v)).
        { eapply Permutation_NoDup; [apply Permutation_sym; exact HP2|auto]. }
        rewrite (IH _ Ho2 Hn2 HP2). cbn [option_map]. f_equal.
        unfold sign.
        assert (E : pos_of (oh :: ot) (h :: u ++ oh :: v)
                    = rank_v dec h (oh :: ot) :: pos_of (oh :: ot) u ++ 0 :: pos_of (oh :: ot) v).
        { unfold pos_of. cbn [map]. rewrite map_app. cbn [map]. do 3 f_equal. simpl. destruct (dec oh oh); congruence. }
        assert (E2 : inversions (0 :: pos_of (oh :: ot) u ++ rank_v dec h (oh :: ot) :: pos_of (oh :: ot) v)
                     = inversions (pos_of ot (u ++ h :: v))).
        { cbn [inversions].
          replace (filter (fun x => x <? 0) _) with (@nil nat).
          2:{ symmetry. generalize (pos_of (oh :: ot) u ++ rank_v dec h (oh :: ot) :: pos_of (oh :: ot) v).
              induction l; simpl; auto. }
          simpl length. rewrite <- (inversions_S (pos_of ot (u ++ h :: v))). rewrite <- (pos_of_cons oh ot).
          - unfold pos_of. rewrite map_app. reflexivity.
          - intros C. apply in_app_iff in C. destruct C as [C|[C|C]].
            + apply Huv, in_or_app; auto.
            + congruence.
            + apply Huv, in_or_app; auto. }
        rewrite E.
        rewrite inversions_swap.
        * rewrite E2. destruct (Nat.even (inversions (pos_of ot (u ++ h :: v)))); reflexivity.
        * rewrite <- E. apply pos_of_nodup; auto. intros z Hz. eapply Permutation_in; eauto.
  Qed.

  Lemma parity_dup o l : NoDup o -> length l = length o -> ~ NoDup l -> permutation_parity dec l o = Some 0%Z.
  Proof.
    intros Ho HL Hl. destruct o as [|oh ot], l as [|h t]; simpl in HL; try lia.
    - exfalso. apply Hl. constructor.
    - cbn [permutation_parity]. destruct (has_unique_elements dec (h :: t)) eqn:E.
      + apply has_unique_spec in E. tauto.
      + rewrite Bool.orb_true_r. reflexivity.
  Qed.
  Lemma nodup_perm (o l : list A) : NoDup l -> incl l o -> length l = length o -> Permutation l o.
  Proof. intros. apply NoDup_Permutation_bis; auto. lia. Qed.

  (** the parity as a whole *)
  Lemma parity_spec o l : NoDup o -> length l = length o -> incl l o ->
    permutation_parity dec l o = Some (if has_unique_elements dec l then sign (pos_of o l) else 0%Z).
  Proof.
    intros Ho HL HI. destruct (has_unique_elements dec l) eqn:E.
    - apply has_unique_spec in E. apply parity_perm; auto. apply nodup_perm; auto.
    - apply parity_dup; auto. intros C. apply (has_unique_spec dec) in C. congruence.
  Qed.
End Parity2.
