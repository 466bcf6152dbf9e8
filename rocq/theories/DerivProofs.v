(** Proofs about derivative fields (C37). *)
From Verif Require Export DerivSpec.
From Coq Require Import ZifyBool.
Open Scope nat_scope.
Local Opaque Nat.div Nat.modulo.

(** ** Tags *)
Lemma in_tags_iff t l : in_tags t l = true <-> In t l.
Proof. unfold in_tags. destruct (in_dec tag_dec t l); intuition congruence. Qed.

Lemma filter_all {A} (p : A -> bool) l : (forall x, In x l -> p x = true) -> filter p l = l.
Proof.
  induction l as [|h r IH]; intros H; simpl; auto.
  rewrite H by (simpl; auto). rewrite IH; auto. intros; apply H; simpl; auto.
Qed.

Lemma deriv_sub_set_filter l : NoDup l -> deriv_sub_set l = filter is_deriv_dim l.
Proof.
  induction l as [|h r IH]; intros H; simpl; auto.
  inversion H; subst. rewrite IH by auto. unfold type_seq_merge.
  destruct (is_deriv_dim h); simpl.
  - f_equal. apply filter_all. intros x Hx. apply filter_In in Hx.
    apply negb_true_iff, not_true_iff_false. rewrite in_tags_iff. simpl. intros [<-|[]]. tauto.
  - rewrite filter_all; auto.
Qed.

Lemma in_deriv_tags f t : wf_shape f -> (In t (deriv_tags f) <-> In t (dims f) /\ is_deriv_dim t = true).
Proof. intros [H _]. unfold deriv_tags. rewrite deriv_sub_set_filter, filter_In by auto. tauto. Qed.

Lemma nodup_deriv_tags f : wf_shape f -> NoDup (deriv_tags f).
Proof. intros [H _]. unfold deriv_tags. rewrite deriv_sub_set_filter by auto. now apply NoDup_filter. Qed.

Lemma has_deriv_iff f d : wf_shape f -> (has_deriv f d = true <-> In (Der d) (dims f)).
Proof. intros H. unfold has_deriv. rewrite in_tags_iff, in_deriv_tags by auto. simpl. tauto. Qed.

Lemma rank_lt t l : In t l -> rank_v t l < length l.
Proof.
  induction l as [|h r IH]; simpl; [tauto|]. intros H.
  destruct (tag_dec t h); [lia|]. destruct H as [->|H]; [congruence|]. specialize (IH H). lia.
Qed.

(** ** The array index is the binary number of the non-zero orders *)
Fixpoint bits (l : list tag) (b : tag -> bool) : nat :=
  match l with [] => 0 | h :: r => 2 * bits r b + Nat.b2n (b h) end.

Lemma bits_testbit l b t : NoDup l -> In t l -> Nat.testbit (bits l b) (rank_v t l) = b t.
Proof.
  induction l as [|h r IH]; intros Hn; [intros []|]. inversion Hn; subst. intros H.
  cbn [rank_v bits]. destruct (tag_dec t h) as [->|Hne].
  - apply Nat.testbit_0_r.
  - destruct H as [->|H]; [congruence|]. rewrite Nat.testbit_succ_r. auto.
Qed.

Lemma bits_lt l b : bits l b < 2 ^ length l.
Proof.
  induction l as [|h r IH]; simpl; [lia|]. destruct (b h); simpl; lia.
Qed.

Lemma bits_unique l b A : NoDup l -> A < 2 ^ length l ->
  (forall t, In t l -> b t = Nat.testbit A (rank_v t l)) -> bits l b = A.
Proof.
  revert A. induction l as [|h r IH]; intros A Hn HA Hb.
  - simpl in *. lia.
  - inversion Hn; subst. cbn [bits]. cbn [length] in HA. rewrite Nat.pow_succ_r' in HA.
    rewrite (IH (A / 2)); auto.
    + rewrite (Hb h) by (simpl; auto). cbn [rank_v]. destruct (tag_dec h h); [|congruence].
      pose proof (Nat.div_mod A 2) as Hdm. rewrite <- Nat.bit0_mod in Hdm. lia.
    + apply Nat.div_lt_upper_bound; lia.
    + intros t Ht. rewrite (Hb t) by (simpl; auto). cbn [rank_v].
      destruct (tag_dec t h) as [->|]; [tauto|].
      rewrite <- Nat.div2_div, Nat.div2_spec. rewrite Nat.shiftr_spec by lia. f_equal. lia.
Qed.

Lemma get_array_index_bits f o : wf_shape f ->
  get_array_index f o = bits (deriv_tags f) (fun t => negb (Z.eqb (o t) 0)).
Proof.
  intros Hf. unfold get_array_index.
  pose proof (nodup_deriv_tags f Hf) as Hn.
  set (L := deriv_tags f) in *.
  assert (G : forall l k acc, NoDup l -> (forall t, In t l -> rank_v t L = k + rank_v t l) ->
     fold_left (fun acc t => acc + Nat.shiftl (if Z.eqb (o t) 0 then 0 else 1) (rank_v t L)) l acc
     = acc + 2 ^ k * bits l (fun t => negb (Z.eqb (o t) 0))).
  { induction l as [|h r IH]; intros k acc Hl Hr; cbn [fold_left bits]; [lia|].
    inversion Hl; subst. rewrite (IH (S k)); auto.
    - rewrite (Hr h) by (simpl; auto). cbn [rank_v]. destruct (tag_dec h h); [|congruence].
      rewrite Nat.shiftl_mul_pow2, Nat.add_0_r, Nat.pow_succ_r'.
      destruct (Z.eqb (o h) 0); simpl Nat.b2n; simpl negb; simpl Nat.b2n; lia.
    - intros t Ht. rewrite Hr by (simpl; auto). cbn [rank_v].
      destruct (tag_dec t h) as [->|]; [tauto|lia]. }
  rewrite (G L 0 0); auto. simpl. lia.
Qed.

Lemma holds_testbit f A t : holds_deriv f A t = Nat.testbit A (rank_v t (deriv_tags f)).
Proof.
  unfold holds_deriv. set (r := rank_v t (deriv_tags f)).
  rewrite Nat.shiftl_1_l.
  destruct (Nat.testbit A r) eqn:E.
  - assert (Nat.land A (2 ^ r) <> 0).
    { intros H. assert (H' : Nat.testbit (Nat.land A (2 ^ r)) r = false) by (rewrite H; apply Nat.bits_0).
      rewrite Nat.land_spec, E, Nat.pow2_bits_true in H'. discriminate. }
    apply negb_true_iff, Nat.eqb_neq; auto.
  - apply negb_false_iff, Nat.eqb_eq. apply Nat.bits_inj. intros m.
    rewrite Nat.land_spec, Nat.bits_0, Nat.pow2_bits_eqb.
    destruct (Nat.eqb_spec r m) as [<-|]; [now rewrite E|]. apply andb_false_r.
Qed.

Lemma holds_array_index f o t : wf_shape f -> In t (dims f) -> is_deriv_dim t = true ->
  holds_deriv f (get_array_index f o) t = negb (Z.eqb (o t) 0).
Proof.
  intros Hf Ht Hd. rewrite holds_testbit, get_array_index_bits by auto.
  apply (bits_testbit _ (fun t => negb (Z.eqb (o t) 0))); [now apply nodup_deriv_tags|].
  apply in_deriv_tags; auto.
Qed.

Lemma n_fields_pow f : n_fields f = 2 ^ length (deriv_tags f).
Proof. unfold n_fields. apply Nat.shiftl_1_l. Qed.

Lemma array_index_lt f o : wf_shape f -> get_array_index f o < n_fields f.
Proof. intros H. rewrite get_array_index_bits, n_fields_pow by auto. apply bits_lt. Qed.

Lemma array_index_of_bits f o A : wf_shape f -> A < n_fields f ->
  (forall t, In t (dims f) -> is_deriv_dim t = true -> negb (Z.eqb (o t) 0) = holds_deriv f A t) ->
  get_array_index f o = A.
Proof.
  intros Hf HA H. rewrite get_array_index_bits by auto.
  apply bits_unique; [now apply nodup_deriv_tags| now rewrite <- n_fields_pow |].
  intros t Ht. apply in_deriv_tags in Ht; auto. rewrite <- holds_testbit. apply H; tauto.
Qed.

Lemma array_index_ext f o o' : wf_shape f ->
  (forall t, In t (dims f) -> is_deriv_dim t = true -> (o t = 0 <-> o' t = 0)%Z) ->
  get_array_index f o = get_array_index f o'.
Proof.
  intros Hf H. apply array_index_of_bits; auto. { now apply array_index_lt. }
  intros t Ht Hd. rewrite holds_array_index by auto. specialize (H t Ht Hd).
  destruct (Z.eqb_spec (o t) 0), (Z.eqb_spec (o' t) 0); auto; tauto.
Qed.

(** ** Row-major offsets *)
Definition prod (l : list nat) : nat := fold_left Nat.mul l 1.
Lemma prod_cons e l : prod (e :: l) = e * prod l.
Proof.
  unfold prod. simpl. rewrite Nat.add_0_r.
  assert (G : forall l a, fold_left Nat.mul l a = a * fold_left Nat.mul l 1).
  { clear. induction l as [|h r IH]; intros a; simpl; [lia|]. rewrite IH, (IH (h + 0)). lia. }
  apply G.
Qed.

Fixpoint enc (es : list nat) (ks : list Z) : Z :=
  match es, ks with
  | e :: es', k :: ks' => (k * Z.of_nat (prod es') + enc es' ks')%Z
  | _, _ => 0%Z
  end.

Definition inb (k : Z) (e : nat) : Prop := (0 <= k < Z.of_nat e)%Z.

Lemma enc_bounds es : forall ks, Forall2 inb ks es -> (0 <= enc es ks < Z.of_nat (prod es))%Z.
Proof.
  induction es as [|e es IH]; intros ks H; inversion H as [|k ? ks' ? H1 H2]; subst.
  - simpl. lia.
  - rewrite prod_cons. cbn [enc]. specialize (IH _ H2). unfold inb in H1. nia.
Qed.

Lemma enc_inj es : forall ks ks', Forall2 inb ks es -> Forall2 inb ks' es -> enc es ks = enc es ks' -> ks = ks'.
Proof.
  induction es as [|e es IH]; intros ks ks' H H' E;
    inversion H as [|k ? l ? H1 H2]; subst; inversion H' as [|k' ? l' ? H1' H2']; subst; auto.
  cbn [enc] in E.
  pose proof (enc_bounds _ _ H2). pose proof (enc_bounds _ _ H2').
  assert (k = k') by nia. subst. f_equal. apply IH; auto. lia.
Qed.

Lemma enc_surj es : forall o, (0 <= o < Z.of_nat (prod es))%Z -> exists ks, Forall2 inb ks es /\ enc es ks = o.
Proof.
  induction es as [|e es IH]; intros o H.
  - exists []. simpl in *. split; [constructor|lia].
  - rewrite prod_cons in H.
    assert (Hp : (0 < Z.of_nat (prod es))%Z) by nia.
    destruct (IH (o mod Z.of_nat (prod es))%Z) as (ks & Hk & Ek).
    { apply Z.mod_pos_bound; auto. }
    exists ((o / Z.of_nat (prod es))%Z :: ks). split.
    + constructor; auto. unfold inb. split.
      * apply Z.div_pos; lia.
      * apply Z.div_lt_upper_bound; nia.
    + cbn [enc]. rewrite Ek. pose proof (Z.div_mod o (Z.of_nat (prod es))). lia.
Qed.

(** ** submdspan *)
Lemma sub_shift ds : forall ss off c,
  submdspan_dims (off + c) ds ss =
  (let* (o, r) := submdspan_dims off ds ss in Ok ((o + c)%Z, r)).
Proof.
  induction ds as [|[e st] ds IH]; intros [|s ss] off c; simpl; auto.
  destruct s as [|k|a b].
  - rewrite IH. destruct (submdspan_dims off ds ss) as [[o r]| | |]; reflexivity.
  - destruct (_ && _)%bool; auto. rewrite <- IH. f_equal. lia.
  - destruct (_ && _)%bool; auto.
    replace (off + c + a * Z.of_nat st)%Z with (off + a * Z.of_nat st + c)%Z by lia.
    rewrite IH. destruct (submdspan_dims _ ds ss) as [[o r]| | |]; reflexivity.
Qed.

Lemma sub_shift_ok ds ss off c o r : submdspan_dims off ds ss = Ok (o, r) ->
  submdspan_dims (off + c) ds ss = Ok ((o + c)%Z, r).
Proof. intros H. now rewrite sub_shift, H. Qed.

Fixpoint comp (ss ss1 : list slicer) : list slicer :=
  match ss with
  | [] => []
  | At k :: r => At k :: comp r ss1
  | FullExtent :: r => match ss1 with [] => [] | s :: t => s :: comp r t end
  | Pair a b :: r =>
      match ss1 with
      | [] => []
      | At k :: t => At (a + k) :: comp r t
      | FullExtent :: t => Pair a b :: comp r t
      | Pair c d :: t => Pair (a + c) (a + d) :: comp r t
      end
  end.

Lemma sub_comp ds : forall ss off o1 ds1 ss1 q,
  submdspan_dims off ds ss = Ok (o1, ds1) -> submdspan_dims o1 ds1 ss1 = Ok q ->
  submdspan_dims off ds (comp ss ss1) = Ok q.
Proof.
  induction ds as [|[e st] ds IH]; intros [|s ss] off o1 ds1 ss1 q H1 H2; simpl in H1; try discriminate.
  - injection H1 as <- <-. destruct ss1; simpl in H2; [|discriminate]. simpl. auto.
  - destruct s as [|k|a b].
    + destruct (submdspan_dims off ds ss) as [[o r]| | |] eqn:E; simpl in H1; try discriminate.
      injection H1 as <- <-. destruct ss1 as [|s ss1]; simpl in H2; [discriminate|].
      cbn [comp submdspan_dims]. destruct s as [|k|c d].
      * destruct (submdspan_dims o r ss1) as [[o' r']| | |] eqn:E'; simpl in H2; try discriminate.
        erewrite IH by eauto. simpl. auto.
      * destruct (_ && _)%bool; [|discriminate].
        eapply IH; [|exact H2]. apply sub_shift_ok; auto.
      * destruct (_ && _)%bool; [|discriminate].
        destruct (submdspan_dims _ r ss1) as [[o' r']| | |] eqn:E'; simpl in H2; try discriminate.
        erewrite IH; [|apply sub_shift_ok; exact E|exact E']. simpl. auto.
    + cbn [comp submdspan_dims]. destruct (_ && _)%bool; [|discriminate]. eapply IH; eauto.
    + destruct ((0 <=? a) && (a <=? b) && (b <=? Z.of_nat e))%Z eqn:Eb; [|discriminate].
      destruct (submdspan_dims _ ds ss) as [[o r]| | |] eqn:E; simpl in H1; try discriminate.
      injection H1 as <- <-. destruct ss1 as [|s ss1]; simpl in H2; [discriminate|].
      cbn [comp submdspan_dims]. destruct s as [|k|c d].
      * rewrite Eb. destruct (submdspan_dims o r ss1) as [[o' r']| | |] eqn:E'; simpl in H2; try discriminate.
        erewrite IH by eauto. simpl. auto.
      * match type of H2 with (if ?c then _ else _) = _ => destruct c eqn:Ek end; [|discriminate].
        replace ((0 <=? a + k) && (a + k <? Z.of_nat e))%Z with true by lia.
        eapply IH; [|exact H2].
        replace (off + (a + k) * Z.of_nat st)%Z with (off + a * Z.of_nat st + k * Z.of_nat st)%Z by lia.
        apply sub_shift_ok; auto.
      * match type of H2 with (if ?c then _ else _) = _ => destruct c eqn:Ek end; [|discriminate].
        destruct (submdspan_dims _ r ss1) as [[o' r']| | |] eqn:E'; simpl in H2; try discriminate.
        replace ((0 <=? a + c) && (a + c <=? a + d) && (a + d <=? Z.of_nat e))%Z with true by lia.
        replace (off + (a + c) * Z.of_nat st)%Z with (off + a * Z.of_nat st + c * Z.of_nat st)%Z by lia.
        erewrite IH; [|apply sub_shift_ok; exact E|exact E']. simpl. injection H2 as <-.
        do 4 f_equal. lia.
Qed.

(** all the dimensions fixed: success exactly when in bounds *)
Lemma sub_at_ok ds : forall ks off, Forall2 inb ks (map fst ds) ->
  exists o, submdspan_dims off ds (map At ks) = Ok (o, []).
Proof.
  induction ds as [|[e st] ds IH]; intros ks off H; inversion H as [|k ? ks' ? H1 H2]; subst; simpl.
  - eauto.
  - unfold inb in H1. replace (_ && _)%bool with true by lia. apply IH; auto.
Qed.

Lemma sub_at_inv ds : forall ks off q, submdspan_dims off ds (map At ks) = Ok q -> Forall2 inb ks (map fst ds).
Proof.
  induction ds as [|[e st] ds IH]; intros [|k ks] off q H; simpl in *; try discriminate; constructor.
  - destruct (_ && _)%bool eqn:E; [|discriminate]. unfold inb. lia.
  - destruct (_ && _)%bool eqn:E; [|discriminate]. eauto.
Qed.

Lemma sub_at_notok ds : forall ks off, length ks = length ds -> ~ Forall2 inb ks (map fst ds) ->
  submdspan_dims off ds (map At ks) = Ub.
Proof.
  induction ds as [|[e st] ds IH]; intros [|k ks] off Hl H; simpl in *; try discriminate; auto.
  - destruct H. constructor.
  - destruct (_ && _)%bool eqn:E; auto. apply IH; [lia|]. intros H'. apply H. constructor; auto.
    unfold inb. lia.
Qed.

Lemma layout_fst es : map fst (layout_right es) = es.
Proof. induction es; simpl; f_equal; auto. Qed.

Lemma sub_at_right es : forall ks off, Forall2 inb ks es ->
  submdspan_dims off (layout_right es) (map At ks) = Ok ((off + enc es ks)%Z, []).
Proof.
  induction es as [|e es IH]; intros ks off H; inversion H as [|k ? ks' ? H1 H2]; subst; simpl.
  - do 2 f_equal. lia.
  - unfold inb in H1. replace (_ && _)%bool with true by lia. rewrite IH by auto.
    do 2 f_equal. fold (prod es). lia.
Qed.
