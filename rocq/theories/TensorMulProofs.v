(** Proofs about tensor_mul: Einstein summation. *)
From Verif Require Import TensorModel TensorSpec TensorProofs.
From Coq Require Import Lia ZifyBool FunctionalExtensionality Lra.
Open Scope nat_scope.
Local Opaque Nat.div Nat.modulo.

(** ** Sums *)
Lemma Rsum_mul_split n m f : Rsum (n * m) f = Rsum n (fun a => Rsum m (fun b => f (a * m + b))).
Proof.
  induction n; [reflexivity|]. cbn [Rsum]. rewrite <- IHn.
  replace (S n * m) with (n * m + m) by lia. rewrite Rsum_app. reflexivity.
Qed.

Lemma esum_ext U : forall env f g, NoDup (map fst U) ->
  (forall e, (forall c, ~ In c (map fst U) -> e c = env c) ->
             (forall c n, In (c, n) U -> e c < n) -> f e = g e) ->
  esum U env f = esum U env g.
Proof.
  induction U as [|[c n] U IH]; intros env f g HN H; cbn [esum].
  - apply H; [reflexivity|intros ? ? []].
  - inversion HN; subst. apply Rsum_ext. intros k Hk. apply IH; auto.
    intros e He1 He2. apply H.
    + intros c' Hc'. simpl in Hc'. rewrite He1 by tauto. apply upd_neq. intros ->. tauto.
    + intros c' n' [E|Hin]; [|apply He2; auto]. injection E as <- <-. rewrite He1 by auto. rewrite upd_eq. auto.
Qed.

Lemma esum_zero U env f : (forall e, f e = 0%R) -> esum U env f = 0%R.
Proof. intros H. revert env. induction U as [|[c n] U IH]; intros env; cbn [esum]; auto. apply Rsum_zero. auto. Qed.

Lemma flatten U : forall env g, NoDup (map fst U) ->
  Rsum (prod_ext (map snd U)) g
  = esum U env (fun e => g (layout_right (map snd U) (map e (map fst U)))).
Proof.
  induction U as [|[c n] U IH]; intros env g HN.
  - cbn. rewrite Rplus_0_l. reflexivity.
  - inversion HN; subst. cbn [map fst snd prod_ext fold_right esum].
    fold (prod_ext (map snd U)). rewrite Rsum_mul_split. apply Rsum_ext. intros k Hk.
    rewrite (IH (upd env c k)) by auto. apply esum_ext; auto. intros e He _.
    rewrite layout_cons by (rewrite !map_length; auto). rewrite (He c) by auto. rewrite upd_eq. reflexivity.
Qed.

Definition override (p : nat -> bool) (cs : list nat) (rr env : nat -> nat) : nat -> nat :=
  fun c => if (p c && existsb (Nat.eqb c) cs)%bool then rr c else env c.

Lemma existsb_in c l : existsb (Nat.eqb c) l = true <-> In c l.
Proof.
  rewrite existsb_exists. split.
  - intros [x [H E]]. apply Nat.eqb_eq in E. subst; auto.
  - intros H. exists c. split; auto. apply Nat.eqb_refl.
Qed.

Lemma collapse (p : nat -> bool) (rr : nat -> nat) (P : (nat -> nat) -> R) U : forall env,
  NoDup (map fst U) -> (forall c n, In (c, n) U -> p c = true -> rr c < n) ->
  esum U env (fun e => if forallb (fun c => e c =? rr c) (filter p (map fst U)) then P e else 0%R)
  = esum (filter (fun x => negb (p (fst x))) U) (override p (map fst U) rr env) P.
Proof.
  induction U as [|[c n] U IH]; intros env HN HR.
  - cbn. f_equal. apply functional_extensionality. intros c. unfold override. simpl. rewrite Bool.andb_false_r. reflexivity.
  - inversion HN; subst. cbn [map fst filter esum].
    assert (HR' : forall c n, In (c, n) U -> p c = true -> rr c < n) by (intros; eapply HR; eauto; right; eauto).
    destruct (p c) eqn:Ep; cbn [negb].
    + rewrite (Rsum_single n _ (rr c)).
      * rewrite (esum_ext U _ _ (fun e => if forallb (fun c => e c =? rr c) (filter p (map fst U)) then P e else 0%R)); auto.
        -- rewrite IH by auto. f_equal. apply functional_extensionality. intros c'. unfold override. cbn [existsb].
           destruct (Nat.eqb_spec c' c).
           ++ subst. rewrite Ep. simpl. rewrite upd_eq. destruct (existsb (Nat.eqb c) (map fst U)); reflexivity.
           ++ simpl. rewrite upd_neq by auto. reflexivity.
        -- intros e He _. cbn [forallb]. rewrite (He c), upd_eq, Nat.eqb_refl by auto. reflexivity.
      * apply (HR c n); auto. left; auto.
      * intros k Hk N.
        rewrite (esum_ext U _ _ (fun _ => 0%R)); [apply esum_zero; auto|auto|].
        intros e He _. cbn [forallb]. rewrite (He c), upd_eq by auto.
        destruct (Nat.eqb_spec k (rr c)); [congruence|]. reflexivity.
    + cbn [esum]. apply Rsum_ext. intros k Hk. rewrite IH by auto. f_equal.
      apply functional_extensionality. intros c'. unfold override, upd. cbn [existsb].
      destruct (Nat.eqb_spec c' c); [subst; rewrite Ep; reflexivity|reflexivity].
Qed.

(** ** Index patterns *)
Definition consistent (all : list id_map) : Prop :=
  forall c s s', In (c, s) all -> In (c, s') all -> contra_dims s = contra_dims s'.

Lemma occurs_app a b c : occurs (a ++ b) c = occurs a c + occurs b c.
Proof. unfold occurs. rewrite filter_app, app_length. reflexivity. Qed.
Lemma occurs_cons m b c : occurs (m :: b) c = (if fst m =? c then 1 else 0) + occurs b c.
Proof. unfold occurs. simpl. destruct (fst m =? c); reflexivity. Qed.
Lemma occurs_notin l c : ~ In c (map fst l) -> occurs l c = 0.
Proof.
  induction l as [|m l IH]; intros H; [reflexivity|]. rewrite occurs_cons. simpl in H.
  destruct (Nat.eqb_spec (fst m) c); [tauto|]. rewrite IH; tauto.
Qed.
Lemma occurs_in l c : In c (map fst l) -> 1 <= occurs l c.
Proof.
  induction l as [|m l IH]; intros H; [destruct H|]. rewrite occurs_cons. simpl in H.
  destruct (Nat.eqb_spec (fst m) c); [lia|]. destruct H; [congruence|]. specialize (IH H). lia.
Qed.
Lemma count_char_occurs l c : count_char c (map fst l) = occurs l c.
Proof. induction l as [|m l IH]; [reflexivity|]. rewrite occurs_cons, <- IH. reflexivity. Qed.

Lemma occurs_one_unique all c s s' : occurs all c = 1 -> In (c, s) all -> In (c, s') all -> s = s'.
Proof.
  induction all as [|m t IH]; intros HO H1 H2; [destruct H1|]. rewrite occurs_cons in HO.
  destruct H1 as [->|H1], H2 as [E|H2].
  - injection E; auto.
  - simpl in HO. rewrite Nat.eqb_refl in HO. pose proof (occurs_in t c (in_map fst _ _ H2)). lia.
  - subst. simpl in HO. rewrite Nat.eqb_refl in HO. pose proof (occurs_in t c (in_map fst _ _ H1)). lia.
  - apply IH; auto. destruct (fst m =? c); [|auto]. pose proof (occurs_in t c (in_map fst _ _ H1)). simpl in *. lia.
Qed.

Lemma rules_facts all : index_rules all ->
  consistent all /\ forall c, In c (map fst all) -> occurs all c = 1 \/ occurs all c = 2.
Proof.
  intros H. split.
  - intros c s s' H1 H2. destruct (H c (in_map fst _ _ H1)) as [O|[a [s1 [b [s2 [d [E [N [_ [_ C]]]]]]]]]].
    + f_equal. eapply occurs_one_unique; eauto.
    + assert (G : forall x, In (c, x) all -> x = s1 \/ x = s2).
      { intros x Hx. rewrite E in Hx. rewrite !map_app in N.
        apply in_app_iff in Hx. destruct Hx as [Hx|[Hx|Hx]].
        - exfalso. apply N. apply in_or_app. left. apply (in_map fst _ _ Hx).
        - injection Hx; auto.
        - apply in_app_iff in Hx. destruct Hx as [Hx|[Hx|Hx]].
          + exfalso. apply N. apply in_or_app. right. apply in_or_app. left. apply (in_map fst _ _ Hx).
          + injection Hx; auto.
          + exfalso. apply N. apply in_or_app. right. apply in_or_app. right. apply (in_map fst _ _ Hx). }
      destruct (G s H1) as [-> | ->], (G s' H2) as [-> | ->]; auto.
  - intros c Hc. destruct (H c Hc) as [O|[a [s1 [b [s2 [d [E [N _]]]]]]]]; [auto|right].
    rewrite E. rewrite occurs_app, occurs_cons, occurs_app, occurs_cons. simpl. rewrite Nat.eqb_refl.
    rewrite !map_app in N. rewrite !occurs_notin; [reflexivity| | |]; intros C; apply N; repeat (apply in_or_app; (left; assumption) || right); auto.
Qed.

(** unique indices *)
Lemma contra_dims_length s : length (contra_dims s) = length s.
Proof. apply map_length. Qed.

Lemma unique_acc_spec l : forall result,
  consistent l ->
  (forall c s s0, In (c, s) l -> In (c, s0) result -> contra_dims s = s0) ->
  exists X, unique_indices_acc l result = result ++ X /\
    map (fun m => (fst m, length (snd m))) X = letters (fun _ => true) (map fst result) l /\
    (forall c s, In (c, s) X -> exists s', In (c, s') l /\ s = contra_dims s') /\
    (forall c s, In (c, s) l -> In (c, contra_dims s) (result ++ X)).
Proof.
  induction l as [|[c s] t IH]; intros result HC HR; cbn [unique_indices_acc letters].
  - exists []. rewrite app_nil_r. repeat split; auto; intros ? ? [].
  - assert (HCt : consistent t) by (intros x y z H1 H2; apply (HC x); right; auto).
    cbn [fst snd]. destruct (in_tags id_map_dec (c, contra_dims s) result) eqn:E.
    + apply in_tags_spec in E.
      destruct (IH result HCt) as [X [E1 [E2 [E3 E4]]]]; [intros; eapply HR; eauto; right; eauto|].
      exists X. split; auto. split; [|split].
      * rewrite E2. assert (existsb (Nat.eqb c) (map fst result) = true) as ->; [|reflexivity].
        apply existsb_in. apply (in_map fst _ _ E).
      * intros c' s' H'. destruct (E3 _ _ H') as [s'' [? ?]]. exists s''. split; auto. right; auto.
      * intros c' s' [H'|H'].
        -- injection H' as <- <-. apply in_or_app. auto.
        -- apply E4; auto.
    + assert (NI : ~ In c (map fst result)).
      { intros C. apply in_map_iff in C. destruct C as [[c0 s0] [E0 H0]]. simpl in E0. subst c0.
        assert (contra_dims s = s0) by (eapply HR; [left; reflexivity|exact H0]). subst.
        apply (in_tags_spec id_map_dec) in H0. congruence. }
      destruct (IH (result ++ [(c, contra_dims s)]) HCt) as [X [E1 [E2 [E3 E4]]]].
      { intros c' s' s0 H1 H2. apply in_app_iff in H2. destruct H2 as [H2|[H2|[]]].
        - eapply HR; eauto. right; eauto.
        - injection H2 as <- <-. apply (HC c); [right; auto|left; auto]. }
      exists ((c, contra_dims s) :: X). split; [transitivity ((result ++ [(c, contra_dims s)]) ++ X); [exact E1|rewrite <- app_assoc; reflexivity]|]. split; [|split].
      * cbn [map fst snd]. rewrite E2, contra_dims_length.
        assert (existsb (Nat.eqb c) (map fst result) = false) as ->.
        { destruct (existsb (Nat.eqb c) (map fst result)) eqn:EX; auto. apply existsb_in in EX. tauto. }
        cbn [negb andb]. f_equal.
        (* the seen lists have the same elements *)
        assert (G : forall l s1 s2, (forall x, In x s1 <-> In x s2) ->
                    letters (fun _ => true) s1 l = letters (fun _ => true) s2 l).
        { clear. induction l as [|[c s] t IH]; intros s1 s2 H; cbn [letters]; [reflexivity|].
          assert (existsb (Nat.eqb c) s1 = existsb (Nat.eqb c) s2) as ->.
          { apply Bool.eq_iff_eq_true. rewrite !existsb_in. apply H. }
          destruct (existsb (Nat.eqb c) s2); cbn [negb andb]; [apply IH; auto|].
          f_equal. apply IH. intros x. simpl. rewrite H. tauto. }
        apply G. intros x. rewrite map_app, in_app_iff. simpl. tauto.
      * intros c' s' [H'|H'].
        -- injection H' as <- <-. exists s. split; auto. left; auto.
        -- destruct (E3 _ _ H') as [s'' [? ?]]. exists s''. split; auto. right; auto.
      * intros c' s' [H'|H'].
        -- injection H' as <- <-. apply in_or_app. right. left; auto.
        -- specialize (E4 _ _ H'). rewrite <- app_assoc in E4. exact E4.
Qed.

Lemma letters_in p l : forall seen c n, In (c, n) (letters p seen l) ->
  p c = true /\ ~ In c seen /\ exists s, In (c, s) l /\ n = length s.
Proof.
  induction l as [|[c0 s] t IH]; intros seen c n; cbn [letters]; [intros []|].
  destruct (p c0 && negb (existsb (Nat.eqb c0) seen))%bool eqn:E.
  - apply andb_prop in E. destruct E as [E1 E2].
    intros [H|H].
    + injection H as <- <-. split; auto. split; [|exists s; split; auto; left; auto].
      intros C. apply existsb_in in C. rewrite C in E2. discriminate.
    + destruct (IH _ _ _ H) as [A [B [s' [C D]]]]. split; auto. split; [simpl in B; tauto|].
      exists s'. split; auto. right; auto.
  - intros H. destruct (IH _ _ _ H) as [A [B [s' [C D]]]]. split; auto. split; auto. exists s'. split; auto. right; auto.
Qed.
Lemma letters_nodup p l : forall seen, NoDup (map fst (letters p seen l)).
Proof.
  induction l as [|[c0 s] t IH]; intros seen; cbn [letters]; [constructor|].
  destruct (p c0 && negb (existsb (Nat.eqb c0) seen))%bool eqn:E; [|apply IH].
  cbn [map fst]. constructor; [|apply IH]. intros C. apply in_map_iff in C. destruct C as [[c n] [E0 H0]].
  simpl in E0. subst. apply letters_in in H0. simpl in H0. tauto.
Qed.
Lemma letters_complete p l : forall seen c s, In (c, s) l -> p c = true -> ~ In c seen ->
  In c (map fst (letters p seen l)).
Proof.
  induction l as [|[c0 s0] t IH]; intros seen c s H Hp Hs; [destruct H|]. cbn [letters].
  destruct (Nat.eq_dec c0 c) as [->|N].
  - rewrite Hp. assert (existsb (Nat.eqb c) seen = false) as ->.
    { destruct (existsb (Nat.eqb c) seen) eqn:EX; auto. apply existsb_in in EX. tauto. }
    simpl. auto.
  - destruct H as [H|H]; [injection H; congruence|].
    destruct (p c0 && negb (existsb (Nat.eqb c0) seen))%bool.
    + simpl. right. eapply IH; eauto. simpl. tauto.
    + eapply IH; eauto.
Qed.
(** filtering the letters *)
Lemma letters_filter p q l : forall s1 s2,
  (forall c, In c (map fst l) -> p c = q c) ->
  (forall c, q c = true -> (In c s1 <-> In c s2)) ->
  filter (fun x => p (fst x)) (letters (fun _ => true) s1 l) = letters q s2 l.
Proof.
  induction l as [|[c s] t IH]; intros s1 s2 H Hs; cbn [letters]; [reflexivity|].
  assert (Ht : forall c, In c (map fst t) -> p c = q c) by (intros; apply H; right; auto).
  assert (Hc : p c = q c) by (apply H; left; auto).
  cbn [andb]. destruct (q c) eqn:Eq.
  - assert (existsb (Nat.eqb c) s1 = existsb (Nat.eqb c) s2) as ->.
    { apply Bool.eq_iff_eq_true. rewrite !existsb_in. apply Hs; auto. }
    destruct (existsb (Nat.eqb c) s2) eqn:E2; cbn [negb andb].
    + apply IH; auto.
    + cbn [filter fst]. rewrite Hc. f_equal. apply IH; auto. intros x Hx. simpl. rewrite (Hs x Hx). tauto.
  - cbn [andb]. destruct (existsb (Nat.eqb c) s1); cbn [negb].
    + apply IH; auto.
    + cbn [filter fst]. rewrite Hc. apply IH; auto. intros x Hx. simpl. rewrite (Hs x Hx).
      split; [intros [->|]; [congruence|auto]|auto].
Qed.

(** ** The elements *)
Definition values (env : nat -> nat) (l : list id_map) : list tag :=
  map (fun m => nth (env (fst m)) (snd m) (Cart 0)) l.
Lemma values_tags_at env l : values env l = tags_at (map snd l) (map env (map fst l)).
Proof. induction l as [|m l IH]; simpl; [reflexivity|]. f_equal. auto. Qed.

Lemma contra_elem s k : is_cov_set s = true \/ is_contra_set s = true ->
  (if is_contra_set s then nth k (contra_dims s) (Cart 0) else dual (nth k (contra_dims s) (Cart 0))) = nth k s (Cart 0).
Proof.
  intros H. unfold contra_dims.
  set (g := fun t => if is_contra t then t else dual t).
  change (Cart 0) with (g (Cart 0)) at 1 2. rewrite map_nth.
  destruct (is_contra_set s) eqn:E.
  - destruct (le_lt_dec (length s) k).
    + rewrite nth_overflow by auto. reflexivity.
    + unfold is_contra_set in E. rewrite forallb_forall in E. unfold g. rewrite E by (apply nth_In; auto). reflexivity.
  - destruct H as [H|H]; [|congruence].
    destruct (le_lt_dec (length s) k).
    + rewrite nth_overflow by auto. reflexivity.
    + unfold is_cov_set in H. rewrite forallb_forall in H. specialize (H _ (nth_In s (Cart 0) l)).
      unfold g. destruct (nth k s (Cart 0)); simpl in *; congruence.
Qed.

Definition proper (l : list id_map) : Prop := Forall (fun m => is_cov_set (snd m) = true \/ is_contra_set (snd m) = true) l.

Section Elements.
  Variable all : list id_map.
  Hypothesis HC : consistent all.
  Hypothesis HP : proper all.
  Let U := unique_indices all.
  Let L := letters (fun _ => true) [] all.

  Lemma unique_facts :
    map (fun m => (fst m, length (snd m))) U = L /\
    (forall c s, In (c, s) U -> exists s', In (c, s') all /\ s = contra_dims s') /\
    (forall c s, In (c, s) all -> In (c, contra_dims s) U).
  Proof.
    destruct (unique_acc_spec all [] HC) as [X [E1 [E2 [E3 E4]]]]; [intros ? ? ? ? []|].
    unfold U, unique_indices. rewrite E1. simpl. auto.
  Qed.
  Lemma U_nodup : NoDup (map fst U).
  Proof.
    destruct unique_facts as [E _]. replace (map fst U) with (map fst L).
    - apply letters_nodup.
    - rewrite <- E, map_map. reflexivity.
  Qed.
  Lemma U_ext : extents (map snd U) = map snd L.
  Proof. destruct unique_facts as [E _]. rewrite <- E. unfold extents. rewrite !map_map. reflexivity. Qed.
  Lemma U_ids : map fst U = map fst L.
  Proof. destruct unique_facts as [E _]. rewrite <- E. rewrite map_map. reflexivity. Qed.

  Lemma start_elem env c s : In (c, s) all ->
    nth (rank_v id_map_dec (c, contra_dims s) U) (values env U) (Cart 0) = nth (env c) (contra_dims s) (Cart 0).
  Proof.
    intros H. apply (proj2 (proj2 unique_facts)) in H.
    unfold values. rewrite (nth_indep _ (Cart 0) (nth (env (fst (0, @nil tag))) (snd (0, @nil tag)) (Cart 0))).
    - rewrite (map_nth (fun m => nth (env (fst m)) (snd m) (Cart 0))). rewrite nth_rank by auto. reflexivity.
    - rewrite map_length. apply rank_lt; auto.
  Qed.

  Lemma from_map_spec env dim : forall result, dim <= length all ->
    from_map all (values env U) dim result = values env (firstn dim all) ++ result.
  Proof.
    induction dim as [|d IH]; intros result Hd; [reflexivity|]. cbn [from_map]. fold U.
    destruct (nth_error all d) as [m|] eqn:E; [|apply nth_error_None in E; lia].
    pose proof (nth_error_nth all d (0, []) E) as En. rewrite En.
    assert (Hm : In m all) by (eapply nth_error_In; eauto).
    destruct m as [c s]. cbn [fst snd] in *. rewrite (start_elem env c s Hm).
    rewrite contra_elem by (apply (proj1 (Forall_forall _ _) HP _ Hm)).
    rewrite IH by lia.
    assert (F : firstn (S d) all = firstn d all ++ [(c, s)]).
    { clear - E. revert d E. induction all as [|x l IH]; intros [|d] E; simpl in *; try discriminate.
      - injection E as ->. reflexivity.
      - f_equal. apply IH; auto. }
    rewrite F. unfold values. rewrite map_app, <- app_assoc. reflexivity.
  Qed.

  (** the Is-th element of the loop assigns the positions of the row-major numbering to the letters *)
  Lemma loop_element env : (forall c n, In (c, n) L -> env c < n) ->
    get_nth_from_map (layout_right (map snd L) (map env (map fst L))) all = values env all.
  Proof.
    intros He. unfold get_nth_from_map. fold U. rewrite <- U_ext, <- U_ids.
    rewrite get_nth_layout.
    - rewrite <- values_tags_at. rewrite from_map_spec by lia. rewrite firstn_all, app_nil_r. reflexivity.
    - rewrite U_ext, U_ids. clear - He. induction L as [|[c n] l IH]; simpl; [auto|]. split.
      + apply He. left; auto.
      + apply IH. intros; apply He; right; auto.
  Qed.

  Lemma extract_values env local : incl local all -> extract_sub all local (values env all) = values env local.
  Proof.
    intros H. unfold extract_sub, values at 2. apply map_ext_in. intros m Hm. unfold values.
    rewrite (nth_indep _ (Cart 0) (nth (env (fst (0, @nil tag))) (snd (0, @nil tag)) (Cart 0))).
    - rewrite (map_nth (fun m => nth (env (fst m)) (snd m) (Cart 0))). rewrite nth_rank by auto. reflexivity.
    - rewrite map_length. apply rank_lt; auto.
  Qed.

  Lemma env_in_range env : (forall c n, In (c, n) L -> env c < n) -> forall c s, In (c, s) all -> env c < length s.
  Proof.
    intros He c s H. pose proof (proj2 (proj2 unique_facts) _ _ H) as HU.
    rewrite <- (contra_dims_length s). apply He. destruct unique_facts as [E _]. rewrite <- E.
    apply in_map_iff. exists (c, contra_dims s). auto.
  Qed.
  Lemma box_local env local : (forall c n, In (c, n) L -> env c < n) -> incl local all ->
    in_box (extents (map snd local)) (map env (map fst local)).
  Proof.
    intros He HI. unfold extents. induction local as [|[c s] t IH]; simpl; [auto|]. split.
    - apply env_in_range; auto. apply HI. left; auto.
    - apply IH. intros x Hx. apply HI. right; auto.
  Qed.
End Elements.

Section Mul.
  Variable fs : list factor.
  Let ts := map fst fs.
  Let all := all_indices ts.
  Hypothesis Hne : fs <> [].
  Hypothesis HC : consistent all.
  Hypothesis HP : proper all.
  Hypothesis HF : Forall factor_ok fs.
  Let L := letters (fun _ => true) [] all.
  Let P (env : nat -> nat) : R := prod_components (map view fs) env.

  Lemma product_spec env : (forall c n, In (c, n) L -> env c < n) ->
    product_of all (values env all) ts = Ok (P env).
  Proof.
    intros He. unfold P, ts.
    assert (G : forall l, l <> [] -> incl l fs ->
      product_of all (values env all) (map fst l) = Ok (prod_components (map view l) env)).
    { induction l as [|f l IH]; intros Hl HI; [congruence|].
      assert (Hf : In f fs) by (apply HI; left; auto).
      assert (Hinc : incl (it_pattern (fst f)) all).
      { intros m Hm. unfold all, all_indices. apply in_concat. exists (it_pattern (fst f)). split; auto.
        apply in_map. unfold ts. apply in_map. auto. }
      assert (E1 : it_get (fst f) (extract_sub all (it_pattern (fst f)) (values env all))
                   = Ok (snd f (map env (map fst (it_pattern (fst f)))))).
      { rewrite extract_values by auto. rewrite values_tags_at.
        rewrite Forall_forall in HF. apply (HF f Hf). apply (box_local all HC env); auto. }
      destruct l as [|f' l'].
      - cbn [map product_of prod_components view]. rewrite E1. cbn. f_equal. ring.
      - change (map fst (f :: f' :: l')) with (fst f :: fst f' :: map fst l').
        assert (E2 := IH ltac:(discriminate) (fun x Hx => HI x (or_intror Hx))).
        change (map fst (f' :: l')) with (fst f' :: map fst l') in E2.
        cbn [product_of]. rewrite E1. cbn [bind].
        change (match map fst l' with [] => _ | _ :: _ => _ end) with (product_of all (values env all) (fst f' :: map fst l')) || idtac.
        rewrite E2. cbn. reflexivity. }
    apply G; auto. intros x; auto.
  Qed.

  (** product and target of the Is-th iteration, through the environments *)
  Definition env_of (n : nat) (env : nat -> nat) : Prop :=
    (forall c n, In (c, n) L -> env c < n) /\ layout_right (map snd L) (map env (map fst L)) = n.

  Lemma env_exists n : n < prod_ext (map snd L) -> exists env, env_of n env.
  Proof.
    intros Hn.
    assert (G : forall l n, NoDup (map fst l) -> n < prod_ext (map snd l) ->
      exists env : nat -> nat, (forall c m, In (c, m) l -> env c < m) /\ layout_right (map snd l) (map env (map fst l)) = n).
    { clear. induction l as [|[c m] l IH]; intros n HN Hn; cbn [map fst snd] in *.
      - exists (fun _ => 0). split; [intros ? ? []|]. cbn in *. lia.
      - inversion HN; subst. unfold prod_ext in Hn. cbn [fold_right] in Hn. fold (prod_ext (map snd l)) in Hn.
        assert (Hp : prod_ext (map snd l) <> 0) by nia.
        destruct (IH (n mod prod_ext (map snd l))) as [env [A B]]; auto.
        { apply Nat.mod_upper_bound; auto. }
        exists (upd env c (n / prod_ext (map snd l))). split.
        + intros c' m' [E|H].
          * injection E as <- <-. rewrite upd_eq. apply Nat.div_lt_upper_bound; auto. lia.
          * rewrite upd_neq; [apply A; auto|]. intros ->. apply H1. apply (in_map fst _ _ H).
        + cbn [map]. rewrite layout_cons by (rewrite !map_length; auto). rewrite upd_eq.
          replace (map (upd env c (n / prod_ext (map snd l))) (map fst l)) with (map env (map fst l)).
          * rewrite B. pose proof (Nat.div_mod n (prod_ext (map snd l)) Hp). lia.
          * apply map_ext_in. intros x Hx. rewrite upd_neq; auto. intros ->. auto. }
    apply G; auto. apply letters_nodup.
  Qed.

  (** a function of the iteration number that agrees with [F] on the environments *)
  Definition dec_env (n : nat) (c : nat) : nat :=
    (fix go (l : list (nat * nat)) (n : nat) : nat :=
       match l with
       | [] => 0
       | (c', m) :: t => if c =? c' then n / prod_ext (map snd t) else go t (n mod prod_ext (map snd t))
       end) L n.
  Lemma dec_env_ok n : n < prod_ext (map snd L) -> env_of n (dec_env n).
  Proof.
    intros Hn. unfold env_of, dec_env.
    assert (HN : NoDup (map fst L)) by apply letters_nodup.
    revert n Hn HN. generalize L as l. clear.
    induction l as [|[c m] l IH]; intros n Hn HN; cbn [map fst snd] in *.
    - split; [intros ? ? []|]. cbn in *. lia.
    - inversion HN; subst. unfold prod_ext in Hn. cbn [fold_right] in Hn. fold (prod_ext (map snd l)) in Hn.
      assert (Hp : prod_ext (map snd l) <> 0) by nia.
      destruct (IH (n mod prod_ext (map snd l))) as [A B]; auto.
      { apply Nat.mod_upper_bound; auto. }
      split.
      + intros c' m' [E|H].
        * injection E as <- <-. rewrite Nat.eqb_refl. apply Nat.div_lt_upper_bound; auto. lia.
        * destruct (Nat.eqb_spec c' c); [subst; exfalso; apply H1; apply (in_map fst _ _ H)|]. apply A; auto.
      + rewrite layout_cons by (rewrite !map_length; auto). rewrite Nat.eqb_refl.
        match goal with |- _ + layout_right _ (map ?f _) = _ =>
          replace (map f (map fst l)) with (map (fun c0 : nat =>
            (fix go (l : list (nat * nat)) (n : nat) {struct l} : nat :=
       match l with
       | [] => 0
       | (c', m) :: t => if c0 =? c' then n / prod_ext (map snd t) else go t (n mod prod_ext (map snd t))
       end) l (n mod prod_ext (map snd l))) (map fst l)) end.
        * rewrite B. pose proof (Nat.div_mod n (prod_ext (map snd l)) Hp). lia.
        * apply map_ext_in. intros x Hx. destruct (Nat.eqb_spec x c); [subst; tauto|reflexivity].
  Qed.

  Lemma n_elements_L : n_elements (map snd (unique_indices all)) = prod_ext (map snd L).
  Proof. unfold n_elements. fold (extents (map snd (unique_indices all))). rewrite (U_ext all HC). reflexivity. Qed.

  Lemma loop_product n : n < prod_ext (map snd L) ->
    get_nth_from_map n all = values (dec_env n) all /\
    product_of all (get_nth_from_map n all) ts = Ok (P (dec_env n)).
  Proof.
    intros Hn. destruct (dec_env_ok n Hn) as [A B].
    assert (E : get_nth_from_map n all = values (dec_env n) all).
    { rewrite <- B at 1. apply loop_element; auto. }
    split; auto. rewrite E. apply product_spec; auto.
  Qed.

  (** functions of the environment, summed over the iterations *)
  Lemma P_agree e e' : (forall c, In c (map fst L) -> e c = e' c) -> P e = P e'.
  Proof.
    intros H. unfold P.
    assert (G : forall l, incl l fs -> prod_components (map view l) e = prod_components (map view l) e').
    { induction l as [|f l IH]; intros HI; [reflexivity|]. cbn [map view prod_components].
      rewrite IH by (intros x Hx; apply HI; right; auto). f_equal. f_equal. apply map_ext_in.
      intros c Hc. apply H. apply in_map_iff in Hc. destruct Hc as [[c0 s] [E Hm]]. simpl in E. subst c0.
      eapply letters_complete with (s := s); auto. unfold all, all_indices. apply in_concat.
      exists (it_pattern (fst f)). split; auto. apply in_map. unfold ts. apply in_map. apply HI. left; auto. }
    apply G. intros x; auto.
  Qed.

  Lemma sum_envs (F : (nat -> nat) -> R) env :
    (forall e e', (forall c, In c (map fst L) -> e c = e' c) -> F e = F e') ->
    Rsum (prod_ext (map snd L)) (fun n => F (dec_env n)) = esum L env F.
  Proof.
    intros HFe. rewrite (flatten L env) by apply letters_nodup. apply esum_ext; [apply letters_nodup|].
    intros e _ He. apply HFe.
    assert (HB : in_box (map snd L) (map e (map fst L))).
    { clear - He. induction L as [|[c n] l IH]; simpl; auto. split; [apply He; left; auto|apply IH; intros; apply He; right; auto]. }
    destruct (dec_env_ok (layout_right (map snd L) (map e (map fst L)))) as [A B]; [apply layout_bound; auto|].
    apply layout_inj in B; auto.
    - intros c Hc. clear - B Hc.
      assert (G : forall l (f g : nat -> nat), map f l = map g l -> In c l -> f c = g c).
      { clear. induction l; intros f g E H; [destruct H|]. injection E; intros. destruct H; [subst; auto|auto]. }
      eapply G; eauto.
    - clear - A. revert A. generalize (dec_env (layout_right (map snd L) (map e (map fst L)))).
      intros g A. induction L as [|[c n] l IH]; simpl; auto. split; [apply A; left; auto|apply IH; intros; apply A; right; auto].
  Qed.

  Lemma mul_scalar_spec : (forall c, In c (map fst all) -> occurs all c = 2) ->
    mul_loop_scalar (n_elements (map snd (unique_indices all))) all ts 0%R
    = Ok (esum (summed_letters all) (fun _ => 0) P).
  Proof.
    intros H2. rewrite n_elements_L.
    assert (G : forall n, n <= prod_ext (map snd L) ->
      mul_loop_scalar n all ts 0%R = Ok (Rsum n (fun k => P (dec_env k)))).
    { induction n; intros Hn; [reflexivity|]. cbn [mul_loop_scalar]. rewrite IHn by lia. cbn [bind].
      destruct (loop_product n) as [_ E]; [lia|]. rewrite E. reflexivity. }
    rewrite G by lia. f_equal. rewrite (sum_envs P (fun _ => 0)) by apply P_agree. f_equal.
    transitivity (filter (fun _ : nat * nat => true) L).
    - clear. generalize L. intros l. induction l; simpl; [reflexivity|]. f_equal. auto.
    - unfold summed_letters, L. apply (letters_filter (fun _ => true)); [|intros; tauto].
      intros c Hc. rewrite H2 by auto. reflexivity.
  Qed.

  (** result tensor *)
  Let R := non_repeated_indices all.
  Lemma non_repeated_spec l k ids out : k < length l ->
    non_repeated_acc l k ids out = filter (fun m => count_char (fst m) ids =? 1) (firstn (S k) l) ++ out.
  Proof.
    revert out. induction k as [|k IH]; intros out Hk.
    - destruct l as [|m l]; [simpl in Hk; lia|]. cbn. destruct (count_char (fst m) ids =? 1); reflexivity.
    - cbn [non_repeated_acc]. rewrite IH by lia.
      destruct (nth_error l (S k)) as [m|] eqn:E; [|apply nth_error_None in E; lia].
      rewrite (nth_error_nth l (S k) (0, []) E).
      assert (F : firstn (S (S k)) l = firstn (S k) l ++ [m]).
      { clear - E. revert E. generalize (S k). clear. intros d E. revert l E.
        induction d as [|d IH]; intros [|x l] E; cbn in E; try discriminate.
        - injection E as ->. reflexivity.
        - change (x :: firstn (S d) l = (x :: firstn d l) ++ [m]). cbn [app]. f_equal. apply IH; auto. }
      rewrite F, filter_app. cbn [filter]. rewrite <- app_assoc.
      destruct (count_char (fst m) ids =? 1); reflexivity.
  Qed.
  Lemma R_spec : R = filter (fun m => occurs all (fst m) =? 1) all.
  Proof.
    unfold R, non_repeated_indices. destruct all as [|m l] eqn:E.
    - reflexivity.
    - rewrite non_repeated_spec by (simpl; lia). rewrite app_nil_r.
      replace (S (length (m :: l) - 1)) with (length (m :: l)) by (simpl; lia).
      rewrite firstn_all. apply filter_ext. intros a. rewrite count_char_occurs. reflexivity.
  Qed.
  Lemma R_incl : incl R all.
  Proof. rewrite R_spec. intros m H. apply filter_In in H. tauto. Qed.

  Lemma free_letters_R : map (fun m => (fst m, length (snd m))) R = free_letters all.
  Proof.
    rewrite R_spec. unfold free_letters.
    assert (G : forall l pre seen, all = pre ++ l -> (forall c, In c seen <-> In c (map fst pre) /\ occurs all c = 1) ->
      map (fun m => (fst m, length (snd m))) (filter (fun m => occurs all (fst m) =? 1) l)
      = letters (fun c => occurs all c =? 1) seen l).
    { induction l as [|[c s] t IH]; intros pre seen E Hs; cbn [filter letters fst]; [reflexivity|].
      destruct (Nat.eqb_spec (occurs all c) 1) as [O|O]; cbn [andb].
      - assert (N : ~ In c (map fst pre)).
        { intros C. apply occurs_in in C. rewrite E in O. rewrite occurs_app, occurs_cons in O. simpl in O.
          rewrite Nat.eqb_refl in O. lia. }
        assert (existsb (Nat.eqb c) seen = false) as ->.
        { destruct (existsb (Nat.eqb c) seen) eqn:EX; auto. apply existsb_in in EX. apply Hs in EX. tauto. }
        cbn [negb map fst snd]. f_equal. apply (IH (pre ++ [(c, s)])); [rewrite <- app_assoc; auto|].
        intros x. simpl. rewrite Hs, map_app, in_app_iff. simpl. split; [intros [->|]; tauto|].
        intros [[H|[H|[]]] H']; tauto.
      - apply (IH (pre ++ [(c, s)])); [rewrite <- app_assoc; auto|].
        intros x. rewrite Hs, map_app, in_app_iff. simpl. split; [tauto|].
        intros [[H|[H|[]]] H']; [tauto|]. subst. tauto. }
    apply (G all [] []); auto. intros c. simpl. tauto.
  Qed.
  Lemma free_ids : map fst R = map fst (free_letters all).
  Proof. rewrite <- free_letters_R, map_map. reflexivity. Qed.
  Lemma free_ext : extents (map snd R) = map snd (free_letters all).
  Proof. rewrite <- free_letters_R. unfold extents. rewrite !map_map. reflexivity. Qed.
  Lemma free_nodup : NoDup (map fst R).
  Proof. rewrite free_ids. apply letters_nodup. Qed.

  Lemma assign_spec ls pos : NoDup (map fst ls) -> length pos = length ls ->
    map (assign ls pos) (map fst ls) = pos /\ forall c, ~ In c (map fst ls) -> assign ls pos c = 0.
  Proof.
    revert pos. induction ls as [|[c n] l IH]; intros [|p pos] HN HL; simpl in *; try lia; auto.
    inversion HN; subst. destruct (IH pos) as [A B]; auto. split.
    - rewrite upd_eq. f_equal. rewrite <- A at 2. apply map_ext_in. intros x Hx. apply upd_neq. intros ->. tauto.
    - intros c' Hc'. rewrite upd_neq by (intros ->; tauto). apply B. tauto.
  Qed.

  Hypothesis HD : Forall (fun m => NoDup (snd m)) all.
  Hypothesis HO : forall c, In c (map fst all) -> occurs all c = 1 \/ occurs all c = 2.

  Lemma mul_tensor_spec : exists data,
    mul_loop_tensor (n_elements (map snd (unique_indices all))) all R ts (tensor_fill (map snd R) 0%R) = Ok data /\
    length data = prod_ext (map snd (free_letters all)) /\
    forall r, in_box (map snd (free_letters all)) r ->
      nth (layout_right (map snd (free_letters all)) r) data 0%R
      = esum (summed_letters all) (assign (free_letters all) r) P.
  Proof.
    rewrite n_elements_L.
    set (M := prod_ext (map snd (free_letters all))).
    set (tgt := fun n => layout_right (map snd (free_letters all)) (map (dec_env n) (map fst R))).
    assert (HM : n_elements (map snd R) = M).
    { unfold n_elements, M. fold (extents (map snd R)). rewrite free_ext. reflexivity. }
    assert (HDR : Forall (@NoDup tag) (map snd R)).
    { apply Forall_forall. intros s Hs. apply in_map_iff in Hs. destruct Hs as [m [<- Hm]].
      rewrite Forall_forall in HD. apply HD. apply R_incl; auto. }
    assert (G : forall n, n <= prod_ext (map snd L) -> exists data,
      mul_loop_tensor n all R ts (tensor_fill (map snd R) 0%R) = Ok data /\ length data = M /\
      forall j, j < M -> nth j data 0%R = Rsum n (fun k => if tgt k =? j then P (dec_env k) else 0%R)).
    { induction n as [|n IH]; intros Hn.
      - exists (tensor_fill (map snd R) 0%R). split; [reflexivity|]. unfold tensor_fill. rewrite HM.
        split; [apply repeat_length|]. intros j Hj. cbn. apply nth_repeat.
      - destruct IH as [data [E1 [E2 E3]]]; [lia|]. cbn [mul_loop_tensor]. rewrite E1. cbn [bind].
        destruct (loop_product n) as [EV EP]; [lia|]. rewrite EP. cbn [bind].
        destruct (dec_env_ok n) as [A B]; [lia|].
        rewrite EV, extract_values by apply R_incl. rewrite values_tags_at.
        assert (HB : in_box (extents (map snd R)) (map (dec_env n) (map fst R))) by (apply (box_local all HC); auto; apply R_incl).
        assert (HI : indexes (map snd R) (tags_at (map snd R) (map (dec_env n) (map fst R)))) by (apply indexes_tags_at; auto).
        assert (HX : element_index (map snd R) (tags_at (map snd R) (map (dec_env n) (map fst R))) = tgt n).
        { unfold element_index, tgt. rewrite ranks_tags_at by auto. fold (extents (map snd R)). rewrite free_ext. reflexivity. }
        assert (HT : tgt n < M). { rewrite <- HX, <- HM. apply element_index_bound; auto. }
        unfold tensor_get, tensor_set. rewrite (proj2 (valid_indexes _ _) HI). rewrite HX.
        assert (ERD : rd data (Z.of_nat (tgt n)) = Ok (nth (tgt n) data 0%R)).
        { unfold rd. destruct (Z.ltb_spec (Z.of_nat (tgt n)) 0); [lia|]. rewrite Nat2Z.id.
          rewrite (nth_error_nth' data 0%R) by lia. reflexivity. }
        rewrite ERD. cbn [bind]. rewrite wr_ok by lia. rewrite Nat2Z.id.
        eexists. split; [reflexivity|]. split; [rewrite replace_nth_length; auto|].
        intros j Hj. cbn [Rsum]. rewrite <- E3 by auto.
        destruct (Nat.eqb_spec (tgt n) j) as [->|N].
        + erewrite nth_error_nth; [|apply nth_error_replace_eq; lia]. reflexivity.
        + rewrite Rplus_0_r. destruct (nth_error data j) as [v|] eqn:EJ.
          * erewrite (nth_error_nth (replace_nth _ _ _)); [|rewrite nth_error_replace_neq; eauto].
            symmetry. apply nth_error_nth. auto.
          * apply nth_error_None in EJ. lia. }
    destruct (G (prod_ext (map snd L)) (le_n _)) as [data [E1 [E2 E3]]].
    exists data. split; auto. split; auto. intros r Hr.
    rewrite E3 by (apply layout_bound; auto).
    set (p := fun c => occurs all c =? 1). set (rr := assign (free_letters all) r).
    assert (HLr : length r = length (free_letters all)) by (apply in_box_length in Hr; rewrite map_length in Hr; auto).
    destruct (assign_spec (free_letters all) r) as [AS1 AS2]; [apply letters_nodup|auto|]. fold rr in AS1, AS2.
    set (F := fun e : nat -> nat => if forallb (fun c => e c =? rr c) (filter p (map fst L)) then P e else 0%R).
    assert (HFree : forall c, In c (filter p (map fst L)) <-> In c (map fst (free_letters all))).
    { intros c. rewrite filter_In. split.
      - intros [H1 H2]. apply in_map_iff in H1. destruct H1 as [[c0 n] [E H]]. simpl in E. subst c0.
        apply letters_in in H. destruct H as [_ [_ [s [H _]]]].
        eapply letters_complete; eauto.
      - intros H. apply in_map_iff in H. destruct H as [[c0 n] [E H]]. simpl in E. subst c0.
        apply letters_in in H. destruct H as [H1 [_ [s [H _]]]]. split; auto.
        eapply letters_complete; eauto. }
    transitivity (Rsum (prod_ext (map snd L)) (fun n => F (dec_env n))).
    { apply Rsum_ext. intros n Hn. unfold F. destruct (dec_env_ok n Hn) as [A B].
      assert (HB : in_box (map snd (free_letters all)) (map (dec_env n) (map fst R))).
      { rewrite <- free_ext. apply (box_local all HC); auto. apply R_incl. }
      destruct (forallb (fun c => dec_env n c =? rr c) (filter p (map fst L))) eqn:EB.
      - assert (EQ : tgt n = layout_right (map snd (free_letters all)) r).
        { unfold tgt. f_equal. rewrite free_ids. rewrite <- AS1. apply map_ext_in. intros c Hc.
          rewrite forallb_forall in EB. apply HFree in Hc. apply EB in Hc. apply Nat.eqb_eq in Hc. auto. }
        rewrite EQ, Nat.eqb_refl. reflexivity.
      - destruct (Nat.eqb_spec (tgt n) (layout_right (map snd (free_letters all)) r)) as [EQ|]; auto.
        exfalso. unfold tgt in EQ. apply layout_inj in EQ; auto. rewrite free_ids in EQ.
        rewrite <- AS1 in EQ.
        assert (EB' : forallb (fun c => dec_env n c =? rr c) (filter p (map fst L)) = true); [|congruence].
        apply forallb_forall. intros c Hc. apply Nat.eqb_eq. apply HFree in Hc. clear - EQ Hc.
        revert EQ Hc. generalize (map fst (free_letters all)). clear.
        induction l; intros E H; [destruct H|]. injection E; intros. destruct H; [subst; auto|auto]. }
    rewrite (sum_envs F (fun _ => 0)).
    2:{ intros e e' He. unfold F. rewrite (P_agree e e' He).
        replace (forallb (fun c => e c =? rr c) (filter p (map fst L)))
          with (forallb (fun c => e' c =? rr c) (filter p (map fst L))); auto.
        assert (GG : forall l, incl l (map fst L) -> forallb (fun c => e' c =? rr c) l = forallb (fun c => e c =? rr c) l).
        { induction l; intros HI; simpl; auto. rewrite IHl by (intros x Hx; apply HI; right; auto).
          rewrite He by (apply HI; left; auto). auto. }
        apply GG. intros x Hx. apply filter_In in Hx. tauto. }
    unfold F. rewrite collapse; [|apply letters_nodup|].
    - replace (filter (fun x => negb (p (fst x))) L) with (summed_letters all).
      + f_equal. apply functional_extensionality. intros c. unfold override.
        destruct (p c && existsb (Nat.eqb c) (map fst L))%bool eqn:E; auto.
        symmetry. apply AS2. intros C. apply HFree in C. apply filter_In in C.
        destruct C as [C1 C2]. apply existsb_in in C1. rewrite C1, C2 in E. discriminate.
      + symmetry. apply (letters_filter (fun c => negb (p c))); [|tauto].
        intros c Hc. unfold p. destruct (HO c Hc) as [-> | ->]; reflexivity.
    - intros c n Hin Hp. apply letters_in in Hin. destruct Hin as [_ [_ [s [Hs ->]]]].
      assert (Hc : In (c, s) R) by (rewrite R_spec; apply filter_In; auto).
      assert (GG : forall (h : nat -> nat) l q, in_box (map (fun m : id_map => length (snd m)) l) q -> map h (map fst l) = q ->
                In (c, s) l -> h c < length s).
      { clear. intros h. induction l as [|m l IH]; intros [|x q] HB E H; simpl in *; try tauto.
        injection E as E1 E2. destruct H as [->|H]; [simpl in *; lia|]. eapply IH; eauto. tauto. }
      apply (GG rr R r); auto.
      + replace (map (fun m : id_map => length (snd m)) R) with (map snd (free_letters all)); auto.
        rewrite <- free_letters_R, map_map. reflexivity.
      + rewrite free_ids. auto.
  Qed.
End Mul.

(** ** The validity checks are the index rules *)
Lemma relevant_spec c l : forall out,
  relevant_sets c l out = rev (map snd (filter (fun m => fst m =? c) l)) ++ out.
Proof.
  induction l as [|m l IH]; intros out; [reflexivity|]. cbn [relevant_sets filter].
  rewrite IH. destruct (fst m =? c); [|reflexivity]. cbn [map rev]. rewrite <- app_assoc. reflexivity.
Qed.
Lemma filter_split {A} (f : A -> bool) l x r : filter f l = x :: r ->
  exists a b, l = a ++ x :: b /\ filter f a = [] /\ f x = true /\ filter f b = r.
Proof.
  induction l as [|y l IH]; cbn [filter]; intros H; [discriminate|].
  destruct (f y) eqn:E.
  - injection H as -> H. exists [], l. auto.
  - destruct (IH H) as [a [b [E1 [E2 [E3 E4]]]]]. exists (y :: a), b. subst l. cbn [filter]. rewrite E. auto.
Qed.
Lemma filter_fst_nil c (l : list id_map) : filter (fun m => fst m =? c) l = [] <-> ~ In c (map fst l).
Proof.
  split.
  - intros H C. apply occurs_in in C. unfold occurs in C. rewrite H in C. simpl in C. lia.
  - intros H. apply occurs_notin in H. unfold occurs in H. destruct (filter _ l); [reflexivity|discriminate].
Qed.
Lemma check_id_spec c all : In c (map fst all) ->
  check_id_validity c all = true <->
    (occurs all c = 1 \/
    (exists a s1 b s2 d, all = a ++ (c, s1) :: b ++ (c, s2) :: d /\
       ~ In c (map fst (a ++ b ++ d)) /\
       (is_cov_set s1 = true \/ is_cov_set s2 = true) /\
       (is_contra_set s1 = true \/ is_contra_set s2 = true) /\
       contra_dims s1 = contra_dims s2)).
Proof.
  intros Hc. unfold check_id_validity. rewrite count_char_occurs, relevant_spec, app_nil_r.
  destruct (Nat.eqb_spec (occurs all c) 2) as [O|O].
  - split.
    + intros H. right. unfold occurs in O.
      destruct (filter (fun m => fst m =? c) all) as [|[c1 s1] [|[c2 s2] [|? ?]]] eqn:EF; try discriminate.
      apply filter_split in EF. destruct EF as [a [b' [-> [Fa [E1 Fb]]]]].
      apply filter_split in Fb. destruct Fb as [b [d [-> [Fb [E2 Fd]]]]].
      cbn [fst] in E1, E2. apply Nat.eqb_eq in E1, E2. subst c1 c2.
      cbn [map snd rev app] in H.
      destruct (is_cov_set s2 || is_cov_set s1)%bool eqn:B1; [|discriminate].
      destruct (is_contra_set s2 || is_contra_set s1)%bool eqn:B2; [|discriminate].
      destruct (set_dec (contra_dims s2) (contra_dims s1)) as [B3|]; [|discriminate].
      exists a, s1, b, s2, d. split; auto. split.
      { rewrite <- filter_fst_nil. rewrite !filter_app. rewrite Fa, Fb, Fd. reflexivity. }
      apply Bool.orb_prop in B1, B2. split; [tauto|]. split; [tauto|]. auto.
    + intros [H|[a [s1 [b [s2 [d [E [N [B1 [B2 B3]]]]]]]]]]; [lia|].
      apply filter_fst_nil in N. rewrite !filter_app in N. apply app_eq_nil in N. destruct N as [Fa N].
      apply app_eq_nil in N. destruct N as [Fb Fd].
      rewrite E. rewrite filter_app. cbn [filter fst]. rewrite Nat.eqb_refl, filter_app.
      cbn [filter fst]. rewrite Nat.eqb_refl, Fa, Fb, Fd. cbn [map snd rev app].
      replace (is_cov_set s2 || is_cov_set s1)%bool with true by (destruct B1 as [-> | ->]; auto using Bool.orb_true_r).
      replace (is_contra_set s2 || is_contra_set s1)%bool with true by (destruct B2 as [-> | ->]; auto using Bool.orb_true_r).
      destruct (set_dec (contra_dims s2) (contra_dims s1)); [reflexivity|congruence].
  - rewrite Nat.eqb_eq. split; [auto|]. intros [H|[a [s1 [b [s2 [d [E [N _]]]]]]]]; auto.
    exfalso. apply O. rewrite E. rewrite occurs_app, occurs_cons, occurs_app, occurs_cons. cbn [fst].
    rewrite Nat.eqb_refl. rewrite !map_app in N.
    rewrite !occurs_notin; [reflexivity| | |]; intros C; apply N; repeat (apply in_or_app; (left; assumption) || right); auto.
Qed.

Lemma get_unique_in {A} (dec : forall x y : A, {x = y} + {x <> y}) l : forall result x,
  In x (get_unique dec l result) <-> In x l \/ In x result.
Proof.
  induction l as [|h t IH]; intros result x; cbn [get_unique]; [simpl; tauto|]. rewrite IH.
  destruct (in_tags dec h result) eqn:E.
  - apply in_tags_spec in E. simpl. split; [tauto|]. intros [[->|]|]; tauto.
  - rewrite in_app_iff. simpl. tauto.
Qed.

Lemma check_all_spec all : check_all all = true <-> index_rules all.
Proof.
  unfold check_all, index_rules. rewrite forallb_forall. unfold type_seq_unique. split.
  - intros H c Hc. apply check_id_spec; auto. apply H. apply get_unique_in. auto.
  - intros H c Hc. apply get_unique_in in Hc. destruct Hc as [Hc|[]]. apply check_id_spec; auto.
Qed.

Lemma pattern_all fs : pattern_of fs = all_indices (map fst fs).
Proof. unfold pattern_of, all_indices. rewrite map_map. reflexivity. Qed.

Lemma letters_nil_iff p l : letters p [] l = [] -> forall m, In m l -> p (fst m) = false.
Proof.
  intros H [c s] Hm. destruct (p c) eqn:E; auto. exfalso.
  pose proof (letters_complete p l [] c s Hm E (fun x => x)) as C. rewrite H in C. exact C.
Qed.

Lemma tensor_mul_rejects ts : ~ index_rules (all_indices ts) -> tensor_mul ts = AssertFail.
Proof.
  intros H. unfold tensor_mul. destruct (check_all (all_indices ts)) eqn:E; auto.
  apply check_all_spec in E. tauto.
Qed.

Section Top.
  Variable fs : list factor.
  Hypothesis Hne : fs <> [].
  Hypothesis HR : index_rules (pattern_of fs).
  Hypothesis HS : Forall (fun m => proper_set (snd m)) (pattern_of fs).
  Hypothesis HF : Forall factor_ok fs.

  Lemma top_facts : let all := all_indices (map fst fs) in
    consistent all /\ proper all /\ Forall (fun m => NoDup (snd m)) all /\
    (forall c, In c (map fst all) -> occurs all c = 1 \/ occurs all c = 2) /\ check_all all = true.
  Proof.
    intros all. rewrite pattern_all in HR, HS. fold all in HR, HS.
    destruct (rules_facts all HR) as [A B]. split; auto. split; [|split; [|split; auto]].
    - apply Forall_forall. intros m Hm. rewrite Forall_forall in HS. destruct (HS m Hm) as [_ [H|H]].
      + left. apply forallb_forall. auto.
      + right. apply forallb_forall. auto.
    - apply Forall_forall. intros m Hm. rewrite Forall_forall in HS. apply (HS m Hm).
    - apply check_all_spec; auto.
  Qed.

  Lemma tensor_mul_scalar_spec : free_letters (pattern_of fs) = [] ->
    tensor_mul (map fst fs) = Ok (inl (einstein fs [])).
  Proof.
    intros HE. unfold einstein. rewrite HE. pose proof top_facts as TF. rewrite pattern_all in *. destruct TF as [HC [HP [HD [HO HK]]]].
    unfold tensor_mul. rewrite HK.
    assert (E : non_repeated_indices (all_indices (map fst fs)) = []).
    { pose proof (free_letters_R fs HC HP) as E. rewrite HE in E. apply (map_eq_nil (fun m : id_map => (fst m, length (snd m)))). exact E. }
    rewrite E. cbn [length Nat.eqb].
    rewrite (mul_scalar_spec fs); auto.
    intros c Hc. destruct (HO c Hc) as [O|O]; auto. exfalso.
    apply in_map_iff in Hc. destruct Hc as [m [<- Hm]].
    pose proof (letters_nil_iff _ _ HE m Hm) as C. cbn beta in C. rewrite O in C. discriminate.
  Qed.

  Lemma tensor_mul_tensor_spec : free_letters (pattern_of fs) <> [] ->
    exists data, tensor_mul (map fst fs) = Ok (inr data) /\
      length data = n_elements (free_sets (pattern_of fs)) /\
      represents (free_sets (pattern_of fs)) (tensor_get (free_sets (pattern_of fs)) data) (einstein fs).
  Proof.
    intros HE. unfold einstein. pose proof top_facts as TF. rewrite pattern_all in *. destruct TF as [HC [HP [HD [HO HK]]]].
    destruct (mul_tensor_spec fs Hne HC HP HF HD HO) as [data [E1 [E2 E3]]].
    exists data. unfold tensor_mul. rewrite HK.
    destruct (Nat.eqb_spec (length (non_repeated_indices (all_indices (map fst fs)))) 0) as [C|C].
    { exfalso. apply HE. rewrite <- (free_letters_R fs HC HP). apply length_zero_iff_nil in C. rewrite C. reflexivity. }
    rewrite E1. split; [reflexivity|].
    assert (ER : map snd (non_repeated_indices (all_indices (map fst fs))) = free_sets (all_indices (map fst fs))).
    { unfold free_sets. rewrite (R_spec fs HC HP). reflexivity. }
    pose proof (free_ext fs HC HP) as EX. rewrite ER in EX.
    split.
    - rewrite E2. unfold n_elements. fold (extents (free_sets (all_indices (map fst fs)))). rewrite EX. reflexivity.
    - intros pos Hp. rewrite EX in Hp. specialize (E3 pos Hp).
      rewrite <- EX in Hp.
      assert (HDR : Forall (@NoDup tag) (free_sets (all_indices (map fst fs)))).
      { apply Forall_forall. intros s Hs. unfold free_sets in Hs. apply in_map_iff in Hs. destruct Hs as [m [<- Hm]].
        apply filter_In in Hm. rewrite Forall_forall in HD. apply HD. tauto. }
      unfold tensor_get. rewrite (proj2 (valid_indexes _ _) (indexes_tags_at _ _ Hp)).
      unfold element_index. rewrite ranks_tags_at by auto. fold (extents (free_sets (all_indices (map fst fs)))).
      rewrite EX. unfold rd.
      assert (HLT : layout_right (map snd (free_letters (all_indices (map fst fs)))) pos < length data).
      { rewrite E2. apply layout_bound. rewrite EX in Hp. exact Hp. }
      destruct (Z.ltb_spec (Z.of_nat (layout_right (map snd (free_letters (all_indices (map fst fs)))) pos)) 0); [lia|].
      rewrite Nat2Z.id. rewrite (nth_error_nth' data 0%R) by auto. f_equal. exact E3.
  Qed.
End Top.
