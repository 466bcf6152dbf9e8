(** Proofs about the Levi-Civita and identity tensors and the assignment of elements. *)
From Verif Require Import TensorModel TensorSpec TensorProofs.
From Coq Require Import Lia ZifyBool Lra Permutation.
Open Scope nat_scope.

Lemma nodup_length_iff (l : list nat) : (length (nodup Nat.eq_dec l) =? length l) = true <-> NoDup l.
Proof.
  rewrite Nat.eqb_eq. induction l as [|x l IH]; simpl; [split; auto; constructor|].
  pose proof (NoDup_incl_length (NoDup_nodup Nat.eq_dec l) (fun y Hy => proj1 (nodup_In Nat.eq_dec l y) Hy)) as HLE.
  destruct (in_dec Nat.eq_dec x l).
  - split; [lia|]. intros H. inversion H; tauto.
  - simpl. split.
    + intros H. constructor; auto. apply IH. lia.
    + intros H. inversion H; subst. f_equal. apply IH. auto.
Qed.
Lemma eps_nodup l : NoDup l -> eps l = sign l.
Proof. intros H. unfold eps. apply nodup_length_iff in H. rewrite H. reflexivity. Qed.
Lemma eps_dup l : ~ NoDup l -> eps l = 0%Z.
Proof.
  intros H. unfold eps. destruct (length (nodup Nat.eq_dec l) =? length l) eqn:E; auto.
  apply nodup_length_iff in E. tauto.
Qed.

(** ** Sums over tuples *)
Lemma Rsum_skip n p g : p <= n -> g p = 0%R -> Rsum (S n) g = Rsum n (fun k => g (skip p k)).
Proof.
  revert p g. induction n as [|n IH]; intros p g Hp H0.
  - assert (p = 0) by lia. subst. simpl. rewrite H0. lra.
  - destruct (Nat.eq_dec p (S n)) as [->|N].
    + cbn [Rsum]. rewrite H0, Rplus_0_r. change (Rsum n g + g n)%R with (Rsum (S n) g).
      change (Rsum n (fun k => g (skip (S n) k)) + g (skip (S n) n))%R with (Rsum (S n) (fun k => g (skip (S n) k))).
      apply Rsum_ext. intros i Hi. unfold skip. destruct (Nat.ltb_spec i (S n)); [reflexivity|lia].
    + cbn [Rsum]. change (Rsum n g + g n)%R with (Rsum (S n) g). rewrite (IH p) by (auto; lia).
      f_equal. unfold skip. destruct (Nat.ltb_spec n p); [lia|reflexivity].
Qed.
Lemma tuples_ext k n : forall f g, (forall q, length q = k -> (forall x, In x q -> x < n) -> f q = g q) ->
  tuples_sum k n f = tuples_sum k n g.
Proof.
  induction k as [|k IH]; intros f g H; cbn [tuples_sum].
  - apply H; auto. intros x [].
  - apply Rsum_ext. intros p Hp. apply IH. intros q Hq HB. apply H; [simpl; lia|].
    intros x [->|Hx]; auto.
Qed.
Lemma tuples_zero k n : tuples_sum k n (fun _ => 0%R) = 0%R.
Proof. induction k; cbn [tuples_sum]; auto. apply Rsum_zero; auto. Qed.
Lemma tuples_scal k n c : forall f, tuples_sum k n (fun q => c * f q)%R = (c * tuples_sum k n f)%R.
Proof.
  induction k as [|k IH]; intros f; cbn [tuples_sum]; auto.
  rewrite <- Rsum_scal. apply Rsum_ext. intros p _. rewrite <- IH. reflexivity.
Qed.
Lemma tuples_skip k n p : p <= n -> forall f, (forall q, In p q -> f q = 0%R) ->
  tuples_sum k (S n) f = tuples_sum k n (fun q => f (map (skip p) q)).
Proof.
  intros Hp. induction k as [|k IH]; intros f Hf; [reflexivity|]. cbn [tuples_sum map].
  rewrite (Rsum_skip n p); [|exact Hp|].
  2:{ transitivity (tuples_sum k (S n) (fun _ => 0%R)); [|apply tuples_zero].
      apply tuples_ext. intros. apply Hf. left; auto. }
  apply Rsum_ext. intros x Hx. apply (IH (fun q => f (skip p x :: q))). intros q Hq. apply Hf. right; auto.
Qed.

(** ** The symbol of a sequence starting with p *)
Lemma skip_inj p x y : skip p x = skip p y -> x = y.
Proof. unfold skip. destruct (Nat.ltb_spec x p), (Nat.ltb_spec y p); lia. Qed.
Lemma skip_neq p x : skip p x <> p.
Proof. unfold skip. destruct (Nat.ltb_spec x p); lia. Qed.
Lemma filter_map_len {A B} (f : B -> bool) (g : A -> B) l :
  length (filter f (map g l)) = length (filter (fun x => f (g x)) l).
Proof. induction l as [|x l IH]; simpl; auto. destruct (f (g x)); simpl; rewrite IH; auto. Qed.
Lemma filter_ext_len {A} (f g : A -> bool) l : (forall x, f x = g x) -> length (filter f l) = length (filter g l).
Proof. intros H. f_equal. apply filter_ext. auto. Qed.
Lemma inversions_skip p l : inversions (map (skip p) l) = inversions l.
Proof.
  induction l as [|h t IH]; simpl; auto. rewrite IH, filter_map_len. f_equal. apply filter_ext_len.
  intros x. unfold skip. destruct (Nat.ltb_spec x p), (Nat.ltb_spec h p);
    match goal with |- (?a <? ?b) = (?c <? ?d) => destruct (Nat.ltb_spec a b), (Nat.ltb_spec c d); auto; lia end.
Qed.
Lemma filter_seq_lt p n : p <= n -> length (filter (fun x => x <? p) (seq 0 n)) = p.
Proof.
  intros H. replace n with (p + (n - p)) by lia. rewrite seq_app, filter_app, app_length.
  assert (A : length (filter (fun x => x <? p) (seq 0 p)) = p).
  { assert (G : forall l, (forall x, In x l -> x < p) -> filter (fun x => x <? p) l = l).
    { induction l; intros HH; simpl; auto. destruct (Nat.ltb_spec a p); [f_equal; apply IHl; intros; apply HH; right; auto|].
      exfalso. assert (a < p) by (apply HH; left; auto). lia. }
    rewrite G; [apply seq_length|]. intros x Hx. apply in_seq in Hx. lia. }
  assert (B : filter (fun x => x <? p) (seq (0 + p) (n - p)) = []).
  { assert (G : forall l, (forall x, In x l -> p <= x) -> filter (fun x => x <? p) l = []).
    { induction l; intros HH; simpl; auto. assert (p <= a) by (apply HH; left; auto).
      destruct (Nat.ltb_spec a p); [lia|]. apply IHl; intros; apply HH; right; auto. }
    apply G. intros x Hx. apply in_seq in Hx. lia. }
  rewrite A, B. simpl. lia.
Qed.
Lemma perm_filter_len {A} (f : A -> bool) l l' : Permutation l l' -> length (filter f l) = length (filter f l').
Proof.
  intros H. induction H; simpl; auto; try lia.
  - destruct (f x); simpl; lia.
  - destruct (f x), (f y); simpl; lia.
Qed.

Lemma sign_cons p l : sign (p :: l) = if Nat.even (length (filter (fun x => x <? p) l)) then sign l else (- sign l)%Z.
Proof.
  unfold sign. cbn [inversions]. rewrite Nat.even_add.
  destruct (Nat.even (length _)), (Nat.even (inversions l)); reflexivity.
Qed.
Lemma pow_m1_even p : ((-1) ^ p)%R = (if Nat.even p then 1 else -1)%R.
Proof.
  induction p as [|p IH]; [reflexivity|]. rewrite Nat.even_succ. simpl pow. rewrite IH.
  rewrite <- Nat.negb_even. destruct (Nat.even p); simpl; lra.
Qed.
Lemma eps_cons p n q : p <= n -> length q = n -> (forall x, In x q -> x < n) ->
  IZR (eps (p :: map (skip p) q)) = ((-1) ^ p * IZR (eps q))%R.
Proof.
  intros Hp HL HB. destruct (length (nodup Nat.eq_dec q) =? length q) eqn:E.
  - pose proof E as ND. apply nodup_length_iff in ND.
    assert (ND2 : NoDup (p :: map (skip p) q)).
    { constructor.
      - intros C. apply in_map_iff in C. destruct C as [x [C _]]. revert C. apply skip_neq.
      - apply FinFun.Injective_map_NoDup; auto. intros x y. apply skip_inj. }
    rewrite (eps_nodup _ ND), (eps_nodup _ ND2), sign_cons, filter_map_len.
    assert (HP : Permutation q (seq 0 n)).
    { apply NoDup_Permutation_bis; auto; [rewrite seq_length; lia|]. intros x Hx. apply in_seq. specialize (HB x Hx). lia. }
    rewrite (filter_ext_len _ (fun x => x <? p)).
    2:{ intros x. unfold skip. destruct (Nat.ltb_spec x p); [apply Nat.ltb_lt; auto|apply Nat.ltb_ge; lia]. }
    rewrite (perm_filter_len _ _ _ HP), filter_seq_lt by auto. rewrite pow_m1_even.
    unfold sign. rewrite inversions_skip. destruct (Nat.even p), (Nat.even (inversions q)); simpl; lra.
  - assert (ND : ~ NoDup q) by (intros C; apply nodup_length_iff in C; congruence).
    rewrite (eps_dup q ND), eps_dup; [lra|]. intros C. inversion C; subst. apply ND. eapply NoDup_map_inv; eauto.
Qed.

Lemma prod_rows_skip p q : forall (M : nat -> nat -> R),
  prod_rows M (map (skip p) q) = prod_rows (fun i k => M i (skip p k)) q.
Proof. induction q as [|j t IH]; intros M; simpl; auto. rewrite IH. reflexivity. Qed.

Lemma leibniz n : forall M, tuples_sum n n (fun q => IZR (eps q) * prod_rows M q)%R = laplace n M.
Proof.
  induction n as [|n IH]; intros M.
  - cbn. lra.
  - cbn [tuples_sum laplace]. apply Rsum_ext. intros p Hp.
    rewrite (tuples_skip n n p); [|lia|].
    2:{ intros q Hq. rewrite eps_dup; [lra|]. intros C. inversion C; tauto. }
    rewrite <- IH. rewrite <- tuples_scal. apply tuples_ext. intros q HL HB.
    rewrite (eps_cons p n q) by (auto; lia). cbn [prod_rows]. rewrite prod_rows_skip. ring.
Qed.

(** ** The Levi-Civita tensors *)
Lemma tags_at_repeat s pos : tags_at (repeat s (length pos)) pos = map (fun p => nth p s (Cart 0)) pos.
Proof. induction pos; simpl; auto. f_equal. auto. Qed.
Lemma in_box_repeat e n pos : in_box (repeat e n) pos <-> length pos = n /\ forall x, In x pos -> x < e.
Proof.
  revert pos. induction n as [|n IH]; intros [|p pos]; simpl; try (split; [tauto|intros [? _]; lia]).
  rewrite IH. split.
  - intros [H1 [H2 H3]]. split; [lia|]. intros x [->|]; auto.
  - intros [H1 H2]. split; [apply H2; auto|]. split; [lia|]. intros; apply H2; auto.
Qed.
Lemma extents_repeat s n : extents (repeat s n) = repeat (length s) n.
Proof. unfold extents. induction n; simpl; auto. f_equal; auto. Qed.

Lemma levi_civita_spec s coeff : NoDup s ->
  represents (repeat s (length s)) (levi_civita_get s coeff) (fun pos => IZR (eps pos) * coeff)%R.
Proof.
  intros HD pos HB. unfold levi_civita_get.
  rewrite (proj2 (valid_indexes _ _) (indexes_tags_at _ _ HB)).
  rewrite extents_repeat in HB. apply in_box_repeat in HB. destruct HB as [HL HB].
  rewrite <- HL, tags_at_repeat.
  assert (HI : incl (map (fun p => nth p s (Cart 0)) pos) s).
  { intros t Ht. apply in_map_iff in Ht. destruct Ht as [p [<- Hp]]. apply nth_In. apply HB; auto. }
  assert (EP : pos_of tag_dec s (map (fun p => nth p s (Cart 0)) pos) = pos).
  { unfold pos_of. rewrite map_map. transitivity (map (fun x : nat => x) pos); [|apply map_id].
    apply map_ext_in. intros p Hp. apply rank_nth; auto. }
  rewrite (parity_spec tag_dec s) by (auto; rewrite map_length; auto). rewrite EP.
  do 3 f_equal. unfold eps.
  destruct (length (nodup Nat.eq_dec pos) =? length pos) eqn:E.
  - apply nodup_length_iff in E.
    assert (HU : NoDup (map (fun p => nth p s (Cart 0)) pos)).
    { assert (G : forall l, NoDup l -> (forall x, In x l -> x < length s) -> NoDup (map (fun p => nth p s (Cart 0)) l)).
      { clear - HD. induction l as [|x l IH]; intros HN HB; [constructor|]. inversion HN; subst. cbn [map]. constructor.
        - intros C. apply in_map_iff in C. destruct C as [y [E Hy]].
          assert (x = y); [|congruence].
          apply (proj1 (NoDup_nth s (Cart 0)) HD); [apply HB; left; auto|apply HB; right; auto|auto].
        - apply IH; auto. intros y Hy. apply HB; right; auto. }
      apply G; auto. }
    apply (has_unique_spec tag_dec) in HU. rewrite HU. reflexivity.
  - destruct (has_unique_elements tag_dec (map (fun p => nth p s (Cart 0)) pos)) eqn:E2; auto.
    apply has_unique_spec in E2. apply NoDup_map_inv in E2. apply nodup_length_iff in E2. congruence.
Qed.

(** transposing two indices changes the sign; repeated indices give 0 *)
Lemma eps_transpose a x b y c : eps (a ++ x :: b ++ y :: c) = (- eps (a ++ y :: b ++ x :: c))%Z.
Proof.
  assert (PE : Permutation (a ++ x :: b ++ y :: c) (a ++ y :: b ++ x :: c)).
  { apply Permutation_app_head. transitivity (x :: y :: b ++ c); [constructor; symmetry; apply Permutation_middle|].
    rewrite perm_swap. constructor. apply Permutation_middle. }
  destruct (ListDec.NoDup_dec Nat.eq_dec (a ++ x :: b ++ y :: c)) as [N|N].
  - assert (N' : NoDup (a ++ y :: b ++ x :: c)) by (eapply Permutation_NoDup; eauto).
    rewrite (eps_nodup _ N), (eps_nodup _ N'). revert PE N N'. induction a as [|h a IH]; intros PE N N'.
    + cbn [app]. cbn [app] in N. pose proof (inversions_swap x y b c N) as HS. unfold sign.
      rewrite HS. destruct (Nat.even (inversions (y :: b ++ x :: c))); reflexivity.
    + cbn [app] in *. rewrite !sign_cons. inversion N; subst. inversion N'; subst.
      rewrite (perm_filter_len (fun z => z <? h) (a ++ x :: b ++ y :: c) (a ++ y :: b ++ x :: c)).
      * rewrite IH; auto; [destruct (Nat.even _); lia|]. apply Permutation_cons_inv in PE. auto.
      * apply Permutation_cons_inv in PE. auto.
  - rewrite (eps_dup _ N), eps_dup; auto. intros C. apply N. eapply Permutation_NoDup; [symmetry; exact PE|auto].
Qed.

(** ** Identity tensor *)
Lemma identity_spec row col : NoDup row -> NoDup col ->
  represents [row; col] (identity_get row col)
    (fun pos => match pos with [i; j] => if i =? j then 1%R else 0%R | _ => 0%R end).
Proof.
  intros H1 H2 pos HB. unfold identity_get.
  destruct pos as [|i [|j [|k pos]]]; simpl in HB; try tauto. destruct HB as [Hi [Hj _]].
  cbn [tags_at valid_indices].
  rewrite (proj2 (in_tags_spec tag_dec (nth i row (Cart 0)) row)) by (apply nth_In; auto).
  rewrite (proj2 (in_tags_spec tag_dec (nth j col (Cart 0)) col)) by (apply nth_In; auto). cbn [andb].
  rewrite !rank_nth by auto. reflexivity.
Qed.

(** ** assign_elements *)
Lemma sub_indexes small big dims : sub_sets small big -> indexes small dims -> indexes big dims.
Proof.
  revert big dims. induction small as [|s t IH]; intros [|b big] [|d dims]; simpl; try tauto.
  intros [H1 H2] [H3 H4]. split; auto.
Qed.
Lemma sub_sets_refl l : sub_sets l l.
Proof. induction l; simpl; auto. split; auto. intros x; auto. Qed.
Lemma tensor_get_ok sets data dims : length data = n_elements sets -> indexes sets dims ->
  exists x, tensor_get sets data dims = Ok x.
Proof.
  intros HL HI. unfold tensor_get. rewrite (proj2 (valid_indexes _ _) HI).
  pose proof (element_index_bound _ _ HI). unfold rd.
  destruct (Z.ltb_spec (Z.of_nat (element_index sets dims)) 0); [lia|]. rewrite Nat2Z.id.
  destruct (nth_error data (element_index sets dims)) eqn:E; eauto. apply nth_error_None in E. lia.
Qed.

Lemma assign_loop_spec isets osets ksets input out n :
  Forall (@NoDup tag) ksets -> sub_sets ksets isets -> sub_sets ksets osets ->
  length input = n_elements isets -> length out = n_elements osets -> n <= n_elements ksets ->
  exists out', assign_loop n isets osets input ksets out = Ok out' /\ length out' = n_elements osets /\
    (forall dims, indexes ksets dims -> element_index ksets dims < n ->
       tensor_get osets out' dims = tensor_get isets input dims) /\
    (forall dims, indexes osets dims -> ~ (indexes ksets dims /\ element_index ksets dims < n) ->
       tensor_get osets out' dims = tensor_get osets out dims).
Proof.
  intros HD HSI HSO HLI HLO. induction n as [|n IH]; intros Hn; cbn [assign_loop].
  - exists out. repeat split; auto. intros; lia.
  - destruct IH as [out1 [E1 [L1 [A1 B1]]]]; [lia|]. rewrite E1. cbn [bind].
    destruct (index_of_nth ksets n HD) as [I1 I2]; [lia|].
    set (dn := get_nth_element n ksets) in *.
    destruct (tensor_get_ok isets input dn HLI (sub_indexes _ _ _ HSI I1)) as [x Ex]. rewrite Ex. cbn [bind].
    destruct (tensor_set_get osets out1 dn x L1 (sub_indexes _ _ _ HSO I1)) as [out2 [E2 [L2 [G2 F2]]]].
    exists out2. split; auto. split; auto. split.
    + intros dims HI HLT. destruct (Nat.eq_dec (element_index ksets dims) n) as [EQ|NE].
      * assert (dims = dn) by (apply (element_index_inj ksets); auto; lia). subst dims. congruence.
      * rewrite F2; [apply A1; auto; lia|eapply sub_indexes; eauto|].
        intros ->. lia.
    + intros dims HI HN. rewrite F2; auto.
      * apply B1; auto. intros [H1 H2]. apply HN. split; auto.
      * intros ->. apply HN. split; auto. lia.
Qed.

Lemma assign_smaller osets isets out input :
  Forall (@NoDup tag) isets -> sub_sets isets osets -> n_elements isets < n_elements osets ->
  length input = n_elements isets -> length out = n_elements osets ->
  exists out', assign_elements osets isets out input = Ok out' /\ length out' = n_elements osets /\
    (forall dims, indexes isets dims -> tensor_get osets out' dims = tensor_get isets input dims) /\
    (forall dims, indexes osets dims -> ~ indexes isets dims -> tensor_get osets out' dims = tensor_get osets out dims).
Proof.
  intros HD HS HN HLI HLO. unfold assign_elements. rewrite (proj2 (Nat.ltb_lt _ _) HN).
  destruct (assign_loop_spec isets osets isets input out (n_elements isets)) as [o [E [L [A B]]]]; auto using sub_sets_refl.
  exists o. split; auto. split; auto. split.
  - intros dims HI. apply A; auto. apply element_index_bound; auto.
  - intros dims HI HN'. apply B; auto. tauto.
Qed.
Lemma assign_larger osets isets out input :
  Forall (@NoDup tag) osets -> sub_sets osets isets -> n_elements osets <= n_elements isets ->
  length input = n_elements isets -> length out = n_elements osets ->
  exists out', assign_elements osets isets out input = Ok out' /\ length out' = n_elements osets /\
    (forall dims, indexes osets dims -> tensor_get osets out' dims = tensor_get isets input dims).
Proof.
  intros HD HS HN HLI HLO. unfold assign_elements. rewrite (proj2 (Nat.ltb_ge _ _) HN).
  destruct (assign_loop_spec isets osets osets input out (n_elements osets)) as [o [E [L [A B]]]]; auto using sub_sets_refl.
  exists o. split; auto. split; auto.
  intros dims HI. apply A; auto. apply element_index_bound; auto.
Qed.

(** a stored tensor seen through positions *)
Lemma stored_represents sets data : Forall (@NoDup tag) sets -> length data = n_elements sets ->
  represents sets (tensor_get sets data) (fun pos => nth (layout_right (extents sets) pos) data 0%R).
Proof.
  intros HD HL pos HB. unfold tensor_get. rewrite (proj2 (valid_indexes _ _) (indexes_tags_at _ _ HB)).
  unfold element_index. rewrite ranks_tags_at by auto. fold (extents sets).
  assert (HLT : layout_right (extents sets) pos < length data) by (rewrite HL; apply layout_bound; auto).
  unfold rd. destruct (Z.ltb_spec (Z.of_nat (layout_right (extents sets) pos)) 0); [lia|].
  rewrite Nat2Z.id, (nth_error_nth' data 0%R) by auto. reflexivity.
Qed.

Lemma numbering sets : Forall (@NoDup tag) sets ->
  (forall dims, indexes sets dims ->
     element_index sets dims < n_elements sets /\ get_nth_element (element_index sets dims) sets = dims) /\
  (forall n, n < n_elements sets ->
     indexes sets (get_nth_element n sets) /\ element_index sets (get_nth_element n sets) = n).
Proof.
  intros HD. split.
  - intros dims HI. split; [apply element_index_bound; auto|apply nth_of_index; auto].
  - intros n Hn. apply index_of_nth; auto.
Qed.

Lemma levi_coeffs s cs J : Forall2 (fun t u => u = dual t) s cs ->
  is_cov_set s = true -> is_cov_set cs = false -> (1 / 10 ^ 19 <= Rabs J)%R ->
  exists a b, levi_civita_coeff s J = Ok a /\ levi_civita_coeff cs J = Ok b /\ a = J /\ (a * b = 1)%R.
Proof.
  intros _ H1 H2 HJ. unfold levi_civita_coeff. rewrite H1, H2.
  destruct (Rlt_dec (Rabs J) (1 / 10 ^ 19)); [lra|].
  exists J, (1 / J)%R. split; auto. split; auto. split; auto.
  assert (J <> 0%R). { intros ->. rewrite Rabs_R0 in HJ. assert (0 < 10 ^ 19)%R by (apply pow_lt; lra).
    assert (0 < 1 / 10 ^ 19)%R by (apply Rdiv_lt_0_compat; lra). lra. }
  field. auto.
Qed.

Lemma parity_rejects_nothing s dims : NoDup s -> indexes (repeat s (length s)) dims ->
  exists e, permutation_parity tag_dec dims s = Some e /\ (e = 1 \/ e = 0 \/ e = -1)%Z /\
    (e = 0%Z <-> ~ NoDup dims).
Proof.
  intros HD HI.
  assert (HL : length dims = length s /\ incl dims s).
  { assert (G : forall n dims, indexes (repeat s n) dims -> length dims = n /\ incl dims s).
    { clear. induction n as [|n IH]; intros [|d dims]; simpl; try tauto.
      - intros _. split; auto. intros x Hx. destruct Hx.
      - intros [H1 H2]. destruct (IH _ H2). split; [lia|]. intros x [->|]; auto. }
    apply G. auto. }
  destruct HL as [HL HI2]. rewrite (parity_spec tag_dec s dims HD HL HI2). eexists. split; [reflexivity|].
  destruct (has_unique_elements tag_dec dims) eqn:E.
  - unfold sign. split; [destruct (Nat.even _); auto|]. apply has_unique_spec in E.
    split; [destruct (Nat.even _); discriminate|tauto].
  - split; auto. split; auto. intros _ C. apply (has_unique_spec tag_dec) in C. congruence.
Qed.
