(** Proofs about the batched iterative solves (C112). *)
From Coq Require Import Permutation ZifyBool.
From Verif Require Import GkoSpec.
Open Scope nat_scope.

Lemma dle_iff a b : dle a b = true <-> at_most a b.
Proof.
  destruct a as [| |r|], b as [| |s|]; cbn; try tauto; try (split; [discriminate|tauto]); try (split; now auto).
  destruct (Rle_dec r s); split; auto; try tauto; discriminate.
Qed.

Lemma in_pairs n0 n1 i j : In (i, j) (pairs n0 n1) <-> i < n0 /\ j < n1.
Proof. unfold pairs. rewrite in_prod_iff, !in_seq. lia. Qed.

Lemma load_all_ok m addr g : forall l, (forall i j, In (i, j) l -> m (addr i j) = Some (g i j)) ->
  exists f, load_all m addr l = Ok f /\ forall i j, In (i, j) l -> f i j = g i j.
Proof.
  induction l as [|[i j] l IH]; intros H; cbn [load_all].
  - eexists. split; [reflexivity|]. intros i j [].
  - unfold load. rewrite (H i j) by now left. cbn [bind].
    destruct IH as (f & E & Hf); [intros; apply H; now right|]. rewrite E. cbn [bind].
    eexists. split; [reflexivity|]. intros i' j' Hin. cbv beta.
    destruct ((i' =? i) && (j' =? j)) eqn:Eq.
    + assert (i' = i /\ j' = j) as [-> ->] by lia. reflexivity.
    + apply Hf. destruct Hin as [E0|]; auto. injection E0 as -> ->. lia.
Qed.

Lemma store_all_ok addr f : forall l m, NoDup l ->
  (forall p q, In p l -> In q l -> addr (fst p) (snd p) = addr (fst q) (snd q) -> p = q) ->
  (forall i j, In (i, j) l -> m (addr i j) <> None) ->
  exists m', store_all m addr l f = Ok m' /\
    (forall i j, In (i, j) l -> m' (addr i j) = Some (f i j)) /\
    (forall a, (forall i j, In (i, j) l -> a <> addr i j) -> m' a = m a).
Proof.
  induction l as [|[i j] l IH]; intros m ND Inj Hm; cbn [store_all].
  - exists m. repeat split; auto. intros i j [].
  - unfold store. pose proof (Hm i j (or_introl eq_refl)) as Ha.
    destruct (m (addr i j)) as [r0|] eqn:E0; [|tauto]. cbn [bind]. inversion ND as [|? ? N1 N2]; subst.
    edestruct (IH (fun a' => if (a' =? addr i j)%Z then Some (f i j) else m a')) as (m' & E & H1 & H2); auto.
    + intros p q Hp Hq. apply Inj; now right.
    + intros i' j' Hin. destruct (_ =? _)%Z; [discriminate|]. apply Hm. now right.
    + exists m'. split; auto. split.
      * intros i' j' [E1|Hin]; [|auto]. injection E1 as <- <-. rewrite H2.
        -- now rewrite Z.eqb_refl.
        -- intros i' j' Hin Eq. apply N1. assert (Ep : (i, j) = (i', j')); [|rewrite Ep; exact Hin].
           apply Inj; cbn; auto.
      * intros a Hne. rewrite H2 by (intros; apply Hne; now right).
        replace (a =? addr i j)%Z with false; auto. pose proof (Hne i j (or_introl eq_refl)). lia.
Qed.

Lemma nodup_app {T} (a b : list T) : NoDup a -> NoDup b -> (forall x, In x a -> ~ In x b) -> NoDup (a ++ b).
Proof.
  induction 1 as [|x a Hx Ha IH]; intros Hb D; cbn; auto. constructor.
  - rewrite in_app_iff. intros [?|?]; [tauto|]. exact (D x (or_introl eq_refl) H).
  - apply IH; auto. intros y Hy. apply D. now right.
Qed.
Lemma pairs_nodup n0 n1 : NoDup (pairs n0 n1).
Proof.
  unfold pairs. generalize (seq_NoDup n1 0). generalize (seq 0 n1). intros l2 N2.
  generalize (seq_NoDup n0 0). generalize (seq 0 n0). induction l as [|x l1 IH]; intros N1; cbn; [constructor|].
  inversion N1; subst. apply nodup_app; auto.
  - clear -N2. induction N2; cbn; constructor; auto. rewrite in_map_iff. intros (y & E & Hy). injection E as ->. tauto.
  - intros p Hp Hq. apply in_map_iff in Hp. destruct Hp as (y & <- & _). apply in_prod_iff in Hq. tauto.
Qed.

(** ** Views and multivectors *)
Lemma mv_addr_contiguous v batch n k r : contiguous v batch n ->
  mv_addr (MVec (kv_data v) batch n) k r = kv_addr v k r.
Proof. intros (E0 & E1 & E2 & E3). unfold mv_addr, kv_addr. cbn. rewrite E2, E3. lia. Qed.

Lemma to_gko_ok v batch n : contiguous v batch n ->
  to_gko_multivector v = Ok (MVec (kv_data v) batch n).
Proof.
  intros (E0 & E1 & E2 & E3). unfold to_gko_multivector, kv_span. rewrite E3, Nat.eqb_refl. cbn [check bind].
  rewrite E0, E1, E2. destruct ((batch =? 0) || (n =? 0)) eqn:Ez.
  - assert (batch * n = 0) as -> by (destruct batch, n; cbn in *; auto; discriminate). reflexivity.
  - replace (Nat.max (batch * n) (n * 1) <? batch * n) with false; auto. lia.
Qed.

Lemma faithful_iff v : kv_s1 v = 1 -> 0 < kv_e1 v ->
  forall x, to_gko_multivector v = Ok x ->
  ((forall i j, i < kv_e0 v -> j < kv_e1 v -> mv_addr x i j = kv_addr v i j) <->
   (kv_e0 v <= 1 \/ kv_s0 v = kv_e1 v)).
Proof.
  intros H1 Hp x E. unfold to_gko_multivector in E. rewrite H1, Nat.eqb_refl in E. cbn [check bind] in E.
  destruct (_ <? _); [discriminate|]. injection E as <-. unfold mv_addr, kv_addr. cbn [mv_data mv_rows]. rewrite H1.
  split.
  - intros H. destruct (le_gt_dec (kv_e0 v) 1); auto. right. specialize (H 1 0 ltac:(lia) Hp). lia.
  - intros [H|H] i j Hi Hj; [assert (i = 0) by lia; subst i; lia|]. rewrite H. lia.
Qed.

Lemma addr_inj v batch n p q : contiguous v batch n ->
  In p (pairs batch n) -> In q (pairs batch n) ->
  kv_addr v (fst p) (snd p) = kv_addr v (fst q) (snd q) -> p = q.
Proof.
  intros (E0 & E1 & E2 & E3). destruct p as [i j], q as [i' j']. rewrite !in_pairs. cbn [fst snd].
  unfold kv_addr. rewrite E2, E3. intros [Hi Hj] [Hi' Hj'] E.
  assert (i = i') by nia. subst i'. f_equal. lia.
Qed.

(** ** check_conv *)
Lemma rd_some {T} (l : list T) i d : i < length l -> rd l (Z.of_nat i) = Ok (nth i l d).
Proof.
  intros H. unfold rd. replace (Z.of_nat i <? 0)%Z with false by lia. rewrite Nat2Z.id.
  now rewrite (nth_error_nth' l d H).
Qed.

Lemma reduce_chunk_ok tol resid : forall c b, Forall (fun k => k < length resid) c ->
  reduce_chunk tol resid c b = Ok (b && forallb (fun k => dle (nth k resid NaN) tol) c).
Proof.
  induction c as [|k c IH]; intros b H; cbn.
  - now rewrite andb_true_r.
  - inversion H; subst. rewrite (rd_some _ _ NaN) by auto. cbn [bind]. rewrite IH by auto. now rewrite andb_assoc.
Qed.
Lemma reduce_join_ok tol resid : forall cs, Forall (fun k => k < length resid) (concat cs) ->
  reduce_join tol resid cs = Ok (forallb (fun k => dle (nth k resid NaN) tol) (concat cs)).
Proof.
  induction cs as [|c cs IH]; intros H; cbn; auto. cbn in H. apply Forall_app in H. destruct H as [H1 H2].
  rewrite reduce_chunk_ok by auto. cbn [bind]. rewrite IH by auto. cbn [bind andb]. now rewrite forallb_app.
Qed.

Lemma check_conv_ok chunks tol resid : distributes chunks (length resid) ->
  check_conv chunks tol resid = Ok tt /\ Forall (fun x => at_most x tol) resid \/
  check_conv chunks tol resid = Throw /\ Exists (fun x => ~ at_most x tol) resid.
Proof.
  intros HP. unfold check_conv. rewrite reduce_join_ok.
  2:{ apply Forall_forall. intros k Hk. apply (Permutation_in _ HP) in Hk. apply in_seq in Hk. lia. }
  cbn [bind]. destruct (forallb _ _) eqn:E; cbn [negb]; [left|right]; split; auto.
  - rewrite forallb_forall in E. apply Forall_forall. intros x Hx. apply (In_nth _ _ NaN) in Hx.
    destruct Hx as (k & Hk & <-). apply dle_iff. apply E. apply (Permutation_in _ (Permutation_sym HP)). apply in_seq. lia.
  - apply Exists_exists. assert (Ex : exists k, In k (concat chunks) /\ dle (nth k resid NaN) tol = false).
    { clear -E. induction (concat chunks) as [|k l IH]; [discriminate|]. cbn in E.
      destruct (dle (nth k resid NaN) tol) eqn:Ek; [|exists k; split; [now left|auto]].
      destruct IH as (k' & H1 & H2); auto. exists k'. split; auto. now right. }
    destruct Ex as (k & Hk & Ek). apply (Permutation_in _ HP) in Hk. apply in_seq in Hk.
    exists (nth k resid NaN). split; [apply nth_In; lia|]. rewrite <- dle_iff, Ek. discriminate.
Qed.

(** ** The log *)
Lemma compute_norm2_norm n x : compute_norm2 n x = norm n x.
Proof. unfold compute_norm2, norm. f_equal. apply Rsum_ext. intros r _. ring. Qed.
Lemma norm_rows n x y : same_rows n x y -> norm n x = norm n y.
Proof. intros H. unfold norm. f_equal. apply Rsum_ext. intros r Hr. now rewrite H. Qed.
Lemma residual_rows n A x x' b b' : same_rows n x x' -> same_rows n b b' ->
  residual n A x b = residual n A x' b'.
Proof.
  intros Hx Hb. unfold residual. apply norm_rows. intros r Hr. rewrite (Hb r Hr). f_equal.
  apply Rsum_ext. intros c Hc. now rewrite Hx.
Qed.
Lemma true_residual n A x b : compute_norm2 n (apply4 n 1 A x (-1) b) = residual n A x b.
Proof.
  rewrite compute_norm2_norm. unfold residual. apply norm_rows. intros r _. unfold apply4. ring.
Qed.

Lemma write_log_entry n A tol k a b x b' : same_rows n x (an_x a) -> same_rows n b' b ->
  entry n A tol k a b
    (write_log k (an_iters a) (an_resid a) (Fin (compute_norm2 n (apply4 n 1 (A k) x (-1) b')))
       (Fin (compute_norm2 n b')) tol).
Proof.
  intros Hx Hb. rewrite true_residual, compute_norm2_norm, (norm_rows n b' b Hb),
    (residual_rows n (A k) x (an_x a) b' b Hx Hb).
  unfold write_log. eexists. split; [reflexivity|].
  destruct (dle _ tol) eqn:E; cbn [negb]; [left|right]; (split; [|reflexivity]).
  - now apply dle_iff.
  - rewrite <- dle_iff, E. discriminate.
Qed.

Lemma save_loop_ok n A xs bs iters resid tol (ans : nat -> answer) (B : nat -> vector) batch :
  iters = map (fun k => an_iters (ans k)) (seq 0 batch) ->
  resid = map (fun k => an_resid (ans k)) (seq 0 batch) ->
  forall l, (forall k, In k l -> k < batch /\ same_rows n (xs k) (an_x (ans k)) /\ same_rows n (bs k) (B k)) ->
  exists lg, save_loop n A xs bs iters resid tol l = Ok lg /\ logs n A tol ans B l lg.
Proof.
  intros -> ->. induction l as [|k l IH]; intros H; cbn [save_loop].
  - exists []. split; auto. exists []. split; auto.
  - destruct (H k (or_introl eq_refl)) as (Hk & Hx & Hb).
    rewrite (rd_some _ _ 0%Z) by (rewrite map_length, seq_length; auto). cbn [bind].
    rewrite (rd_some _ _ NaN) by (rewrite map_length, seq_length; auto). cbn [bind].
    rewrite (nth_indep _ 0%Z (an_iters (ans 0))) by (rewrite map_length, seq_length; auto).
    rewrite (nth_indep (map (fun k0 => an_resid (ans k0)) (seq 0 batch)) NaN (an_resid (ans 0))) by (rewrite map_length, seq_length; auto).
    rewrite (map_nth (fun k => an_iters (ans k))), (map_nth (fun k => an_resid (ans k))), seq_nth by auto. cbn [Nat.add].
    destruct IH as (lg & E & es & El & HF); [intros; apply H; now right|]. rewrite E. cbn [bind].
    eexists. split; [reflexivity|]. rewrite El. eexists (_ :: es). split; [cbn [concat]; reflexivity|].
    constructor; auto. apply write_log_entry; auto.
Qed.
