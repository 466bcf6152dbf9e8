(** Proofs about the Lagrange bases. *)
From Verif Require Import LagrangeModel LagrangeSpec.
From Coq Require Import Lia Lra ZifyBool Permutation.
Open Scope R_scope.

(** ** Polynomials *)
Lemma peval_factor p : forall a, exists q, length q = pred (length p) /\
  forall t, peval p t = peval p a + (t - a) * peval q t.
Proof.
  induction p as [|c p IH]; intros a.
  - exists []. split; auto. intros t. simpl. ring.
  - destruct p as [|c' p'].
    + exists []. split; auto. intros t. simpl. ring.
    + destruct (IH a) as [q [HL H]]. exists (peval (c' :: p') a :: q). split; [simpl in *; lia|].
      intros t. change (peval (c :: c' :: p') t) with (c + t * peval (c' :: p') t).
      change (peval (c :: c' :: p') a) with (c + a * peval (c' :: p') a).
      change (peval (peval (c' :: p') a :: q) t) with (peval (c' :: p') a + t * peval q t).
      rewrite (H t). ring.
Qed.
Lemma peval_roots n : forall p xs, (length p <= n)%nat -> NoDup xs -> length xs = n ->
  (forall x, In x xs -> peval p x = 0) -> forall t, peval p t = 0.
Proof.
  induction n as [|n IH]; intros p xs HP HN HX HR t.
  - destruct p; [reflexivity|simpl in HP; lia].
  - destruct xs as [|a xs]; [simpl in HX; lia|]. destruct (peval_factor p a) as [q [HL H]].
    rewrite (H t), (HR a) by (left; auto). inversion HN; subst.
    rewrite (IH q xs); [ring| lia|auto|simpl in HX; lia|].
    intros x Hx. assert (x <> a) by (intros ->; tauto).
    pose proof (H x) as E. rewrite (HR x), (HR a) in E by (simpl; auto).
    assert ((x - a) * peval q x = 0) by lra. apply Rmult_integral in H1. destruct H1; [lra|auto].
Qed.

Definition poly_fun (n : nat) (f : R -> R) : Prop := exists p, (length p <= n)%nat /\ forall t, f t = peval p t.
Lemma padd_length p q : length (padd p q) = max (length p) (length q).
Proof. revert q. induction p as [|a p IH]; intros [|c q]; simpl; auto. Qed.
Lemma padd_eval p q t : peval (padd p q) t = peval p t + peval q t.
Proof. revert q. induction p as [|a p IH]; intros [|c q]; simpl; try ring. rewrite IH. ring. Qed.
Lemma pscal_eval c p t : peval (map (Rmult c) p) t = c * peval p t.
Proof. induction p as [|a p IH]; simpl; [ring|]. rewrite IH. ring. Qed.
Lemma pf_add n f g : poly_fun n f -> poly_fun n g -> poly_fun n (fun t => f t + g t).
Proof.
  intros [p [Lp Hp]] [q [Lq Hq]]. exists (padd p q). split; [rewrite padd_length; lia|].
  intros t. rewrite padd_eval, Hp, Hq. reflexivity.
Qed.
Lemma pf_scal n c f : poly_fun n f -> poly_fun n (fun t => c * f t).
Proof. intros [p [Lp Hp]]. exists (map (Rmult c) p). split; [rewrite map_length; auto|]. intros t. rewrite pscal_eval, Hp. reflexivity. Qed.
Lemma pf_le n m f : (n <= m)%nat -> poly_fun n f -> poly_fun m f.
Proof. intros H [p [Lp Hp]]. exists p. split; [lia|auto]. Qed.
Lemma pf_ext n f g : (forall t, f t = g t) -> poly_fun n f -> poly_fun n g.
Proof. intros H [p [Lp Hp]]. exists p. split; auto. intros t. rewrite <- H. auto. Qed.
Lemma pf_const n c : poly_fun (S n) (fun _ => c).
Proof. exists [c]. split; [simpl; lia|]. intros t. simpl. ring. Qed.
Lemma pf_lin n a f : poly_fun n f -> poly_fun (S n) (fun t => f t * (t - a)).
Proof.
  intros [p [Lp Hp]]. exists (padd (0 :: p) (map (Rmult (- a)) p)). split.
  - rewrite padd_length, map_length. cbn [length]. lia.
  - intros t. rewrite padd_eval, pscal_eval, Hp. simpl. ring.
Qed.
Lemma pf_zero n : poly_fun n (fun _ => 0).
Proof. exists []. split; [simpl; lia|]. reflexivity. Qed.
Lemma pf_sum n m f : (forall i, (i < m)%nat -> poly_fun n (f i)) -> poly_fun n (fun t => Rsum m (fun i => f i t)).
Proof.
  induction m as [|m IH]; intros H; [apply pf_zero|]. cbn [Rsum]. apply pf_add; [apply IH; auto|apply H; auto].
Qed.

(** ** Lagrange polynomials *)
Lemma prod_upto_ext n f g : (forall i, (i < n)%nat -> f i = g i) -> prod_upto n f = prod_upto n g.
Proof. induction n; intros H; simpl; auto. rewrite IHn, H; auto. Qed.
Lemma prod_upto_mul n f g : prod_upto n (fun i => f i * g i) = prod_upto n f * prod_upto n g.
Proof. induction n; simpl; [ring|]. rewrite IHn. ring. Qed.
Lemma prod_upto_zero n f k : (k < n)%nat -> f k = 0 -> prod_upto n f = 0.
Proof.
  induction n; intros H E; [lia|]. simpl. destruct (Nat.eq_dec k n) as [->|]; [rewrite E; ring|].
  rewrite IHn; [ring|lia|auto].
Qed.
Lemma prod_upto_nonzero n f : (forall i, (i < n)%nat -> f i <> 0) -> prod_upto n f <> 0.
Proof. induction n; intros H; simpl; [lra|]. apply Rmult_integral_contrapositive_currified; auto. Qed.
Lemma prod_upto_one n f : (forall i, (i < n)%nat -> f i = 1) -> prod_upto n f = 1.
Proof. induction n; intros H; simpl; auto. rewrite IHn, H by auto. ring. Qed.
Lemma prod_upto_inv n f : (forall i, (i < n)%nat -> f i <> 0) -> prod_upto n (fun i => / f i) = / prod_upto n f.
Proof.
  induction n; intros H; simpl; [lra|]. rewrite IHn by auto.
  rewrite Rinv_mult. reflexivity.
Qed.
Lemma prod_skip_upto n i f : prod_skip n i f = prod_upto n (fun j => if (i =? j)%nat then 1 else f j).
Proof. induction n; simpl; auto. destruct (i =? n)%nat; rewrite IHn; ring. Qed.
(** taking out one factor *)
Lemma prod_upto_take n f i : (i < n)%nat ->
  prod_upto n f = f i * prod_upto n (fun j => if (i =? j)%nat then 1 else f j).
Proof.
  induction n; intros H; [lia|]. simpl. destruct (Nat.eqb_spec i n).
  - subst. rewrite (prod_upto_ext n (fun j => if (n =? j)%nat then 1 else f j) f); [ring|].
    intros j Hj. destruct (Nat.eqb_spec n j); [lia|auto].
  - rewrite IHn by lia. ring.
Qed.

Section Nodes.
  Variable D : nat.
  Variable xs : nat -> R.
  Hypothesis distinct : forall i j, (i <= D)%nat -> (j <= D)%nat -> xs i = xs j -> i = j.

  Lemma lag_delta i k : (i <= D)%nat -> (k <= D)%nat ->
    lagrange_poly D xs i (xs k) = if (i =? k)%nat then 1 else 0.
  Proof.
    intros Hi Hk. unfold lagrange_poly. destruct (Nat.eqb_spec i k) as [->|N].
    - apply prod_upto_one. intros j Hj. destruct (Nat.eqb_spec k j); auto. field.
      intros C. apply n, distinct; auto; [lia|lra].
    - apply (prod_upto_zero _ _ k); [lia|]. destruct (Nat.eqb_spec i k); [tauto|]. unfold Rdiv. rewrite Rminus_diag_eq by auto. ring.
  Qed.
  Lemma lag_poly_fun i : (i <= D)%nat -> poly_fun (S D) (lagrange_poly D xs i).
  Proof.
    intros Hi. unfold lagrange_poly.
    assert (G : forall n, poly_fun (if (i <? n)%nat then n else S n)
              (fun x => prod_upto n (fun j => if (i =? j)%nat then 1 else (x - xs j) / (xs i - xs j)))).
    { induction n as [|n IH].
      - simpl. apply pf_const.
      - cbn [prod_upto]. destruct (Nat.eqb_spec i n) as [->|N].
        + rewrite (proj2 (Nat.ltb_lt n (S n))) by lia. rewrite (proj2 (Nat.ltb_ge n n)) in IH by lia.
          eapply pf_ext; [|exact IH]. intros t. simpl. ring.
        + replace (if (i <? S n)%nat then S n else S (S n)) with (S (if (i <? n)%nat then n else S n)).
          2:{ destruct (Nat.ltb_spec i n), (Nat.ltb_spec i (S n)); auto; lia. }
          eapply pf_ext; [|apply pf_scal with (c := / (xs i - xs n)); apply (pf_lin _ (xs n)); exact IH].
          intros t. simpl. unfold Rdiv. ring. }
    specialize (G (S D)). rewrite (proj2 (Nat.ltb_lt i (S D))) in G by lia. exact G.
  Qed.

  Lemma nodes_nodup : NoDup (map xs (seq 0 (S D))).
  Proof.
    assert (G : forall n, (n <= S D)%nat -> NoDup (map xs (seq 0 n))).
    { induction n; intros Hn; [constructor|]. rewrite seq_S, map_app. simpl.
      assert (NoDup (xs n :: map xs (seq 0 n))).
      { constructor; [|apply IHn; lia]. intros C. apply in_map_iff in C. destruct C as [j [E Hj]].
        apply in_seq in Hj. assert (j = n) by (apply distinct; lia || auto). lia. }
      apply (Permutation_NoDup (l := xs n :: map xs (seq 0 n))); auto.
      apply Permutation_cons_append. }
    apply G. lia.
  Qed.

  Lemma lag_exact p x : (length p <= S D)%nat ->
    Rsum (S D) (fun i => peval p (xs i) * lagrange_poly D xs i x) = peval p x.
  Proof.
    intros HP.
    assert (PF : poly_fun (S D) (fun t => Rsum (S D) (fun i => peval p (xs i) * lagrange_poly D xs i t) + -1 * peval p t)).
    { apply pf_add.
      - apply pf_sum. intros i Hi. apply pf_scal. apply lag_poly_fun. lia.
      - apply pf_scal. exists p. auto. }
    destruct PF as [q [Lq Hq]].
    assert (Z : forall t, peval q t = 0).
    { apply (peval_roots (S D) q (map xs (seq 0 (S D)))); auto using nodes_nodup.
      - rewrite map_length, seq_length. auto.
      - intros y Hy. apply in_map_iff in Hy. destruct Hy as [k [<- Hk]]. apply in_seq in Hk.
        rewrite <- Hq. rewrite (Rsum_single (S D) _ k); [|lia|].
        + rewrite lag_delta by lia. rewrite Nat.eqb_refl. ring.
        + intros j Hj Hjk. rewrite lag_delta by lia. destruct (Nat.eqb_spec j k); [tauto|ring]. }
    specialize (Hq x). rewrite Z in Hq. lra.
  Qed.
  Lemma lag_sum_one x : Rsum (S D) (fun i => lagrange_poly D xs i x) = 1.
  Proof.
    transitivity (peval [1] x); [|simpl; ring]. rewrite <- lag_exact by (simpl; lia).
    apply Rsum_ext. intros i Hi. simpl. ring.
  Qed.

  (** the barycentric formula *)
  Lemma lag_weight i x : (i <= D)%nat -> (forall j, (j <= D)%nat -> x <> xs j) ->
    node_weight D xs i / (x - xs i) = lagrange_poly D xs i x / prod_upto (S D) (fun j => x - xs j).
  Proof.
    intros Hi Hx. unfold node_weight, lagrange_poly. rewrite prod_skip_upto.
    rewrite (prod_upto_take (S D) (fun j => x - xs j) i) by lia.
    rewrite (prod_upto_ext (S D) (fun j => if (i =? j)%nat then 1 else (x - xs j) / (xs i - xs j))
      (fun j => (if (i =? j)%nat then 1 else x - xs j) * / (if (i =? j)%nat then 1 else xs i - xs j))).
    2:{ intros j Hj. destruct (i =? j)%nat; unfold Rdiv; [lra|reflexivity]. }
    assert (N1 : forall j, (j < S D)%nat -> (if (i =? j)%nat then 1 else xs i - xs j) <> 0).
    { intros j Hj. destruct (Nat.eqb_spec i j); [lra|]. intros C. apply n, distinct; auto; [lia|lra]. }
    assert (N2 : forall j, (j < S D)%nat -> (if (i =? j)%nat then 1 else x - xs j) <> 0).
    { intros j Hj. destruct (Nat.eqb_spec i j); [lra|]. intros C. apply (Hx j); [lia|lra]. }
    rewrite prod_upto_mul, prod_upto_inv by auto.
    pose proof (prod_upto_nonzero (S D) _ N1). pose proof (prod_upto_nonzero (S D) _ N2).
    assert (x - xs i <> 0) by (intros C; apply (Hx i); [auto|lra]).
    field. auto.
  Qed.
  Lemma bary_denominator x : (forall j, (j <= D)%nat -> x <> xs j) ->
    Rsum (S D) (fun j => node_weight D xs j / (x - xs j)) = / prod_upto (S D) (fun j => x - xs j).
  Proof.
    intros Hx. rewrite (Rsum_ext _ _ (fun j => lagrange_poly D xs j x * / prod_upto (S D) (fun j => x - xs j))).
    - rewrite Rsum_scal_r, lag_sum_one. ring.
    - intros i Hi. apply lag_weight; [lia|auto].
  Qed.
  Lemma bary_value i x : (i <= D)%nat -> (forall j, (j <= D)%nat -> x <> xs j) ->
    node_weight D xs i / (x - xs i) / Rsum (S D) (fun j => node_weight D xs j / (x - xs j)) = lagrange_poly D xs i x.
  Proof.
    intros Hi Hx. rewrite bary_denominator, lag_weight by auto.
    assert (prod_upto (S D) (fun j => x - xs j) <> 0).
    { apply prod_upto_nonzero. intros j Hj C. apply (Hx j); [lia|lra]. }
    field. auto.
  Qed.
  Lemma bary_values x : (forall j, (j <= D)%nat -> x <> xs j) ->
    barycentric_values D (node_weight D xs) xs x = map (fun i => lagrange_poly D xs i x) (seq 0 (S D)).
  Proof.
    intros Hx. unfold barycentric_values. apply map_ext_in. intros i Hi. apply in_seq in Hi.
    apply bary_value; [lia|auto].
  Qed.
  Lemma node_values_spec k : (k <= D)%nat ->
    node_values D (Z.of_nat k) = map (fun i => lagrange_poly D xs i (xs k)) (seq 0 (S D)).
  Proof.
    intros Hk. unfold node_values. apply map_ext_in. intros i Hi. apply in_seq in Hi.
    rewrite lag_delta by lia. destruct (Z.eqb_spec (Z.of_nat i) (Z.of_nat k)), (Nat.eqb_spec i k); auto; lia.
  Qed.
End Nodes.

(** affine change of nodes *)
Lemma lag_affine D a s i x : s <> 0 -> (i <= D)%nat ->
  lagrange_poly D INR i x = lagrange_poly D (fun j => a + INR j * s) i (a + x * s).
Proof.
  intros Hs Hi. unfold lagrange_poly. apply prod_upto_ext. intros j Hj.
  destruct (Nat.eqb_spec i j); auto.
  assert (INR i - INR j <> 0). { intros C. apply n. apply INR_eq. lra. }
  field. repeat split; auto.
  replace (a + INR i * s - (a + INR j * s)) with ((INR i - INR j) * s) by ring.
  apply Rmult_integral_contrapositive_currified; auto.
Qed.
Lemma INR_distinct D i j : (i <= D)%nat -> (j <= D)%nat -> INR i = INR j -> i = j.
Proof. intros _ _. apply INR_eq. Qed.
