(** Proofs about the triangular Bernstein polynomials (C70). *)
From Verif Require Import Lib DerivModel QuadModel QuadProofs FemModel FemMain MathModel RestrictProofs MappingModel MappingCyl PspModel PspSpec.
Open Scope R_scope.

Lemma order_length D : length (bernstein_order D) = ((D + 1) * (D + 2) / 2)%nat.
Proof.
  unfold bernstein_order.
  assert (G : forall n s, (s + n <= D + 1)%nat ->
    (2 * length (flat_map (fun i => map (fun j => (i, j)) (seq 0 (D + 1 - i))) (seq s n)) = n * (2 * (D + 1) - 2 * s + 1 - n))%nat).
  { induction n as [|n IH]; intros s H; cbn [seq flat_map]; [reflexivity|].
    rewrite app_length, map_length, seq_length. specialize (IH (S s) ltac:(lia)).
    set (w := (2 * (D + 1) - 2 * S s + 1 - n)%nat) in *. replace (2 * (D + 1) - 2 * s + 1 - S n)%nat with (S w) by (unfold w; lia).
    replace (S n * S w)%nat with (n * w + (n + w + 1))%nat by ring. rewrite Nat.mul_add_distr_l, IH. unfold w at 2. lia. }
  specialize (G (D + 1)%nat 0%nat ltac:(lia)).
  set (L := length _) in *. replace ((D + 1) * (D + 2))%nat with (L * 2)%nat by (rewrite Nat.mul_comm, G; f_equal; lia).
  rewrite Nat.div_mul by lia. reflexivity.
Qed.
(** the position of (i, j) *)
Definition order_pos (D i j : nat) : nat := (i * (2 * D + 3 - i) / 2 + j)%nat.
Lemma order_pos_half D i : (i <= D + 1)%nat -> (2 * (i * (2 * D + 3 - i) / 2) = i * (2 * D + 3 - i))%nat.
Proof.
  intros H. assert (E : ((i * (2 * D + 3 - i)) mod 2 = 0)%nat).
  { rewrite Nat.mul_mod by lia. assert (C : (i mod 2 = 0 \/ i mod 2 = 1)%nat) by (pose proof (Nat.mod_upper_bound i 2); lia).
    destruct C as [C|C].
    - rewrite C. reflexivity.
    - assert (Ci : exists q, i = (2 * q + 1)%nat) by (exists (i / 2)%nat; pose proof (Nat.div_mod i 2); lia).
      destruct Ci as [q Cq]. replace (2 * D + 3 - i)%nat with ((D + 1 - q) * 2)%nat by lia.
      rewrite Nat.mod_mul by lia. rewrite Nat.mul_0_r. reflexivity. }
  pose proof (Nat.div_mod (i * (2 * D + 3 - i)) 2). lia.
Qed.
Lemma order_nth D i j : (i + j <= D)%nat -> nth (order_pos D i j) (bernstein_order D) (0, 0)%nat = (i, j).
Proof.
  intros H. unfold bernstein_order.
  assert (G : forall n s i, (s + n = D + 1)%nat -> (s <= i)%nat -> (i + j <= D)%nat ->
    forall p, (2 * p = (i - s) * (2 * D + 3 - s - i) + 2 * j)%nat ->
    nth p (flat_map (fun i => map (fun j => (i, j)) (seq 0 (D + 1 - i))) (seq s n)) (0, 0)%nat = (i, j)).
  { clear i H. induction n as [|n IH]; intros s i Hs Hi Hj p Hp; [lia|]. cbn [seq flat_map].
    destruct (Nat.eq_dec i s) as [->|N].
    - rewrite Nat.sub_diag, Nat.mul_0_l in Hp. replace p with j by lia. rewrite app_nth1 by (rewrite map_length, seq_length; lia).
      rewrite nth_indep with (d' := (s, 0%nat)) by (rewrite map_length, seq_length; lia).
      rewrite (map_nth (fun j => (s, j))). rewrite seq_nth by lia. reflexivity.
    - set (w := (2 * D + 3 - S s - i)%nat). set (k := (i - S s)%nat).
      assert (E : (2 * p = 2 * (D + 1 - s) + k * w + 2 * j)%nat).
      { rewrite Hp. replace (i - s)%nat with (S k) by (unfold k; lia). replace (2 * D + 3 - s - i)%nat with (S w) by (unfold w; lia).
        replace (S k * S w)%nat with (k * w + (k + w + 1))%nat by ring. unfold k, w at 2. lia. }
      assert (B : (D + 1 - s <= p)%nat) by lia.
      rewrite app_nth2 by (rewrite map_length, seq_length; lia). rewrite map_length, seq_length.
      apply IH; lia. }
  apply (G (D + 1)%nat 0%nat i); try lia. unfold order_pos. rewrite Nat.sub_0_r.
  pose proof (order_pos_half D i ltac:(lia)). lia.
Qed.
Lemma order_in D i j : In (i, j) (bernstein_order D) <-> (i + j <= D)%nat.
Proof.
  unfold bernstein_order. rewrite in_flat_map. split.
  - intros [x [Hx Hj]]. apply in_seq in Hx. apply in_map_iff in Hj. destruct Hj as [y [E Hy]]. apply in_seq in Hy.
    injection E as -> ->. lia.
  - intros H. exists i. split; [apply in_seq; lia|]. apply in_map_iff. exists j. split; [reflexivity|apply in_seq; lia].
Qed.
Lemma fact_pos n : (0 < fact n)%nat. Proof. apply lt_O_fact. Qed.
(** products of factorials divide: i! j! k! (i+j+k)!-wise *)
Lemma fact_div a b : exists q, fact (a + b) = (q * (fact a * fact b))%nat /\ (1 <= q)%nat.
Proof.
  revert b. induction a as [|a IHa]; intros b.
  - exists 1%nat. cbn [Nat.add fact]. lia.
  - induction b as [|b IHb].
    + exists 1%nat. rewrite Nat.add_0_r. cbn [fact]. lia.
    + destruct IHb as [q1 [E1 P1]]. destruct (IHa (S b)) as [q2 [E2 P2]].
      exists (q1 + q2)%nat. split; [|lia].
      replace (S a + S b)%nat with (S (a + S b)) by lia.
      change (fact (S (a + S b))) with ((S (a + S b)) * fact (a + S b))%nat.
      replace (S a + b)%nat with (a + S b)%nat in E1 by lia.
      assert (F1 : fact (S b) = (S b * fact b)%nat) by reflexivity. assert (F2 : fact (S a) = (S a * fact a)%nat) by reflexivity.
      rewrite F1, F2 in *.
      assert (K1 : ((S b) * fact (a + S b) = q1 * ((S a * fact a) * (S b * fact b)))%nat) by (rewrite E1; ring).
      assert (K2 : ((S a) * fact (a + S b) = q2 * ((S a * fact a) * (S b * fact b)))%nat) by (rewrite E2; ring).
      rewrite (Nat.mul_add_distr_r q1 q2), <- K1, <- K2. ring.
Qed.
Lemma multinomial_exact D i j : (D <= 20)%nat -> (i + j <= D)%nat ->
  IZR (multinomial_coefficient D i j (D - i - j)) = INR (fact D) / (INR (fact i) * INR (fact j) * INR (fact (D - i - j))).
Proof.
  intros HD H. set (k := (D - i - j)%nat). assert (Nk : D = (i + (j + k))%nat) by (unfold k; lia). clearbody k.
  destruct (fact_div j k) as [q1 [E1 P1]]. destruct (fact_div i (j + k)) as [q2 [E2 P2]].
  assert (B20 : (Z.of_nat (fact D) < two64)%Z).
  { assert (fact D <= fact 20)%nat by (apply fact_le; lia). assert (Z.of_nat (fact 20) < two64)%Z; [|lia].
    rewrite <- (factorial_exact 20) by lia. vm_compute. reflexivity. }
  assert (ED : (fact D = q2 * q1 * (fact i * fact j * fact k))%nat) by (rewrite Nk, E2, E1; ring).
  pose proof (fact_pos i). pose proof (fact_pos j). pose proof (fact_pos k).
  assert (LE : (fact i * fact j * fact k <= fact D)%nat) by (rewrite ED; rewrite <- (Nat.mul_1_l (fact i * fact j * fact k)) at 1; apply Nat.mul_le_mono_r; nia).
  assert (LE2 : (fact i * fact j <= fact i * fact j * fact k)%nat) by (rewrite <- (Nat.mul_1_r (fact i * fact j)) at 1; apply Nat.mul_le_mono_l; lia).
  unfold multinomial_coefficient, mul64. rewrite !factorial_exact by lia.
  rewrite (Z.mod_small (Z.of_nat (fact i) * Z.of_nat (fact j))) by lia.
  rewrite Z.mod_small by lia.
  rewrite ED. rewrite !Nat2Z.inj_mul. rewrite Z.div_mul by nia.
  rewrite <- Nat2Z.inj_mul, <- INR_IZR_INZ. rewrite !mult_INR. field.
  repeat split; apply not_0_INR; lia.
Qed.
Lemma ipow_i_nat a n : (n <= 20)%nat -> ipow_i a (Z.of_nat n) = Ok (a ^ n).
Proof.
  intros H. rewrite ipow_i_spec by (unfold int_min, int_max; lia). f_equal. rewrite pow_powerRZ. reflexivity.
Qed.
(** the polynomial *)
Definition bern (D : nat) (l1 l2 l3 : R) (i j : nat) : R :=
  INR (fact D) / (INR (fact i) * INR (fact j) * INR (fact (D - i - j))) * l1 ^ i * l2 ^ j * l3 ^ (D - i - j).
Lemma bernstein_value_ok D l1 l2 l3 i j : (D <= 20)%nat -> (i + j <= D)%nat ->
  bernstein_value D l1 l2 l3 i j = Ok (bern D l1 l2 l3 i j).
Proof.
  intros HD H. unfold bernstein_value, bern. rewrite ipow_i_nat by lia. cbn [bind].
  rewrite multinomial_exact, !ipow_u_spec by lia. reflexivity.
Qed.
Lemma bernstein_eval_ok D t p : (D <= 20)%nat -> let b := cart_to_bary t p in
  bernstein_eval D t p = Ok (map (fun ij => bern D (b 0%nat) (b 1%nat) (b 2%nat) (fst ij) (snd ij)) (bernstein_order D)).
Proof.
  intros HD b. unfold bernstein_eval. apply map_res_map. intros [i j] Hx. apply order_in in Hx. cbn [fst snd].
  apply bernstein_value_ok; auto.
Qed.
(** the trinomial theorem *)
Lemma binomial_Rsum x y n : (x + y) ^ n = Rsum (n + 1) (fun i => INR (fact n) / (INR (fact i) * INR (fact (n - i))) * x ^ i * y ^ (n - i)).
Proof.
  rewrite binomial. rewrite Nat.add_1_r.
  assert (G : forall f m, sum_f_R0 f m = Rsum (S m) f).
  { intros f. induction m as [|m IH]; [cbn; ring|]. cbn [sum_f_R0]. rewrite IH. reflexivity. }
  rewrite G. apply Rsum_ext. intros i Hi. unfold C. reflexivity.
Qed.
Lemma lsum_flat (f : nat * nat -> R) (n : nat) (g : nat -> nat) :
  fold_right Rplus 0 (map f (flat_map (fun i => map (fun j => (i, j)) (seq 0 (g i))) (seq 0 n)))
  = Rsum n (fun i => Rsum (g i) (fun j => f (i, j))).
Proof.
  assert (A : forall l1 l2, fold_right Rplus 0 (l1 ++ l2) = fold_right Rplus 0 l1 + fold_right Rplus 0 l2).
  { induction l1 as [|a l1 IH]; intros l2; cbn; [ring|]. rewrite IH. ring. }
  assert (S1 : forall (h : nat -> R) m, fold_right Rplus 0 (map h (seq 0 m)) = Rsum m h).
  { intros h. induction m as [|m IH]; [reflexivity|]. rewrite seq_S, map_app, A, IH. cbn. ring. }
  induction n as [|n IH]; [reflexivity|]. rewrite seq_S, flat_map_app, map_app, A, IH. cbn [flat_map Rsum Nat.add].
  rewrite app_nil_r, map_map, S1. reflexivity.
Qed.
Lemma bern_sum D l1 l2 l3 :
  fold_right Rplus 0 (map (fun ij => bern D l1 l2 l3 (fst ij) (snd ij)) (bernstein_order D)) = (l1 + l2 + l3) ^ D.
Proof.
  unfold bernstein_order. rewrite lsum_flat. cbn [fst snd].
  replace (l1 + l2 + l3) with (l1 + (l2 + l3)) by ring. rewrite binomial_Rsum.
  apply Rsum_ext. intros i Hi. rewrite (binomial_Rsum l2 l3 (D - i)).
  replace (D - i + 1)%nat with (D + 1 - i)%nat by lia. rewrite <- Rsum_scal. apply Rsum_ext. intros j Hj.
  unfold bern. field. repeat split; apply INR_fact_neq_0.
Qed.
Lemma bern_nonneg D l1 l2 l3 i j : 0 <= l1 -> 0 <= l2 -> 0 <= l3 -> 0 <= bern D l1 l2 l3 i j.
Proof.
  intros. unfold bern. assert (P : forall n, 0 < INR (fact n)) by (intros; apply lt_0_INR, lt_O_fact).
  repeat apply Rmult_le_pos; try (apply pow_le; assumption).
  - left; apply P.
  - left. apply Rinv_0_lt_compat. repeat apply Rmult_lt_0_compat; apply P.
Qed.
