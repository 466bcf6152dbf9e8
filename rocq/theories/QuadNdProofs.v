From Verif Require Import QuadModel QuadSpec QuadProofs.
From Coq Require Import ZifyBool.
Open Scope R_scope.
Local Opaque Nat.div Nat.modulo.

(** ** Mixed radix *)
Lemma Rsum_mul n m (h : nat -> nat -> R) :
  Rsum (n * m) (fun k => h (k / m)%nat (k mod m)%nat) = Rsum n (fun i => Rsum m (fun j => h i j)).
Proof.
  destruct (Nat.eq_dec m 0) as [->|Hm].
  { rewrite Nat.mul_0_r. simpl. symmetry. apply Rsum_zero. reflexivity. }
  induction n as [|n IH]; [reflexivity|].
  cbn [Rsum]. rewrite <- IH.
  replace (S n * m)%nat with (n * m + m)%nat by lia.
  rewrite Rsum_app. f_equal. apply Rsum_ext. intros j Hj.
  f_equal.
  - rewrite Nat.div_add_l by lia. rewrite Nat.div_small; lia.
  - rewrite Nat.add_comm, Nat.mod_add by lia. apply Nat.mod_small; lia.
Qed.

Lemma nd_sum_ext g f h : (forall i, f i = h i) -> nd_sum g f = nd_sum g h.
Proof.
  revert f h. induction g as [|[fr n] g IH]; intros f h H; simpl; auto.
  apply Rsum_ext. intros k _. apply IH. auto.
Qed.

Lemma nd_sum_ext_in g f h : (forall i, in_nd g i -> f i = h i) -> nd_sum g f = nd_sum g h.
Proof.
  revert f h. induction g as [|[fr n] g IH]; intros f h H; simpl.
  - apply H. simpl; auto.
  - apply Rsum_ext. intros k Hk. apply IH. intros i Hi. apply H. simpl. split; [lia|auto].
Qed.

Lemma flat_sum g (f : nd_idx -> R) :
  Rsum (nd_size g) (fun k => f (to_discrete_element k g)) = nd_sum g f.
Proof.
  revert f. induction g as [|[fr n] g IH]; intros f; cbn [nd_size nd_sum to_discrete_element].
  - cbn [Rsum]. ring.
  - rewrite (Rsum_mul n (nd_size g)
      (fun i j => f ((fr + Z.of_nat i)%Z :: to_discrete_element j g))).
    apply Rsum_ext. intros i _. exact (IH (fun t => f ((fr + Z.of_nat i)%Z :: t))).
Qed.

Lemma tde_in g k : (k < nd_size g)%nat -> in_nd g (to_discrete_element k g).
Proof.
  revert k. induction g as [|[fr n] g IH]; intros k H; cbn [nd_size to_discrete_element in_nd] in *; auto.
  assert (nd_size g <> 0)%nat by (intros E; rewrite E in H; lia).
  split.
  - assert (k / nd_size g < n)%nat by (apply Nat.div_lt_upper_bound; lia). lia.
  - apply IH. apply Nat.mod_upper_bound; auto.
Qed.

Lemma tde_surj g i : in_nd g i -> exists k, (k < nd_size g)%nat /\ to_discrete_element k g = i.
Proof.
  revert i. induction g as [|[fr n] g IH]; intros [|z i] H; cbn [nd_size to_discrete_element in_nd] in *;
    try contradiction.
  - exists O. split; auto.
  - destruct H as [Hz Hi]. destruct (IH i Hi) as [k [Hk Ek]].
    exists (Z.to_nat (z - fr) * nd_size g + k)%nat. split.
    + assert (Z.to_nat (z - fr) < n)%nat by lia. nia.
    + rewrite Nat.div_add_l by lia. rewrite (Nat.div_small k) by lia.
      rewrite (Nat.add_comm _ k), Nat.mod_add by lia. rewrite (Nat.mod_small k) by lia.
      rewrite Ek. f_equal. lia.
Qed.

Lemma tde_inj g k k' : (k < nd_size g)%nat -> (k' < nd_size g)%nat ->
  to_discrete_element k g = to_discrete_element k' g -> k = k'.
Proof.
  revert k k'. induction g as [|[fr n] g IH]; intros k k' H H' E; cbn [nd_size to_discrete_element] in *.
  - lia.
  - injection E as E1 E2.
    assert (Hm : nd_size g <> 0%nat) by (intros E; rewrite E in H; lia).
    apply IH in E2; try (apply Nat.mod_upper_bound; auto).
    rewrite (Nat.div_mod k (nd_size g)), (Nat.div_mod k' (nd_size g)) by auto.
    rewrite E2. assert (k / nd_size g = k' / nd_size g)%nat by lia. congruence.
Qed.

Lemma transform_reduce_sum g f acc : transform_reduce g f acc = acc + nd_sum g f.
Proof.
  revert f acc. induction g as [|[fr n] g IH]; intros f acc; cbn [transform_reduce nd_sum]; [reflexivity|].
  induction n as [|n IHn]; cbn [for_loop Rsum]; [ring|].
  rewrite IHn, IH. ring.
Qed.

Theorem quadrature_is_sum g coeff f : quadrature g coeff f = nd_sum g (fun i => coeff i * f i).
Proof. unfold quadrature. rewrite transform_reduce_sum. ring. Qed.

Lemma nd_sum_linear g a b f h :
  nd_sum g (fun i => a * f i + b * h i) = a * nd_sum g f + b * nd_sum g h.
Proof.
  revert f h. induction g as [|[fr n] g IH]; intros f h; cbn [nd_sum]; [reflexivity|].
  rewrite <- !Rsum_scal, <- Rsum_plus. apply Rsum_ext. intros k _.
  exact (IH (fun t => f ((fr + Z.of_nat k)%Z :: t)) (fun t => h ((fr + Z.of_nat k)%Z :: t))).
Qed.

Theorem quadrature_linear g coeff a b f h :
  quadrature g coeff (fun i => a * f i + b * h i) = a * quadrature g coeff f + b * quadrature g coeff h.
Proof.
  rewrite !quadrature_is_sum, <- nd_sum_linear. apply nd_sum_ext. intros; ring.
Qed.

Lemma nd_sum_scal g a f : nd_sum g (fun i => a * f i) = a * nd_sum g f.
Proof.
  rewrite (nd_sum_ext g _ (fun i => a * f i + 0 * f i)) by (intros; ring).
  rewrite nd_sum_linear. ring.
Qed.

Theorem product_rule g cs fs : length cs = length g -> length fs = length g ->
  quadrature g (quadrature_coeffs_nd cs) (nd_prod fs) = prod_of_sums g cs fs.
Proof.
  rewrite quadrature_is_sum.
  revert cs fs. induction g as [|[fr n] g IH]; intros [|c cs] [|f fs] Hc Hf; simpl in Hc, Hf; try lia.
  - simpl. ring.
  - cbn [nd_sum prod_of_sums quadrature_coeffs_nd nd_prod].
    rewrite <- Rsum_scal_r. apply Rsum_ext. intros k _.
    rewrite (nd_sum_ext g _ (fun t => (c (fr + Z.of_nat k)%Z * f (fr + Z.of_nat k)%Z) *
        (quadrature_coeffs_nd cs t * nd_prod fs t))) by (intros; ring).
    rewrite nd_sum_scal, IH by lia. reflexivity.
Qed.

(** ** Batched operator *)
Lemma batched_value gb gq coeff f result i :
  (in_nd gb i -> batched_quadrature gb gq coeff f result i = nd_sum gq (fun iq => coeff iq * f i iq)) /\
  (~ in_nd gb i -> batched_quadrature gb gq coeff f result i = result i).
Proof.
  unfold batched_quadrature.
  set (body := fun idx result0 => _).
  assert (T : forall ib, for_loop (nd_size gq) (fun t sum =>
          let iq := to_discrete_element t gq in sum + coeff iq * f ib iq) 0
        = nd_sum gq (fun iq => coeff iq * f ib iq)).
  { intros ib. cbv zeta.
    rewrite (for_loop_acc (nd_size gq)
       (fun t => coeff (to_discrete_element t gq) * f ib (to_discrete_element t gq)) 0).
    rewrite (flat_sum gq (fun iq => coeff iq * f ib iq)). ring. }
  assert (I : forall n, (n <= nd_size gb)%nat ->
     ((exists k, (k < n)%nat /\ to_discrete_element k gb = i) ->
        for_loop n body result i = nd_sum gq (fun iq => coeff iq * f i iq)) /\
     (~ (exists k, (k < n)%nat /\ to_discrete_element k gb = i) -> for_loop n body result i = result i)).
  { induction n as [|n IH]; intros Hn; cbn [for_loop].
    - split; [intros [k [Hk _]]; lia|auto].
    - destruct (IH ltac:(lia)) as [IH1 IH2]. unfold body at 1 3.
      destruct (list_eq_dec Z.eq_dec i (to_discrete_element n gb)) as [->|Hne].
      + split; [intros _; rewrite T; reflexivity|].
        intros H. exfalso. apply H. exists n. split; auto.
      + split.
        * intros [k [Hk Ek]]. apply IH1. exists k. split; auto.
          destruct (Nat.eq_dec k n); [subst; congruence|lia].
        * intros H. apply IH2. intros [k [Hk Ek]]. apply H. exists k. split; auto. }
  destruct (I (nd_size gb) (le_n _)) as [I1 I2]. split; intros H.
  - apply I1. apply tde_surj; auto.
  - apply I2. intros [k [Hk Ek]]. apply H. rewrite <- Ek. apply tde_in; auto.
Qed.

Theorem batched_is_slicewise gb gq coeff f result i :
  (in_nd gb i -> batched_quadrature gb gq coeff f result i = quadrature gq coeff (f i)) /\
  (~ in_nd gb i -> batched_quadrature gb gq coeff f result i = result i).
Proof.
  destruct (batched_value gb gq coeff f result i) as [A B]. split; auto.
  intros H. rewrite quadrature_is_sum. auto.
Qed.

(** ** Volume coefficients *)
Theorem volume_rule g coeff coord jac f :
  quadrature g (coeffs_on_mapping coord jac coeff) f
  = quadrature g coeff (fun i => f i * Rabs (jac (coord i))).
Proof.
  rewrite !quadrature_is_sum. apply nd_sum_ext. intros i. unfold coeffs_on_mapping. ring.
Qed.

(** ** Polynomials *)
Lemma peval_padd p q t : peval (padd p q) t = peval p t + peval q t.
Proof. revert q; induction p as [|a p IH]; intros [|b q]; simpl; try ring. rewrite IH. ring. Qed.
Lemma peval_scal c p t : peval (map (Rmult c) p) t = c * peval p t.
Proof. induction p as [|a p IH]; simpl; [ring|]. rewrite IH. ring. Qed.
Lemma peval_comp p c l s : peval (affine_comp p c l) s = peval p (c + l * s).
Proof.
  induction p as [|a p IH]; [reflexivity|]. cbn [affine_comp peval].
  rewrite !peval_padd. cbn [peval]. rewrite !peval_scal, IH. ring.
Qed.
Lemma padd_length p q : length (padd p q) = max (length p) (length q).
Proof. revert q; induction p as [|a p IH]; intros [|b q]; simpl; auto. Qed.
Lemma comp_length p c l : length (affine_comp p c l) = length p.
Proof.
  induction p as [|a p IH]; [reflexivity|]. cbn [affine_comp].
  rewrite !padd_length. cbn [length]. rewrite !map_length, IH. lia.
Qed.

Lemma dpl_affine F F' c l s : derivable_pt_lim F (c + l * s) F' ->
  derivable_pt_lim (fun s => F (c + l * s)) s (F' * l).
Proof.
  intros H. apply (derivable_pt_lim_comp (fun s => c + l * s) F s l F'); auto.
  eapply dpl_eq.
  - apply (derivable_pt_lim_plus (fun _ => c) (fun s => l * s)); [apply derivable_pt_lim_const|].
    apply (derivable_pt_lim_scal (fun s => s) l s 1). apply derivable_pt_lim_id.
  - ring.
Qed.

Lemma norm1_nonneg p : 0 <= norm1 p.
Proof. unfold norm1. induction p as [|a p IH]; simpl; [lra|]. pose proof (Rabs_pos a). lra. Qed.

Lemma cell_accuracy weight pos d eps p F x0 x1 : rule_accuracy weight pos d eps ->
  (length p <= d)%nat -> x0 < x1 -> antiderivative_on F (peval p) x0 x1 ->
  let l := 0.5 * (x1 - x0) in let c := 0.5 * (x0 + x1) in
  Rabs (Rsum (length pos) (fun j => l * nth j weight 0 * peval p (c + l * nth j pos 0)) - (F x1 - F x0))
  <= eps * (l * norm1 (affine_comp p c l)).
Proof.
  intros Hr Hp Hx HF l c.
  assert (Hl : 0 < l) by (unfold l; lra).
  specialize (Hr (affine_comp p c l) (fun s => F (c + l * s) * / l)).
  rewrite comp_length in Hr. specialize (Hr Hp).
  assert (A : antiderivative_on (fun s => F (c + l * s) * / l) (peval (affine_comp p c l)) (-1) 1).
  { intros s Hs. rewrite peval_comp. eapply dpl_eq.
    - apply (derivable_pt_lim_scal_right (fun s => F (c + l * s)) s (peval p (c + l * s) * l) (/ l)).
      apply dpl_affine. apply HF. unfold c, l. nra.
    - field. lra. }
  specialize (Hr A). clear A.
  replace (c + l * 1) with x1 in Hr by (unfold c, l; lra).
  replace (c + l * -1) with x0 in Hr by (unfold c, l; lra).
  match goal with |- Rabs ?e <= _ => replace e with (l *
    (Rsum (length pos) (fun j => nth j weight 0 * peval (affine_comp p c l) (nth j pos 0)) - (F x1 * / l - F x0 * / l))) end.
  - rewrite Rabs_mult, (Rabs_pos_eq l) by lra.
    replace (eps * (l * norm1 (affine_comp p c l))) with (l * (eps * norm1 (affine_comp p c l))) by ring.
    apply Rmult_le_compat_l; lra.
  - rewrite Rmult_minus_distr_l. f_equal; [|field; lra].
    rewrite <- Rsum_scal. apply Rsum_ext. intros j _. rewrite peval_comp. ring.
Qed.

(** ** Composite Gauss-Legendre *)
Lemma gl_sampling_nth pos edges i j : (S i < length edges)%nat -> (j < length pos)%nat ->
  nth (i * length pos + j) (gl_sampling pos edges) 0
  = 0.5 * (nth i edges 0 + nth (S i) edges 0) + gl_cell_half_length edges i * nth j pos 0.
Proof.
  revert i. induction edges as [|x0 edges IH]; intros i Hi Hj; [simpl in Hi; lia|].
  destruct edges as [|x1 edges]; [simpl in Hi; lia|].
  cbn [gl_sampling]. unfold gl_sampling_on_cell.
  destruct i as [|i].
  - rewrite app_nth1 by (rewrite map_length; simpl; lia).
    cbn [Nat.mul Nat.add].
    rewrite (nth_indep _ 0 ((fun p => 0.5 * (x0 + x1) + 0.5 * (x1 - x0) * p) 0))
      by (rewrite map_length; auto).
    rewrite (map_nth (fun p => 0.5 * (x0 + x1) + 0.5 * (x1 - x0) * p)). reflexivity.
  - rewrite app_nth2 by (rewrite map_length; simpl; lia).
    rewrite map_length. replace (S i * length pos + j - length pos)%nat with (i * length pos + j)%nat by (simpl; lia).
    etransitivity; [apply (IH i); simpl in *; lia|]. reflexivity.
Qed.

Lemma gl_sampling_length pos edges : (1 <= length edges)%nat ->
  length (gl_sampling pos edges) = gl_size (length pos) edges.
Proof.
  unfold gl_size. induction edges as [|x0 [|x1 edges] IH]; intros H; [simpl in H; lia|reflexivity|].
  cbn [gl_sampling]. rewrite app_length. unfold gl_sampling_on_cell. rewrite map_length.
  specialize (IH ltac:(simpl; lia)). cbn [gl_sampling] in IH. etransitivity; [apply f_equal, IH|].
  simpl. rewrite Nat.sub_0_r. lia.
Qed.

Theorem gl_composite weight pos d eps edges p F :
  length weight = length pos -> rule_accuracy weight pos d eps -> (length p <= d)%nat ->
  increasing edges -> (2 <= length edges)%nat ->
  antiderivative_on F (peval p) (nth 0 edges 0) (last edges 0) ->
  length (gl_sampling pos edges) = gl_size (length pos) edges /\
  Rabs (Rsum (gl_size (length pos) edges)
          (fun k => gl_coefficient weight edges k * peval p (nth k (gl_sampling pos edges) 0))
        - (F (last edges 0) - F (nth 0 edges 0))) <= eps * local_size p edges.
Proof.
  intros Hw Hr Hp Hinc Hn HF. split; [apply gl_sampling_length; lia|].
  unfold gl_size, gl_coefficient. rewrite Hw.
  destruct (Nat.eq_dec (length pos) 0) as [Hz|Hz].
  { rewrite Hz, Nat.mul_0_r. cbn [Rsum].
    assert (Hlast : last edges 0 = nth (length edges - 1) edges 0).
    { clear. induction edges as [|a [|b e] IH]; [reflexivity|reflexivity|].
      change (last (a :: b :: e) 0) with (last (b :: e) 0). rewrite IH. simpl. rewrite Nat.sub_0_r. reflexivity. }
    rewrite Hlast in *.
    assert (X : forall i, (i <= length edges - 1)%nat ->
       Rabs (0 - (F (nth i edges 0) - F (nth 0 edges 0))) <= eps * Rsum i (fun i =>
    gl_cell_half_length edges i *
    norm1 (affine_comp p (0.5 * (nth i edges 0 + nth (S i) edges 0)) (gl_cell_half_length edges i)))).
    { induction i as [|i IH]; intros Hi.
      - cbn [Rsum]. unfold Rminus at 2. rewrite Rplus_opp_r, Rminus_0_r, Rabs_R0. lra.
      - specialize (IH ltac:(lia)).
        assert (C := cell_accuracy weight pos d eps p F (nth i edges 0) (nth (S i) edges 0) Hr Hp).
        cbv zeta in C. rewrite Hz in C. cbn [Rsum] in C |- *.
        fold (gl_cell_half_length edges i) in C. rewrite Rmult_plus_distr_l.
        replace (0 - (F (nth (S i) edges 0) - F (nth 0 edges 0))) with
          ((0 - (F (nth i edges 0) - F (nth 0 edges 0))) + (0 - (F (nth (S i) edges 0) - F (nth i edges 0)))) by ring.
        eapply Rle_trans; [apply Rabs_triang|]. apply Rplus_le_compat; [exact IH|].
        apply C.
        + apply Hinc. lia.
        + eapply antiderivative_sub; [exact HF| |].
          * destruct i; [lra|]. left. apply Hinc. lia.
          * destruct (Nat.eq_dec (S i) (length edges - 1)) as [->|]; [lra|]. left. apply Hinc. lia. }
    apply X. lia. }
  rewrite (Rsum_ext _ _ (fun k => (fun i j =>
     gl_cell_half_length edges i * nth j weight 0 *
       peval p (nth (i * length pos + j) (gl_sampling pos edges) 0)) (k / length pos)%nat (k mod length pos)%nat)).
  2:{ intros k Hk. cbv beta. do 3 f_equal.
      rewrite Nat.mul_comm. apply Nat.div_mod; auto. }
  rewrite (Rsum_mul _ _ (fun i j =>
     gl_cell_half_length edges i * nth j weight 0 *
       peval p (nth (i * length pos + j) (gl_sampling pos edges) 0))).
  assert (Hlast : last edges 0 = nth (length edges - 1) edges 0).
  { clear. induction edges as [|a [|b e] IH]; [reflexivity|reflexivity|].
    change (last (a :: b :: e) 0) with (last (b :: e) 0). rewrite IH. simpl. rewrite Nat.sub_0_r. reflexivity. }
  rewrite Hlast in *. unfold local_size.
  rewrite (Rsum_ext _ _ (fun i => Rsum (length pos) (fun j =>
     gl_cell_half_length edges i * nth j weight 0 *
       peval p (0.5 * (nth i edges 0 + nth (S i) edges 0) + gl_cell_half_length edges i * nth j pos 0)))).
  2:{ intros i Hi. apply Rsum_ext. intros j Hj. rewrite gl_sampling_nth by lia. reflexivity. }
  rewrite <- (Rsum_telescope (length edges - 1) (fun i => F (nth i edges 0))).
  rewrite <- Rsum_minus, <- Rsum_scal.
  assert (X : forall n (a b : nat -> R), (forall i, (i < n)%nat -> Rabs (a i) <= b i) ->
     Rabs (Rsum n a) <= Rsum n b).
  { clear. induction n as [|n IH]; intros a b H; cbn [Rsum]; [rewrite Rabs_R0; lra|].
    eapply Rle_trans; [apply Rabs_triang|]. apply Rplus_le_compat; auto. }
  apply X. intros i Hi.
  apply (cell_accuracy weight pos d eps p F (nth i edges 0) (nth (S i) edges 0) Hr Hp).
  - apply Hinc. lia.
  - eapply antiderivative_sub; [exact HF| |].
    + destruct i; [lra|]. left. apply Hinc. lia.
    + destruct (Nat.eq_dec (S i) (length edges - 1)) as [->|]; [lra|]. left. apply Hinc. lia.
Qed.

(** ** The tables *)
Definition zmoment (w p : list Z) (k : nat) : Z :=
  fold_right Z.add 0%Z (map (fun wp => fst wp * snd wp ^ Z.of_nat k)%Z (combine w p)).
(** |moment_k - integral of t^k| <= 10^-24, scaled to integers *)
Definition moment_ok (w p : list Z) (k : nat) : bool :=
  let s := (gl_scale ^ Z.of_nat (S k))%Z in
  let i := if Nat.even k then 2%Z else 0%Z in
  (Z.abs (Z.of_nat (S k) * zmoment w p k - i * s) * 10 ^ 24 <=? Z.of_nat (S k) * s)%Z.
Definition table_ok (t : nat * (list Z * list Z)) : bool :=
  let '(n, (w, p)) := t in
  (length w =? n)%nat && (length p =? n)%nat && forallb (moment_ok w p) (seq 0 (2 * n)).

Lemma tables_ok : forallb table_ok gl_tables = true.
Proof. vm_compute. reflexivity. Qed.

Lemma scale_pos : 0 < IZR gl_scale.
Proof. apply IZR_lt. reflexivity. Qed.

Lemma moment_real w p k : length w = length p ->
  Rsum (length p) (fun j => nth j (gl_reals w) 0 * nth j (gl_reals p) 0 ^ k)
  = IZR (zmoment w p k) / IZR gl_scale ^ S k.
Proof.
  pose proof scale_pos as HS.
  revert p. induction w as [|a w IH]; intros [|b p] H; simpl in H; try lia.
  - simpl. unfold zmoment. simpl. unfold Rdiv. ring.
  - change (length (b :: p)) with (S (length p)). rewrite Rsum_first.
    cbn [gl_reals map nth]. rewrite (Rsum_ext _ _ (fun j => nth j (gl_reals w) 0 * nth j (gl_reals p) 0 ^ k)) by reflexivity.
    rewrite IH by lia. unfold zmoment. cbn [combine map fold_right fst snd].
    rewrite plus_IZR, mult_IZR, <- pow_IZR.
    unfold Rdiv at 2. rewrite Rpow_mult_distr, pow_inv. simpl pow. field.
    split; [apply pow_nonzero|]; lra.
Qed.

Lemma peval_sum p t : peval p t = Rsum (length p) (fun k => nth k p 0 * t ^ k).
Proof.
  induction p as [|a p IH]; [reflexivity|].
  cbn [length peval]. rewrite Rsum_first, IH. cbn [nth]. rewrite pow_O.
  rewrite <- Rsum_scal. rewrite Rmult_1_r. f_equal. apply Rsum_ext. intros k _.
  rewrite <- tech_pow_Rmult. ring.
Qed.

Lemma norm1_sum p : norm1 p = Rsum (length p) (fun k => Rabs (nth k p 0)).
Proof.
  induction p as [|a p IH]; [reflexivity|]. cbn [length]. rewrite Rsum_first.
  change (norm1 (a :: p)) with (Rabs a + norm1 p). rewrite IH. reflexivity.
Qed.

Lemma dpl_sum n (F f : nat -> R -> R) t : (forall k, (k < n)%nat -> derivable_pt_lim (F k) t (f k t)) ->
  derivable_pt_lim (fun t => Rsum n (fun k => F k t)) t (Rsum n (fun k => f k t)).
Proof.
  induction n as [|n IH]; intros H; cbn [Rsum]; [apply derivable_pt_lim_const|].
  apply (derivable_pt_lim_plus (fun t => Rsum n (fun k => F k t)) (F n)); auto.
Qed.

Lemma moments_accuracy weight pos d eps :
  (forall k, (k < d)%nat ->
     Rabs (Rsum (length pos) (fun j => nth j weight 0 * nth j pos 0 ^ k)
           - (1 ^ S k / INR (S k) - (-1) ^ S k / INR (S k))) <= eps) ->
  rule_accuracy weight pos d eps.
Proof.
  intros H p F Hp HF.
  rewrite (antiderivative_unique F (fun t => Rsum (length p) (fun k => nth k p 0 * (t ^ S k / INR (S k)))) (peval p) (-1) 1);
    [ | lra | auto | ].
  2:{ intros t _. rewrite peval_sum.
      apply (dpl_sum (length p) (fun k t => nth k p 0 * (t ^ S k / INR (S k))) (fun k t => nth k p 0 * t ^ k)).
      intros k _. apply (derivable_pt_lim_scal (fun t => t ^ S k / INR (S k))). apply dpl_monomial. }
  rewrite (Rsum_ext (length pos) _ (fun j => Rsum (length p) (fun k => nth k p 0 * (nth j weight 0 * nth j pos 0 ^ k)))).
  2:{ intros j _. rewrite peval_sum, <- Rsum_scal. apply Rsum_ext. intros; ring. }
  rewrite Rsum_swap.
  rewrite <- !Rsum_minus. rewrite norm1_sum, <- Rsum_scal.
  assert (X : forall n (a b : nat -> R), (forall i, (i < n)%nat -> Rabs (a i) <= b i) ->
     Rabs (Rsum n a) <= Rsum n b).
  { clear. induction n as [|n IH]; intros a b H; cbn [Rsum]; [rewrite Rabs_R0; lra|].
    eapply Rle_trans; [apply Rabs_triang|]. apply Rplus_le_compat; auto. }
  apply X. intros k Hk.
  rewrite Rsum_scal, <- Rmult_minus_distr_l, <- Rmult_minus_distr_l, Rabs_mult.
  rewrite Rmult_comm. apply Rmult_le_compat_r; [apply Rabs_pos|]. apply H. lia.
Qed.

Lemma pow_m1 k : (-1) ^ S k = if Nat.even k then -1 else 1.
Proof.
  induction k as [|k IH]; [simpl; ring|].
  change ((-1) ^ S (S k)) with (-1 * (-1) ^ S k). rewrite IH, Nat.even_succ, <- Nat.negb_even.
  destruct (Nat.even k); simpl; ring.
Qed.

Lemma moment_ok_real w p k : length w = length p -> moment_ok w p k = true ->
  Rabs (Rsum (length p) (fun j => nth j (gl_reals w) 0 * nth j (gl_reals p) 0 ^ k)
        - (1 ^ S k / INR (S k) - (-1) ^ S k / INR (S k))) <= / 10 ^ 24.
Proof.
  intros HL H. rewrite moment_real by auto. unfold moment_ok in H. apply Z.leb_le in H.
  apply IZR_le in H. rewrite !mult_IZR, abs_IZR, minus_IZR, !mult_IZR, <- !pow_IZR in H.
  rewrite <- INR_IZR_INZ in H.
  replace (IZR (10 ^ 24)) with (10 ^ 24) in H by (rewrite (pow_IZR 10 24); reflexivity).
  set (s := IZR gl_scale ^ S k) in *. set (M := IZR (zmoment w p k)) in *.
  assert (Hs : 0 < s) by (apply pow_lt, scale_pos).
  assert (Hk : 0 < INR (S k)) by (apply lt_0_INR; lia).
  set (i := if Nat.even k then 2%Z else 0%Z) in *.
  replace (1 ^ S k / INR (S k) - (-1) ^ S k / INR (S k)) with (IZR i / INR (S k)).
  2:{ rewrite pow1, pow_m1. unfold i. destruct (Nat.even k); field; lra. }
  replace (M / s - IZR i / INR (S k)) with ((INR (S k) * M - IZR i * s) * / (INR (S k) * s)).
  2:{ field. split; lra. }
  rewrite Rabs_mult, (Rabs_pos_eq (/ _)).
  2:{ left. apply Rinv_0_lt_compat. apply Rmult_lt_0_compat; auto. }
  assert (H10 : 0 < 10 ^ 24) by (apply pow_lt; lra).
  apply (Rmult_le_reg_r (INR (S k) * s)); [apply Rmult_lt_0_compat; auto|].
  rewrite Rmult_assoc, Rinv_l, Rmult_1_r by (apply Rgt_not_eq, Rmult_lt_0_compat; auto).
  apply (Rmult_le_reg_l (10 ^ 24)); auto.
  rewrite <- Rmult_assoc, Rinv_r, Rmult_1_l by lra. lra.
Qed.

Theorem gl_tables_accuracy n w p : In (n, (w, p)) gl_tables ->
  length w = n /\ length p = n /\ rule_accuracy (gl_reals w) (gl_reals p) (2 * n) (/ 10 ^ 24).
Proof.
  intros H. pose proof tables_ok as T. rewrite forallb_forall in T. specialize (T _ H).
  unfold table_ok in T. apply andb_prop in T. destruct T as [T T3]. apply andb_prop in T.
  destruct T as [T1 T2]. apply Nat.eqb_eq in T1, T2. split; [auto|]. split; [auto|].
  apply moments_accuracy. intros k Hk.
  unfold gl_reals at 1. rewrite map_length. apply moment_ok_real; [congruence|].
  rewrite forallb_forall in T3. apply T3. apply in_seq. lia.
Qed.
