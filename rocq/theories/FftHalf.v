(** From the half spectrum of a real-to-complex transform to the full one, and the action of a spectral
    filter on a wave. *)
From Verif Require Import FftModel RestrictProofs FftProofs.
From Coq Require Import ZifyBool.
Open Scope R_scope.

Fixpoint inhalf (Ns : list Z) (k : midx) : bool :=
  match Ns, k with
  | [N], [a] => (a <=? N / 2)%Z
  | _ :: t, _ :: k' => inhalf t k'
  | _, _ => true
  end.

Lemma Rsum_rev n f : Rsum n (fun i => f (n - 1 - i)%nat) = Rsum n f.
Proof.
  revert f. induction n as [|n IH]; intros f; [reflexivity|].
  rewrite Rsum_first. cbn [Rsum]. rewrite Rplus_comm. f_equal.
  - rewrite <- IH. apply Rsum_ext. intros i Hi. f_equal. lia.
  - f_equal. lia.
Qed.

Lemma neg1 N a : (0 < a < N)%Z -> ((- a) mod N = N - a)%Z.
Proof. intros H. symmetry. apply (Z.mod_unique_pos _ N (-1)); lia. Qed.

Lemma Rsum_neg N (f : Z -> R) : (0 < N)%Z ->
  Rsum (Z.to_nat N) (fun i => f ((- Z.of_nat i) mod N)%Z) = Rsum (Z.to_nat N) (fun i => f (Z.of_nat i)).
Proof.
  intros H. set (n := Z.to_nat N). assert (E : n = S (n - 1)) by lia. rewrite E. rewrite !Rsum_first. f_equal.
  rewrite <- (Rsum_rev (n - 1) (fun i => f (Z.of_nat (S i)))). apply Rsum_ext. intros i Hi. f_equal.
    rewrite neg1 by lia. lia.
Qed.

Lemma half_full_1 N (g : Z -> R) : (0 < N)%Z ->
  Rsum (Z.to_nat (N / 2 + 1)) (fun i => (if ((Z.of_nat i =? 0) || (2 * Z.of_nat i =? N))%Z then 1 else 2) * g (Z.of_nat i)) =
  Rsum (Z.to_nat N) (fun i => if (Z.of_nat i <=? N / 2)%Z then g (Z.of_nat i) else g ((- Z.of_nat i) mod N)%Z).
Proof.
  intros H. pose proof (Z.div_mod N 2 ltac:(lia)) as D. pose proof (Z.mod_pos_bound N 2 ltac:(lia)) as B.
  set (h := Z.to_nat (N / 2)). set (r := (Z.to_nat N - (h + 1))%nat).
  replace (Z.to_nat (N / 2 + 1)) with (S h) by lia.
  replace (Z.to_nat N) with (S h + r)%nat by lia.
  rewrite (Rsum_app (S h) r).
  assert (R2 : Rsum r (fun i => if (Z.of_nat (S h + i) <=? N / 2)%Z then g (Z.of_nat (S h + i)) else g ((- Z.of_nat (S h + i)) mod N)%Z)
               = Rsum r (fun i => g (Z.of_nat (S i)))).
  { rewrite <- (Rsum_rev r (fun i => g (Z.of_nat (S i)))). apply Rsum_ext. intros i Hi.
    replace (Z.of_nat (S h + i) <=? N / 2)%Z with false by lia. rewrite neg1 by lia. f_equal. lia. }
  rewrite R2.
  rewrite (Rsum_ext (S h) (fun i => if (Z.of_nat i <=? N / 2)%Z then g (Z.of_nat i) else g ((- Z.of_nat i) mod N)%Z) (fun i => g (Z.of_nat i))).
  2:{ intros i Hi. replace (Z.of_nat i <=? N / 2)%Z with true by lia. reflexivity. }
  rewrite !Rsum_first. simpl ((Z.of_nat 0 =? 0) || _)%Z. cbn [orb].
  destruct (Z.eq_dec (N mod 2) 1) as [O|O].
  - assert (r = h) by lia.
    rewrite H0. rewrite (Rsum_ext h (fun i => (if ((Z.of_nat (S i) =? 0) || (2 * Z.of_nat (S i) =? N))%Z then 1 else 2) * g (Z.of_nat (S i))) (fun i => 2 * g (Z.of_nat (S i)))).
    2:{ intros i Hi. replace ((Z.of_nat (S i) =? 0) || (2 * Z.of_nat (S i) =? N))%Z with false by lia. reflexivity. }
    rewrite Rsum_scal. simpl. ring.
  - assert (E : h = S r) by lia. rewrite E. cbn [Rsum].
    replace ((Z.of_nat (S r) =? 0) || (2 * Z.of_nat (S r) =? N))%Z with true by lia.
    rewrite (Rsum_ext r (fun i => (if ((Z.of_nat (S i) =? 0) || (2 * Z.of_nat (S i) =? N))%Z then 1 else 2) * g (Z.of_nat (S i))) (fun i => 2 * g (Z.of_nat (S i)))).
    2:{ intros i Hi. replace ((Z.of_nat (S i) =? 0) || (2 * Z.of_nat (S i) =? N))%Z with false by lia. reflexivity. }
    rewrite Rsum_scal. replace ((Z.of_nat 0 =? 0) || (2 * Z.of_nat 0 =? N))%Z with true by lia. ring.
Qed.

Lemma half_full Ns : forall g, Ns <> [] -> pos_sizes Ns ->
  gsum (half Ns) (fun k => weight Ns k * g k) =
  gsum Ns (fun k => if inhalf Ns k then g k else g (neg Ns k)).
Proof.
  induction Ns as [|N t IH]; intros g HN HP; [congruence|]. inversion HP; subst.
  destruct t as [|M t].
  - cbn [half gsum weight inhalf neg negm map modm]. apply (half_full_1 N (fun a => g [a])). lia.
  - change (half (N :: M :: t)) with (N :: half (M :: t)).
    assert (E1 : gsum (N :: half (M :: t)) (fun k => weight (N :: M :: t) k * g k) =
                 Rsum (Z.to_nat N) (fun i => gsum (half (M :: t)) (fun l => weight (M :: t) l * g (Z.of_nat i :: l)))).
    { reflexivity. }
    rewrite E1.
    rewrite (Rsum_ext _ _ (fun i => gsum (M :: t) (fun l => if inhalf (M :: t) l then g (Z.of_nat i :: l) else g (Z.of_nat i :: neg (M :: t) l))))
      by (intros i _; apply (IH (fun l => g (Z.of_nat i :: l))); [discriminate|auto]).
    rewrite gsum_Rsum.
    change (gsum (N :: M :: t) (fun k => if inhalf (N :: M :: t) k then g k else g (neg (N :: M :: t) k)))
      with (Rsum (Z.to_nat N) (fun i => gsum (M :: t) (fun l => if inhalf (M :: t) l then g (Z.of_nat i :: l) else g (((- Z.of_nat i) mod N)%Z :: neg (M :: t) l)))).
    rewrite gsum_Rsum. apply gsum_ext. intros l _.
    destruct (inhalf (M :: t) l); [reflexivity|].
    symmetry. apply (Rsum_neg N (fun a => g (a :: neg (M :: t) l))). lia.
Qed.

Lemma half_in_mesh Ns : forall k, pos_sizes Ns -> in_mesh (half Ns) k = true <-> in_mesh Ns k = true /\ inhalf Ns k = true.
Proof.
  induction Ns as [|N t IH]; intros k HP; [destruct k; cbn; intuition|]. inversion HP; subst.
  destruct t as [|M t].
  - destruct k as [|a [|b k]].
    + cbn. intuition.
    + cbn [half in_mesh inhalf]. pose proof (Z.div_mod N 2 ltac:(lia)). pose proof (Z.mod_pos_bound N 2 ltac:(lia)). lia.
    + cbn. lia.
  - change (half (N :: M :: t)) with (N :: half (M :: t)). destruct k as [|a k].
    + cbn. intuition.
    + change (inhalf (N :: M :: t) (a :: k)) with (inhalf (M :: t) k).
      rewrite !in_mesh_cons. rewrite IH by auto. tauto.
Qed.

(** ** Filters.  [c = fft rho] multiplied by h (times 1 or -i): what ifft returns on a wave. *)
Definition ext (s : R) (Ns : list Z) (h : midx -> R) (k : midx) : R := if inhalf Ns k then h k else s * h (neg Ns k).

Lemma neg_length Ns : forall k, length k = length Ns -> length (neg Ns k) = length Ns.
Proof.
  unfold neg. induction Ns as [|N t IH]; intros [|a k] L; simpl in L; try discriminate; [reflexivity|].
  cbn. f_equal. apply IH. lia.
Qed.

(** response to rho: sum over the half mesh of weight * h(k) * sum_n' rho(n') cos(theta_k(n) + be - theta_k(n')) *)
Definition filtered (Ns : list Z) (h : midx -> R) (be : R) (rho : midx -> R) (n : midx) : R :=
  gsum (half Ns) (fun k => weight Ns k * (h k * gsum Ns (fun n' => rho n' * cos (phase Ns k n + be - phase Ns k n')))) / vol Ns.

Lemma filtered_plus Ns h be f g n : filtered Ns h be (fun x => f x + g x) n = filtered Ns h be f n + filtered Ns h be g n.
Proof.
  unfold filtered, Rdiv. rewrite <- Rmult_plus_distr_r. f_equal. rewrite <- gsum_plus.
  apply gsum_ext. intros k _.
  rewrite (gsum_ext Ns _ (fun n' => f n' * cos (phase Ns k n + be - phase Ns k n') + g n' * cos (phase Ns k n + be - phase Ns k n')))
    by (intros; ring). rewrite gsum_plus. ring.
Qed.
Lemma filtered_scal Ns h be c f n : filtered Ns h be (fun x => c * f x) n = c * filtered Ns h be f n.
Proof.
  unfold filtered, Rdiv. rewrite <- Rmult_assoc. f_equal. rewrite <- gsum_scal.
  apply gsum_ext. intros k _.
  rewrite (gsum_ext Ns _ (fun n' => c * (f n' * cos (phase Ns k n + be - phase Ns k n')))) by (intros; ring).
  rewrite gsum_scal. ring.
Qed.
Lemma filtered_ext Ns h h' be f g n : (forall k, in_mesh (half Ns) k = true -> h k = h' k) ->
  (forall x, in_mesh Ns x = true -> f x = g x) -> filtered Ns h be f n = filtered Ns h' be g n.
Proof.
  intros H1 H2. unfold filtered. f_equal. apply gsum_ext. intros k Hk. rewrite (H1 k Hk). f_equal. f_equal.
  apply gsum_ext. intros x Hx. rewrite (H2 x Hx). reflexivity.
Qed.
Lemma filtered_zero Ns h be n : filtered Ns h be (fun _ => 0) n = 0.
Proof.
  unfold filtered. rewrite gsum_zero; [unfold Rdiv; ring|]. intros k _. rewrite gsum_zero; [ring|]. intros; ring.
Qed.

Lemma vol_pos Ns : pos_sizes Ns -> 0 < vol Ns.
Proof.
  induction 1; cbn; [lra|]. apply Rmult_lt_0_compat; [apply IZR_lt; lia|exact IHForall].
Qed.

(** [s = 1], [be = 0]: even filter; [s = -1], [be = -PI/2]: odd filter *)
Lemma filtered_wave Ns h s be m al n : Ns <> [] -> pos_sizes Ns -> length m = length Ns ->
  (forall x, cos (be - x) = s * cos (x + be)) ->
  filtered Ns h be (fun x => cos (phase Ns m x + al)) n =
  (ext s Ns h (modm Ns m) + s * ext s Ns h (modm Ns (negm m))) / 2 * cos (phase Ns m n + al + be).
Proof.
  intros HN HP L Hs. unfold filtered. pose proof (vol_pos Ns HP) as VP.
  rewrite half_full by auto.
  (* extend the filter *)
  rewrite (gsum_ext Ns _ (fun k => ext s Ns h k * gsum Ns (fun n' => cos (phase Ns m n' + al) * cos (phase Ns k n + be - phase Ns k n')))).
  2:{ intros k Hk. unfold ext. destruct (inhalf Ns k); [reflexivity|].
      rewrite (Rmult_comm s), Rmult_assoc. f_equal. rewrite <- gsum_scal. apply gsum_ext. intros x _.
      rewrite (Rmult_comm s), Rmult_assoc. f_equal. pose proof (in_mesh_length _ _ Hk) as LK.
      assert (A : exists q, phase Ns (neg Ns k) n = - phase Ns k n + 2 * IZR q * PI).
      { rewrite <- phase_neg. unfold neg. apply phase_congr; auto. apply congr_refl_modm; auto. rewrite negm_length. auto. }
      assert (B : exists q, phase Ns (neg Ns k) x = - phase Ns k x + 2 * IZR q * PI).
      { rewrite <- phase_neg. unfold neg. apply phase_congr; auto. apply congr_refl_modm; auto. rewrite negm_length. auto. }
      destruct A as [q ->], B as [q' ->].
      replace (- phase Ns k n + 2 * IZR q * PI + be - (- phase Ns k x + 2 * IZR q' * PI))
        with ((be - (phase Ns k n - phase Ns k x)) + 2 * IZR (q - q') * PI) by (rewrite minus_IZR; ring).
      rewrite cos_shift_Z, Hs, Rmult_comm. f_equal. f_equal. ring. }
  rewrite (gsum_ext Ns _ (fun k => vol Ns / 2 *
      ((if congr Ns m k then ext s Ns h k * cos (phase Ns k n + al + be) else 0)
     + (if congr Ns (negm m) k then ext s Ns h k * cos (phase Ns k n + (be - al)) else 0)))).
  2:{ intros k Hk. pose proof (in_mesh_length _ _ Hk) as LK. rewrite wave_sum by auto.
      replace (al + (phase Ns k n + be)) with (phase Ns k n + al + be) by ring.
      replace (phase Ns k n + be - al) with (phase Ns k n + (be - al)) by ring.
      destruct (congr Ns m k), (congr Ns (negm m) k); ring. }
  rewrite gsum_scal, gsum_plus.
  rewrite (gsum_congr Ns m (fun k => ext s Ns h k * cos (phase Ns k n + al + be))) by auto.
  rewrite (gsum_congr Ns (negm m) (fun k => ext s Ns h k * cos (phase Ns k n + (be - al)))) by (auto; rewrite negm_length; auto).
  replace (phase Ns (modm Ns m) n + al + be) with (phase Ns (modm Ns m) n + (al + be)) by ring.
  rewrite !cos_phase_modm by (auto; rewrite ?negm_length; auto).
  rewrite phase_neg.
  replace (- phase Ns m n + (be - al)) with (be - (phase Ns m n + al)) by ring. rewrite Hs.
  replace (phase Ns m n + (al + be)) with (phase Ns m n + al + be) by ring. field. lra.
Qed.
