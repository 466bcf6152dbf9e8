(** Fields: positions, loops over index ranges, the replicating copy, the power-of-two test. *)
From Coq Require Import Lia NArith.
From Verif Require Import ColSpec.
Open Scope nat_scope.

Lemma dim_eqb_iff : forall a b, dim_eqb a b = true <-> a = b.
Proof. intros [] []; cbn; split; congruence. Qed.
Lemma dim_eqb_refl : forall a, dim_eqb a a = true.
Proof. intros []; reflexivity. Qed.
Lemma size_volume : forall rg, size rg = volume rg.
Proof. induction rg as [|[d r] rg IH]; cbn; [reflexivity|]. rewrite IH. reflexivity. Qed.
Lemma in_rng_iff : forall r i, in_rng r i = true <-> (r_front r <= i < r_front r + Z.of_nat (r_size r))%Z.
Proof. intros r i. unfold in_rng. rewrite Bool.andb_true_iff, Z.leb_le, Z.ltb_lt. lia. Qed.
Lemma inside_cons : forall d r rg p, inside ((d, r) :: rg) p <->
  (r_front r <= p d < r_front r + Z.of_nat (r_size r))%Z /\ inside rg p.
Proof.
  intros d r rg p. split.
  - intros H. split; [apply H; left; reflexivity|]. intros e q Hq. apply H. right. exact Hq.
  - intros [H1 H2] e q [E|Hq]; [injection E as <- <-; exact H1|apply H2; exact Hq].
Qed.

Lemma position_lt : forall rg p, inside rg p -> position rg p < volume rg.
Proof.
  induction rg as [|[d r] rg IH]; intros p H; cbn; [lia|].
  apply inside_cons in H. destruct H as [H1 H2]. specialize (IH p H2).
  fold (volume rg) in *.
  assert (Z.to_nat (p d - r_front r) < r_size r) by lia. nia.
Qed.

Lemma offset_point : forall rg acc ix p, inside rg p ->
  (forall d, In d (dims rg) -> find_dim d ix = Some (p d)) ->
  offset rg acc ix = Some (acc * volume rg + position rg p).
Proof.
  induction rg as [|[d r] rg IH]; intros acc ix p Hin Hf; cbn; [f_equal; lia|].
  apply inside_cons in Hin. destruct Hin as [H1 H2].
  rewrite (Hf d (or_introl eq_refl)). rewrite (proj2 (in_rng_iff r (p d)) H1).
  rewrite (IH _ ix p H2).
  - f_equal. fold (volume rg). ring.
  - intros e He. apply Hf. right. exact He.
Qed.
Lemma offset_outside : forall rg acc ix p, ~ inside rg p ->
  (forall d, In d (dims rg) -> find_dim d ix = Some (p d)) ->
  offset rg acc ix = None.
Proof.
  induction rg as [|[d r] rg IH]; intros acc ix p Hin Hf; cbn.
  - exfalso. apply Hin. intros d r [].
  - rewrite (Hf d (or_introl eq_refl)). destruct (in_rng r (p d)) eqn:E; [|reflexivity].
    apply (IH _ _ p).
    + intros H. apply Hin. apply inside_cons. split; [apply in_rng_iff; exact E|exact H].
    + intros e He. apply Hf. right. exact He.
Qed.

Definition canon (rg : idx_range) (p : point) : index := map (fun x => (fst x, p (fst x))) rg.
Lemma find_canon : forall rg p d, In d (dims rg) -> find_dim d (canon rg p) = Some (p d).
Proof.
  induction rg as [|[e r] rg IH]; intros p d H; [destruct H|].
  cbn. destruct (dim_eqb d e) eqn:E.
  - apply dim_eqb_iff in E. subst e. reflexivity.
  - apply IH. destruct H as [H|H]; [|exact H]. cbn in H. subst e. rewrite dim_eqb_refl in E. discriminate.
Qed.

Lemma indices_length : forall rg, length (indices rg) = volume rg.
Proof.
  induction rg as [|[d r] rg IH]; [reflexivity|]. cbn [indices]. change (volume ((d, r) :: rg)) with (r_size r * volume rg).
  generalize (r_size r) as n. intros n. generalize 0 as a.
  induction n as [|n IHn]; intros a; [reflexivity|].
  cbn [seq flat_map]. rewrite app_length, map_length, IHn, IH. lia.
Qed.
Lemma flat_map_nth : forall (A : Type) (B : nat -> list A) m n a k j,
  (forall i, length (B i) = m) -> k < n -> j < m ->
  nth_error (flat_map B (seq a n)) (k * m + j) = nth_error (B (a + k)) j.
Proof.
  intros A B m n. induction n as [|n IH]; intros a k j HB Hk Hj; [lia|].
  cbn [seq flat_map]. destruct k as [|k].
  - rewrite nth_error_app1 by (rewrite HB; lia). rewrite Nat.add_0_r. reflexivity.
  - rewrite nth_error_app2 by (rewrite HB; lia). rewrite HB.
    replace (S k * m + j - m) with (k * m + j) by lia.
    rewrite IH by (assumption || lia). f_equal. f_equal. lia.
Qed.
Lemma indices_at : forall rg p, inside rg p -> nth_error (indices rg) (position rg p) = Some (canon rg p).
Proof.
  induction rg as [|[d r] rg IH]; intros p H; [reflexivity|].
  apply inside_cons in H. destruct H as [H1 H2]. cbn [indices position].
  rewrite (flat_map_nth _ _ (volume rg)).
  - cbn [Nat.add]. rewrite nth_error_map, (IH p H2). cbn. do 3 f_equal. lia.
  - intros i. rewrite map_length. apply indices_length.
  - lia.
  - apply position_lt. exact H2.
Qed.

(** the n-th index is stored at the n-th place *)
Lemma offset_skip : forall rg acc d i ix, ~ In d (dims rg) -> offset rg acc ((d, i) :: ix) = offset rg acc ix.
Proof.
  induction rg as [|[e r] rg IH]; intros acc d i ix H; [reflexivity|].
  cbn [offset find_dim]. destruct (dim_eqb e d) eqn:E.
  - apply dim_eqb_iff in E. subst. exfalso. apply H. left. reflexivity.
  - destruct (find_dim e ix); [|reflexivity]. destruct (in_rng r z); [|reflexivity].
    apply IH. intros G. apply H. right. exact G.
Qed.
Lemma offsets : forall rg acc, NoDup (dims rg) ->
  map (offset rg acc) (indices rg) = map Some (seq (acc * volume rg) (volume rg)).
Proof.
  induction rg as [|[d r] rg IH]; intros acc N.
  - cbn. rewrite Nat.mul_1_r. reflexivity.
  - inversion N as [|? ? N1 N2]; subst. cbn [indices].
    change (volume ((d, r) :: rg)) with (r_size r * volume rg).
    assert (G : forall n a, a + n = r_size r ->
      map (offset ((d, r) :: rg) acc)
        (flat_map (fun k => map (cons (d, (r_front r + Z.of_nat k)%Z)) (indices rg)) (seq a n))
      = map Some (seq ((acc * r_size r + a) * volume rg) (n * volume rg))).
    { induction n as [|n IHn]; intros a Ha; [reflexivity|].
      cbn [seq flat_map]. rewrite map_app, (IHn (S a)) by lia.
      replace (S n * volume rg) with (volume rg + n * volume rg) by lia.
      rewrite seq_app, map_app. f_equal; [|do 2 f_equal; ring].
      rewrite map_map. rewrite <- (IH (acc * r_size r + a) N2). apply map_ext. intros ix.
      cbn [offset find_dim]. rewrite dim_eqb_refl.
      rewrite (proj2 (in_rng_iff r (r_front r + Z.of_nat a))) by lia.
      replace (r_front r + Z.of_nat a - r_front r)%Z with (Z.of_nat a) by lia. rewrite Nat2Z.id.
      apply offset_skip. exact N1. }
    rewrite (G (r_size r) 0 eq_refl). do 2 f_equal. ring.
Qed.
Lemma offset_nth : forall rg n ix, NoDup (dims rg) -> nth_error (indices rg) n = Some ix ->
  offset rg 0 ix = Some n.
Proof.
  intros rg n ix N H. assert (n < volume rg).
  { rewrite <- indices_length. apply nth_error_Some. congruence. }
  pose proof (map_nth_error (offset rg 0) n (indices rg) H) as E.
  rewrite (offsets rg 0 N) in E. cbn [Nat.mul] in E.
  rewrite nth_error_map in E.
  rewrite (nth_error_nth' _ 0) in E by (rewrite seq_length; lia).
  rewrite seq_nth in E by lia. cbn in E. congruence.
Qed.

(** ** Loops *)
Lemma replace_app : forall (A : Type) (l1 l2 : list A) x y,
  replace_nth (l1 ++ y :: l2) (length l1) x = l1 ++ x :: l2.
Proof. induction l1 as [|a l1 IH]; intros l2 x y; cbn; [reflexivity|]. rewrite IH. reflexivity. Qed.
Lemma set_at : forall rg d1 y d2 ix c, offset rg 0 ix = Some (length d1) ->
  set (Field rg (d1 ++ y :: d2)) ix c = Ok (Field rg (d1 ++ c :: d2)).
Proof.
  intros rg d1 y d2 ix c E. unfold set. cbn [f_range f_data]. rewrite E.
  rewrite wr_ok by (rewrite app_length; cbn [length]; lia). cbn [bind].
  rewrite Nat2Z.id, replace_app. reflexivity.
Qed.
Lemma write_each_ok : forall rg g l cs d1 d2, Forall2 (fun ix c => g ix = Ok c) l cs ->
  length d2 = length l ->
  (forall k ix, nth_error l k = Some ix -> offset rg 0 ix = Some (length d1 + k)) ->
  write_each l g (Field rg (d1 ++ d2)) = Ok (Field rg (d1 ++ cs)).
Proof.
  intros rg g l cs d1 d2 F. revert d1 d2.
  induction F as [|ix c l cs G F IH]; intros d1 d2 L O.
  - destruct d2; [reflexivity|discriminate].
  - destruct d2 as [|y d2]; [discriminate|]. cbn [write_each]. rewrite G. cbn [bind].
    rewrite set_at by (rewrite (O 0 ix eq_refl); f_equal; lia). cbn [bind].
    replace (d1 ++ c :: d2) with ((d1 ++ [c]) ++ d2) by (rewrite <- app_assoc; reflexivity).
    rewrite IH.
    + rewrite <- app_assoc. reflexivity.
    + cbn in L. lia.
    + intros k jx Hk. rewrite app_length. cbn [length]. rewrite (O (S k) jx Hk). f_equal. lia.
Qed.
Lemma write_each_ub : forall rg g l d1 d2,
  (forall ix, In ix l -> (exists c, g ix = Ok c) \/ g ix = Ub) -> (exists ix, In ix l /\ g ix = Ub) ->
  length d2 = length l ->
  (forall k ix, nth_error l k = Some ix -> offset rg 0 ix = Some (length d1 + k)) ->
  write_each l g (Field rg (d1 ++ d2)) = Ub.
Proof.
  intros rg g l. induction l as [|ix l IH]; intros d1 d2 A E L O; [destruct E as (? & [] & _)|].
  destruct d2 as [|y d2]; [discriminate|]. cbn [write_each].
  destruct (A ix (or_introl eq_refl)) as [(c & G)|G]; rewrite G; cbn [bind]; [|reflexivity].
  rewrite set_at by (rewrite (O 0 ix eq_refl); f_equal; lia). cbn [bind].
  replace (d1 ++ c :: d2) with ((d1 ++ [c]) ++ d2) by (rewrite <- app_assoc; reflexivity).
  apply IH.
  - intros jx Hj. apply A. right. exact Hj.
  - destruct E as (jx & [<-|Hj] & Hu); [congruence|]. exists jx. split; assumption.
  - cbn in L. lia.
  - intros k jx Hk. rewrite app_length. cbn [length]. rewrite (O (S k) jx Hk). f_equal. lia.
Qed.

Lemma forall2_length : forall (A B : Type) (P : A -> B -> Prop) l l', Forall2 P l l' -> length l = length l'.
Proof. intros A B P l l' F. induction F; cbn; congruence. Qed.
(** every element gets its value *)
Lemma for_each_ok : forall f g (v : point -> cell), well_formed f ->
  (forall ix, In ix (indices (f_range f)) -> exists c, g ix = Ok c) ->
  (forall p, inside (f_range f) p -> g (canon (f_range f) p) = Ok (v p)) ->
  exists f', for_each_write g f = Ok f' /\ f_range f' = f_range f /\ well_formed f' /\
    forall p, inside (f_range f) p -> at_point f' p = Some (v p).
Proof.
  intros [rg b] g v [N L] A V. cbn [f_range f_data] in *.
  assert (F : exists cs, Forall2 (fun ix c => g ix = Ok c) (indices rg) cs).
  { revert A. generalize (indices rg) as l. induction l as [|ix l IH]; intros A; [exists []; constructor|].
    destruct (A ix (or_introl eq_refl)) as (c & Hc).
    destruct IH as (cs & Hcs). { intros jx Hj. apply A. right. exact Hj. }
    exists (c :: cs). constructor; assumption. }
  destruct F as (cs & F).
  exists (Field rg cs). pose proof (forall2_length _ _ _ _ _ F) as LF. rewrite indices_length in LF.
  split; [|split; [reflexivity|split; [split; [exact N|symmetry; exact LF]|]]].
  - unfold for_each_write. cbn [f_range].
    apply (write_each_ok rg g (indices rg) cs [] b F).
    + rewrite indices_length. exact L.
    + intros k ix Hk. cbn. apply offset_nth; assumption.
  - intros p Hp. unfold at_point. cbn [f_range f_data].
    pose proof (indices_at rg p Hp) as E. specialize (V p Hp).
    revert F E V. generalize (position rg p) as n. generalize (canon rg p) as ix. intros ix n F. clear -F.
    revert n. induction F as [|jx c l cs G F IH]; intros n E V; [destruct n; discriminate|].
    destruct n as [|n]; cbn in *; [injection E as ->; congruence|]. apply IH; assumption.
Qed.
Lemma indices_in : forall rg ix, NoDup (dims rg) -> In ix (indices rg) ->
  exists p, inside rg p /\ ix = canon rg p.
Proof.
  induction rg as [|[d r] rg IH]; intros ix N H.
  - destruct H as [<-|[]]. exists (fun _ => 0%Z). split; [intros ? ? []|reflexivity].
  - inversion N as [|? ? N1 N2]; subst. cbn [indices] in H. apply in_flat_map in H.
    destruct H as (k & Hk & H). apply in_seq in Hk. apply in_map_iff in H. destruct H as (jx & <- & H).
    destruct (IH jx N2 H) as (p & Hp & ->).
    exists (fun e => if dim_eqb e d then (r_front r + Z.of_nat k)%Z else p e).
    assert (P : forall e, In e (dims rg) -> (if dim_eqb e d then (r_front r + Z.of_nat k)%Z else p e) = p e).
    { intros e He. destruct (dim_eqb e d) eqn:E; [|reflexivity]. apply dim_eqb_iff in E. subst. contradiction. }
    split.
    + apply inside_cons. rewrite dim_eqb_refl. split; [lia|]. intros e q Hq.
      rewrite P by (apply in_map_iff; exists (e, q); split; [reflexivity|exact Hq]). apply Hp. exact Hq.
    + cbn. rewrite dim_eqb_refl. f_equal. unfold canon. apply map_ext_in. intros [e q] Hq. cbn.
      rewrite P; [reflexivity|]. apply in_map_iff. exists (e, q). split; [reflexivity|exact Hq].
Qed.

(** a simpler form for values given at every point *)
Lemma for_each_points : forall f g (v : point -> cell), well_formed f ->
  (forall p, inside (f_range f) p -> g (canon (f_range f) p) = Ok (v p)) ->
  exists f', for_each_write g f = Ok f' /\ f_range f' = f_range f /\ well_formed f' /\
    forall p, inside (f_range f) p -> at_point f' p = Some (v p).
Proof.
  intros f g v W V. apply for_each_ok; [exact W| |exact V].
  intros ix Hi. destruct (indices_in _ ix (proj1 W) Hi) as (p & Hp & ->). exists (v p). apply V. exact Hp.
Qed.

Lemma get_point : forall f ix p, well_formed f -> inside (f_range f) p ->
  (forall d, In d (dims (f_range f)) -> find_dim d ix = Some (p d)) ->
  exists c, get f ix = Ok c /\ at_point f p = Some c.
Proof.
  intros f ix p [N L] Hp Hf. unfold get, at_point.
  rewrite (offset_point (f_range f) 0 ix p Hp Hf). cbn [Nat.mul Nat.add].
  assert (B : position (f_range f) p < length (f_data f)) by (rewrite L; apply position_lt; exact Hp).
  destruct (nth_error (f_data f) (position (f_range f) p)) as [c|] eqn:E.
  - exists c. split; [|reflexivity]. unfold rd.
    destruct (Z.of_nat (position (f_range f) p) <? 0)%Z eqn:Z0; [rewrite Z.ltb_lt in Z0; lia|].
    rewrite Nat2Z.id, E. reflexivity.
  - apply nth_error_None in E. lia.
Qed.
Lemma get_outside : forall f ix p, ~ inside (f_range f) p ->
  (forall d, In d (dims (f_range f)) -> find_dim d ix = Some (p d)) -> get f ix = Ub.
Proof. intros f ix p Hp Hf. unfold get. rewrite (offset_outside _ 0 ix p Hp Hf). reflexivity. Qed.

(** ** transpose_replicate_deep_copy *)
Theorem replicate_ok : forall dst src, well_formed dst -> well_formed src ->
  incl (dims (f_range src)) (dims (f_range dst)) -> within (f_range dst) (f_range src) ->
  exists f, transpose_replicate_deep_copy dst src = Ok f /\ f_range f = f_range dst /\ well_formed f /\
    forall p, inside (f_range dst) p -> at_point f p = at_point src p.
Proof.
  intros dst src Wd Ws I Hw.
  assert (G : forall p, inside (f_range dst) p ->
    get src (canon (f_range dst) p) = Ok (match at_point src p with Some c => c | None => None end)
    /\ at_point src p <> None).
  { intros p Hp. destruct (get_point src (canon (f_range dst) p) p Ws (Hw p Hp)) as (c & E1 & E2).
    - intros d Hd. apply find_canon. apply I. exact Hd.
    - rewrite E2. split; [exact E1|discriminate]. }
  destruct (for_each_points dst (fun ix => get src ix)
    (fun p => match at_point src p with Some c => c | None => None end) Wd) as (f & E & R1 & W & V).
  { intros p Hp. exact (proj1 (G p Hp)). }
  exists f. split; [exact E|split; [exact R1|split; [exact W|]]].
  intros p Hp. rewrite (V p Hp). destruct (G p Hp) as [_ N]. destruct (at_point src p); [reflexivity|congruence].
Qed.
Theorem replicate_ub : forall dst src, well_formed dst -> well_formed src ->
  incl (dims (f_range src)) (dims (f_range dst)) ->
  (exists p, inside (f_range dst) p /\ ~ inside (f_range src) p) ->
  transpose_replicate_deep_copy dst src = Ub.
Proof.
  intros [rg b] src [N L] Ws I (p & Hp & Hn). cbn [f_range f_data] in *.
  unfold transpose_replicate_deep_copy, for_each_write. cbn [f_range].
  apply (write_each_ub rg _ (indices rg) [] b).
  - intros ix Hi. unfold get. destruct (offset (f_range src) 0 ix) as [o|]; [|right; reflexivity].
    unfold rd. destruct (Z.of_nat o <? 0)%Z; [right; reflexivity|].
    destruct (nth_error (f_data src) (Z.to_nat (Z.of_nat o))) as [c|]; [left; exists c; reflexivity|right; reflexivity].
  - exists (canon rg p). split.
    + eapply nth_error_In. apply indices_at. exact Hp.
    + apply (get_outside src _ p Hn). intros d Hd. apply find_canon. apply I. exact Hd.
  - rewrite indices_length. exact L.
  - intros k ix Hk. cbn. apply offset_nth; assumption.
Qed.

Lemma alloc_wf : forall rg, NoDup (dims rg) -> well_formed (alloc rg).
Proof. intros rg N. split; [exact N|]. cbn. rewrite repeat_length, size_volume. reflexivity. Qed.

(** ** The power-of-two test *)
Theorem pow2_test_iff : forall x, pow2_test x = true <-> power_of_two x.
Proof.
  intros x. unfold pow2_test, power_of_two. rewrite Bool.andb_true_iff, Nat.ltb_lt, N.eqb_eq. split.
  - intros [P E]. exists (N.to_nat (N.log2 (N.of_nat x))).
    set (n := N.of_nat x) in *.
    assert (Hn : (0 < n)%N) by (unfold n; lia).
    replace (N.of_nat (x - 1)) with (n - 1)%N in E by (unfold n; lia).
    destruct (N.log2_spec n Hn) as [L1 L2].
    assert (n = 2 ^ N.log2 n)%N as En.
    { destruct (N.eq_dec n (2 ^ N.log2 n)) as [e|ne]; [exact e|exfalso].
      assert (G : (2 ^ N.log2 n <= n - 1)%N) by lia.
      assert (LL : N.log2 (n - 1) = N.log2 n).
      { apply N.log2_unique; [lia|]. split; [exact G|lia]. }
      assert (T : N.testbit (N.land n (n - 1)) (N.log2 n) = true).
      { rewrite N.land_spec, N.bit_log2 by lia. rewrite <- LL. rewrite N.bit_log2; [reflexivity|].
        intros Z. rewrite Z in G. pose proof (N.pow_nonzero 2 (N.log2 n)). lia. }
      rewrite E, N.bits_0 in T. discriminate. }
    apply Nat2N.inj. fold n. rewrite Nat2N.inj_pow, N2Nat.id. exact En.
  - intros (k & ->). split; [pose proof (Nat.pow_nonzero 2 k); lia|].
    replace (N.of_nat (2 ^ k - 1)) with (N.ones (N.of_nat k)).
    + rewrite N.land_ones. rewrite Nat2N.inj_pow. change (N.of_nat 2) with 2%N.
      apply N.mod_same. apply N.pow_nonzero. discriminate.
    + rewrite N.ones_equiv, Nat2N.inj_sub, Nat2N.inj_pow. change (N.of_nat 2) with 2%N.
      change (N.of_nat 1) with 1%N. rewrite N.sub_1_r. reflexivity.
Qed.
