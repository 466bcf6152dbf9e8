(** Counter-examples, corollaries and concrete cases for the matrix properties. *)
From Verif Require Import Lib MatrixModel MatrixSpec MatrixProofs MatrixSolveModel
  MatrixSolveProofs MatrixLinkModel MatrixLinkProofs MatrixOracle.
From Coq Require Import ZifyBool.
Open Scope Z_scope.

(** ** Matrix_Dense::set_element has no bound check *)
Lemma dense_unchecked_write {A} (zero : A) tiny n x : 1 < n ->
  exists m m', new_dense A zero n = Ok m /\ set A tiny m n 0 x = Ok m' /\
    get A zero m 0 1 = Ok zero /\ get A zero m' 0 1 = Ok x.
Proof.
  intros Hn.
  set (buf := zeros A zero (n * n)).
  assert (Hl : Z.of_nat (length buf) = n * n) by (unfold buf, zeros; rewrite repeat_length; nia).
  exists (Dense A n buf), (Dense A n (replace_nth buf (Z.to_nat (0 * n + n)) x)).
  split; [|split; [|split]].
  - unfold new_dense, check. replace (0 <? n) with true by lia. cbn [bind]. unfold alloc.
    replace (n * n <? 0) with false by nia. reflexivity.
  - cbn [set]. rewrite wr_ok by nia. reflexivity.
  - cbn [get]. unfold check. replace ((0 <? n) && (1 <? n))%bool with true by lia. cbn [bind].
    unfold buf, zeros. rewrite rd_repeat by nia. reflexivity.
  - cbn [get]. unfold check. replace ((0 <? n) && (1 <? n))%bool with true by lia. cbn [bind].
    replace (0 * n + n) with (1 * n + 0) by lia.
    unfold rd. replace (1 * n + 0 <? 0) with false by lia.
    rewrite nth_error_replace_eq by nia. reflexivity.
Qed.

(** ** factories are interchangeable *)
Lemma factories_interchangeable {A} (zero : A) tiny r1 r2 M h1 h2 :
  tiny zero = true -> req_n r1 = req_n r2 ->
  admissible r1 -> admissible r2 -> fits zero r1 M -> fits zero r2 M ->
  lists_elements zero (req_n r1) M h1 -> lists_elements zero (req_n r2) M h2 ->
  exists m1 m1' m2 m2', make zero r1 = Ok m1 /\ make zero r2 = Ok m2 /\
    set_all A tiny m1 h1 = Ok m1' /\ set_all A tiny m2 h2 = Ok m2' /\
    forall i j, 0 <= i < req_n r1 -> 0 <= j < req_n r1 ->
      get A zero m1' i j = Ok (M i j) /\ get A zero m2' i j = Ok (M i j).
Proof.
  intros Ht En A1 A2 F1 F2 L1 L2.
  destruct (factory_stores zero tiny r1 M h1 Ht A1 F1 L1) as [m1 [m1' [E1 [E1' G1]]]].
  destruct (factory_stores zero tiny r2 M h2 Ht A2 F2 L2) as [m2 [m2' [E2 [E2' G2]]]].
  exists m1, m1', m2, m2'. repeat (split; [assumption|]).
  intros i j Hi Hj. split; [apply G1|apply G2]; lia.
Qed.

(** ** the overlapping memcpy, reached through the factory *)
Lemma centre_overlap_reached lapack lapackT n kl ku b1 b2 M h m m' :
  let r := ReqBlock n kl ku false b1 b2 in
  admissible r -> 0 < b2 -> 2 * kl + 1 + ku < n - b1 - b2 < b1 ->
  fits 0%R r M -> lists_elements 0%R n M h ->
  make 0%R r = Ok m -> set_all R tinyR m h = Ok m' ->
  forall swap b, msolve lapack m' swap b = Ub /\ msolveT lapack lapackT m' swap b = Ub.
Proof.
  cbv zeta. intros Ha Hb2 Hlt Hf Hl Em Em' swap b.
  assert (Hs : exists s, shape_of m = SCentre n b1 b2 s).
  { cbn [make] in Em. unfold make_new_block_with_banded_region in Em. cbn [andb] in Em.
    replace (n - b1 - b2 <=? 2 * kl + 1 + ku) with false in Em by lia.
    destruct (new_banded R 0%R _ _ _) as [q| | |]; cbn [bind] in Em; try discriminate.
    replace (b2 =? 0) with false in Em by lia. apply new_sized_zeros in Em.
    destruct Em as [_ [g [d ->]]]. eexists; reflexivity. }
  destruct (make_ok 0%R _ Ha) as [m0 [E [W [F [S P]]]]].
  rewrite Em in E; injection E as <-. cbn [req_n] in S.
  destruct (P M Hf) as [P1 P2].
  assert (Hlegal : Forall (legal_write tinyR (shape_of m)) h).
  { apply Forall_forall. intros [[i j] x] Hin. destruct Hl as [H1 H2].
    destruct (H1 i j x Hin) as [Hi [Hj ->]].
    unfold legal_write. rewrite order_shape, S. split; [exact Hi|split; [exact Hj|]].
    destruct (stored (shape_of m) i j) eqn:Es; [left; reflexivity|right].
    rewrite P1; [exact tiny_zero|split; rewrite S; assumption|exact Es]. }
  destruct (set_all_spec R 0%R tinyR h m W Hlegal) as [m2 [E2 [W2 [S2 _]]]].
  rewrite Em' in E2; injection E2 as <-.
  destruct Hs as [s Hs]. rewrite Hs in S2.
  destruct m'; cbn [shape_of] in S2; try discriminate. injection S2 as -> -> -> _.
  cbn [msolve msolveT]. cbn [admissible] in Ha.
  replace (Z.to_nat n) with (Z.to_nat b1 + Z.to_nat (n - (b1 + b2)) + Z.to_nat b2)%nat by lia.
  split; apply centre_solve_overlap; lia.
Qed.

(** ** with block2_size = 0 the banded region is not where the documentation puts it *)
Lemma block_position_rejected {A} (zero : A) tiny n kl ku b1 x m :
  0 <= kl -> 0 <= ku -> 0 < b1 -> 2 * kl + 1 + ku < n - b1 -> tiny x = false ->
  make zero (ReqBlock n kl ku false b1 0) = Ok m ->
  (* (0, ku+1) lies in the first row, i.e. in the dense blocks A or B *)
  set A tiny m 0 (ku + 1) x = AssertFail.
Proof.
  intros Hkl Hku Hb Hlt Hx Em.
  destruct (make_ok zero (ReqBlock n kl ku false b1 0)) as [m0 [E [W [F [S _]]]]]; [cbn; lia|].
  rewrite Em in E; injection E as <-. cbn [req_n] in S.
  apply (set_illegal A tiny m W); [unfold inr; rewrite S; lia| |exact Hx].
  cbn [make] in Em. unfold make_new_block_with_banded_region in Em. cbn [andb] in Em.
  replace (n - b1 - 0 <=? 2 * kl + 1 + ku) with false in Em by lia.
  destruct (new_banded_ok A zero (n - b1 - 0) kl ku) as [q [Eq [_ [_ Shq]]]]; [lia|lia|lia|].
  rewrite Eq in Em. cbn [bind] in Em. replace (0 =? 0) with true in Em by lia.
  unfold new_corner, new_corner_sized in Em.
  destruct (alloc _ _ (b1 * (n - b1))); cbn [bind] in Em; try discriminate.
  destruct (alloc _ _ ((n - b1) * b1)); cbn [bind] in Em; try discriminate.
  destruct (check (0 <? b1)); cbn [bind] in Em; try discriminate.
  destruct (alloc _ _ (b1 * b1)); cbn [bind] in Em; try discriminate.
  destruct (check _); cbn [bind] in Em; try discriminate.
  injection Em as <-. cbn [shape_of stored]. rewrite Shq. cbn [stored].
  unfold within, band.
  replace ((0 <=? 0) && (0 <? n - b1) && ((0 <=? ku + 1) && (ku + 1 <? n - b1)))%bool with true by lia.
  lia.
Qed.

(** ** a concrete system: 5 x 5 periodic tridiagonal, stored by the periodic class *)
Definition ex_M (i j : Z) : R :=
  if ((0 <=? i) && (i <? 8) && (0 <=? j) && (j <? 8))%bool then
    if i =? j then 3%R
    else if cyclic_band 8 1 1 i j then 1%R else 0%R
  else 0%R.

Definition all_writes (n : nat) (M : Z -> Z -> R) : list (Z * Z * R) :=
  flat_map (fun i => map (fun j => (Z.of_nat i, Z.of_nat j, M (Z.of_nat i) (Z.of_nat j))) (seq 0 n)) (seq 0 n).

Lemma all_writes_lists n M : lists_elements 0%R (Z.of_nat n) M (all_writes n M).
Proof.
  split.
  - intros i j x H. unfold all_writes in H. apply in_flat_map in H. destruct H as [a [Ha Hb]].
    apply in_map_iff in Hb. destruct Hb as [b [Eb Hb]]. injection Eb as <- <- <-.
    apply in_seq in Ha, Hb. split; [lia|split; [lia|reflexivity]].
  - intros i j Hi Hj. right. unfold all_writes. apply in_flat_map. exists (Z.to_nat i).
    split; [apply in_seq; lia|]. apply in_map_iff. exists (Z.to_nat j).
    rewrite !Z2Nat.id by lia. split; [reflexivity|apply in_seq; lia].
Qed.

(** diagonally dominant matrices are regular *)
Lemma Rsum_Rabs n f : (Rabs (Rsum n f) <= Rsum n (fun i => Rabs (f i)))%R.
Proof.
  induction n as [|n IH]; cbn [Rsum]; [rewrite Rabs_R0; lra|].
  eapply Rle_trans; [apply Rabs_triang|]. lra.
Qed.

Lemma max_index n (x : vec) : (0 < n)%nat ->
  exists k, (k < n)%nat /\ forall i, (i < n)%nat -> (Rabs (x i) <= Rabs (x k))%R.
Proof.
  induction n as [|n IH]; intros Hn; [lia|].
  destruct n as [|n]; [exists 0%nat; split; [lia|]; intros i Hi; replace i with 0%nat by lia; lra|].
  destruct IH as [k [Hk Hm]]; [lia|].
  destruct (Rle_dec (Rabs (x (S n))) (Rabs (x k))) as [H|H].
  - exists k. split; [lia|]. intros i Hi. destruct (Nat.eq_dec i (S n)) as [->|]; [exact H|apply Hm; lia].
  - exists (S n). split; [lia|]. intros i Hi. destruct (Nat.eq_dec i (S n)) as [->|]; [lra|].
    specialize (Hm i ltac:(lia)). lra.
Qed.

Lemma dominant_regular n (M : mat) :
  (forall i, (i < n)%nat ->
     (Rsum n (fun j => if Nat.eqb j i then 0 else Rabs (M i j)) < Rabs (M i i))%R) ->
  regular n M.
Proof.
  intros Hd x Hx i Hi.
  destruct (max_index n x ltac:(lia)) as [k [Hk Hm]].
  assert (E : Rabs (x k) = 0%R).
  { destruct (Req_dec (x k) 0) as [->|Hne]; [apply Rabs_R0|exfalso].
    specialize (Hx k Hk). specialize (Hd k Hk).
    assert (Hs : (M k k * x k = - Rsum n (fun j => if Nat.eqb j k then 0 else M k j * x j))%R).
    { assert (E : (Rsum n (fun j => if Nat.eqb j k then M k j * x j else 0) = M k k * x k)%R).
      { rewrite (Rsum_single n _ k Hk); [rewrite Nat.eqb_refl; reflexivity|].
        intros j _ Hj. replace (Nat.eqb j k) with false by lia. reflexivity. }
      rewrite <- E. rewrite <- (Rplus_0_r (Rsum n (fun j => if Nat.eqb j k then M k j * x j else 0)%R)).
      assert (Hx' : (Rsum n (fun j => if Nat.eqb j k then M k j * x j else 0) +
                     Rsum n (fun j => if Nat.eqb j k then 0 else M k j * x j) = 0)%R).
      { rewrite <- Rsum_plus, <- Hx. apply Rsum_ext. intros j _. destruct (Nat.eqb j k); lra. }
      lra. }
    assert (Hle : (Rabs (M k k) * Rabs (x k) <=
                   Rsum n (fun j => if Nat.eqb j k then 0 else Rabs (M k j)) * Rabs (x k))%R).
    { rewrite <- Rabs_mult, Hs, Rabs_Ropp. eapply Rle_trans; [apply Rsum_Rabs|].
      rewrite <- Rsum_scal_r. apply Rsum_le. intros j Hj. destruct (Nat.eqb j k).
      - rewrite Rabs_R0. lra.
      - rewrite Rabs_mult. apply Rmult_le_compat_l; [apply Rabs_pos|apply Hm; exact Hj]. }
    assert (0 < Rabs (x k))%R by (apply Rabs_pos_lt; exact Hne).
    nra. }
  specialize (Hm i Hi). pose proof (Rabs_pos (x i)).
  destruct (Req_dec (x i) 0) as [->|Hne]; [reflexivity|].
  pose proof (Rabs_pos_lt _ Hne). lra.
Qed.

Lemma ex_fits : fits 0%R (ReqPeriodic 8 1 1 false) ex_M.
Proof.
  split; [discriminate|]. intros i j H. unfold ex_M. rewrite H.
  destruct (_ && _)%bool; [|reflexivity]. destruct (i =? j) eqn:E; [|reflexivity].
  unfold cyclic_band in H. replace (i - j) with 0 in H by lia. cbn in H. discriminate.
Qed.

Lemma ex_M_val i j : (i < 8)%nat -> (j < 8)%nat ->
  natmat ex_M i j = if Nat.eqb j i then 3%R else
     if cyclic_band 8 1 1 (Z.of_nat i) (Z.of_nat j) then 1%R else 0%R.
Proof.
  intros Hi Hj. unfold natmat, ex_M.
  replace ((0 <=? Z.of_nat i) && (Z.of_nat i <? 8) && (0 <=? Z.of_nat j) && (Z.of_nat j <? 8))%bool with true by lia.
  replace (Z.of_nat i =? Z.of_nat j) with (Nat.eqb j i) by lia. reflexivity.
Qed.

Lemma ex_solvable : solvable (ReqPeriodic 8 1 1 false) ex_M.
Proof.
  unfold solvable. cbn [req_pds req_n region_size region_start]. split.
  - apply dominant_regular. intros i Hi. change (Z.to_nat 8) with 8%nat in *.
    rewrite (Rsum_ext 8 _ (fun j => if Nat.eqb j i then 0 else if cyclic_band 8 1 1 (Z.of_nat i) (Z.of_nat j) then 1 else 0)%R).
    2:{ intros j Hj. destruct (Nat.eqb j i) eqn:E; [reflexivity|]. rewrite ex_M_val, E by assumption.
        destruct (cyclic_band _ _ _ _ _); [apply Rabs_R1|apply Rabs_R0]. }
    rewrite ex_M_val, Nat.eqb_refl by assumption. rewrite (Rabs_pos_eq 3) by lra.
    do 8 (destruct i as [|i]; [cbn; lra|]). lia.
  - change (Z.to_nat (8 - Z.max 1 1)) with 7%nat.
    apply dominant_regular. intros i Hi.
    rewrite (Rsum_ext 7 _ (fun j => if Nat.eqb j i then 0 else if cyclic_band 8 1 1 (Z.of_nat i) (Z.of_nat j) then 1 else 0)%R).
    2:{ intros j Hj. destruct (Nat.eqb j i) eqn:E; [reflexivity|].
        change (natmat (fun i j => ex_M (0 + i) (0 + j)) i j) with (natmat ex_M i j).
        rewrite ex_M_val, E by lia.
        destruct (cyclic_band _ _ _ _ _); [apply Rabs_R1|apply Rabs_R0]. }
    change (natmat (fun i j => ex_M (0 + i) (0 + j)) i i) with (natmat ex_M i i).
    rewrite ex_M_val, Nat.eqb_refl by lia. rewrite (Rabs_pos_eq 3) by lra.
    do 7 (destruct i as [|i]; [cbn; lra|]). lia.
Qed.

(** a block system: n = 6, banded region of size 3 in rows 1..3 (b1 = 1, b2 = 2) *)
Definition ex_B (i j : Z) : R :=
  if ((1 <=? i) && (i <? 4) && (1 <=? j) && (j <? 4))%bool then (if i =? j then 10%R else 0%R)
  else if i =? j then 10%R else 1%R.
Lemma ex_B_val i j : natmat ex_B i j = if Nat.eqb j i then 10%R else
  if ((1 <=? Z.of_nat i) && (Z.of_nat i <? 4) && (1 <=? Z.of_nat j) && (Z.of_nat j <? 4))%bool then 0%R else 1%R.
Proof.
  unfold natmat, ex_B. replace (Z.of_nat i =? Z.of_nat j) with (Nat.eqb j i) by lia.
  destruct (_ && _)%bool; destruct (Nat.eqb j i); reflexivity.
Qed.
Lemma ex_B_regular_block s n : (n <= 9)%nat ->
  regular n (fun i j => natmat ex_B (s + i)%nat (s + j)%nat).
Proof.
  intros Hn. apply dominant_regular. intros i Hi.
  rewrite ex_B_val, Nat.eqb_refl. rewrite (Rabs_pos_eq 10) by lra.
  assert (H : (Rsum n (fun j => if Nat.eqb j i then 0 else Rabs (natmat ex_B (s + i)%nat (s + j)%nat)) <= Rsum n (fun _ => 1))%R).
  { apply Rsum_le. intros j Hj. destruct (Nat.eqb j i) eqn:E; [lra|]. rewrite ex_B_val.
    replace (Nat.eqb (s + j) (s + i)) with false by lia.
    destruct (_ && _)%bool; rewrite ?Rabs_R0, ?Rabs_R1; lra. }
  rewrite Rsum_const in H. apply le_INR in Hn. simpl (INR 9) in Hn. lra.
Qed.
Lemma ex_B_solvable b1 b2 : 0 <= b1 -> 0 <= b2 -> 0 < b1 + b2 < 6 -> solvable (ReqBlock 6 0 0 false b1 b2) ex_B.
Proof.
  intros H1 H2 H3. unfold solvable. cbn [req_pds req_n region_size region_start]. split.
  - exact (ex_B_regular_block 0 6 ltac:(lia)).
  - intros x Hx. apply (ex_B_regular_block (Z.to_nat (band_start b1 b2)) (Z.to_nat (6 - b1 - b2)) ltac:(lia)).
    intros i Hi. rewrite <- (Hx i Hi). apply Rsum_ext. intros j Hj. unfold natmat. f_equal. f_equal.
    + unfold band_start. destruct (b2 =? 0); lia.
    + unfold band_start. destruct (b2 =? 0); lia.
Qed.
Lemma ex_B_fits : fits 0%R (ReqBlock 6 0 0 false 1 2) ex_B.
Proof.
  split; [discriminate|]. cbv zeta. change (band_start 1 2) with 1. change (1 + (6 - 1 - 2)) with 4. intros i j Hi Hj H. unfold band in H. unfold ex_B.
  replace ((1 <=? i) && (i <? 4) && (1 <=? j) && (j <? 4))%bool with true by lia.
  replace (i =? j) with false by lia. reflexivity.
Qed.

(** the same size, but the first block (3) larger than the banded region (2) *)
Definition ex_D (i j : Z) : R := if i =? j then 10%R else 0%R.
Lemma ex_D_regular_block s n : regular n (fun i j => natmat ex_D (s + i)%nat (s + j)%nat).
Proof.
  apply dominant_regular. intros i Hi. rewrite Rsum_zero.
  - unfold natmat, ex_D. rewrite Z.eqb_refl. rewrite Rabs_pos_eq; lra.
  - intros j Hj. destruct (Nat.eqb j i) eqn:E; [reflexivity|]. unfold natmat, ex_D.
    replace (Z.of_nat (s + i) =? Z.of_nat (s + j)) with false by lia. apply Rabs_R0.
Qed.
Lemma ex_D_solvable : solvable (ReqBlock 6 0 0 false 3 1) ex_D.
Proof.
  split.
  - exact (ex_D_regular_block 0 6).
  - intros x Hx. apply (ex_D_regular_block 3 2). intros i Hi. rewrite <- (Hx i Hi).
    apply Rsum_ext. intros j Hj. unfold natmat. f_equal. change (region_start (ReqBlock 6 0 0 false 3 1)) with 3. f_equal; lia.
Qed.
Lemma ex_D_fits : fits 0%R (ReqBlock 6 0 0 false 3 1) ex_D.
Proof.
  split; [discriminate|]. cbv zeta. intros i j _ _ H. unfold band in H. unfold ex_D.
  replace (i =? j) with false by lia. reflexivity.
Qed.

(** positive definite: 2 on the diagonal, -1 beside it, written through one triangle *)
Definition ex_P (i j : Z) : R := if i =? j then 2%R else if band 1 1 i j then (-1)%R else 0%R.
Lemma ex_P_fits n : fits 0%R (ReqBanded n 1 1 true) ex_P.
Proof.
  split.
  - intros _ i j. unfold ex_P, band. replace (j =? i) with (i =? j) by lia.
    replace ((j - i <=? 1) && (i - j <=? 1))%bool with ((i - j <=? 1) && (j - i <=? 1))%bool by lia. reflexivity.
  - intros i j H. unfold ex_P. rewrite H. unfold band in H. replace (i =? j) with false by lia. reflexivity.
Qed.
Lemma ex_P_solvable : solvable (ReqBanded 3 1 1 true) ex_P.
Proof.
  unfold solvable. cbn [req_pds req_n]. intros x [i [Hi Hx]]. change (Z.to_nat 3) with 3%nat in *.
  cbn [Rsum]. unfold natmat, ex_P, band. cbn.
  assert (E : (x 0%nat * x 0%nat + (x 0%nat - x 1%nat) * (x 0%nat - x 1%nat)
               + (x 1%nat - x 2%nat) * (x 1%nat - x 2%nat) + x 2%nat * x 2%nat > 0)%R).
  { assert (Hsq : forall a, (0 <= a * a)%R) by (intros; nra).
    destruct (Req_dec (x 0%nat) 0) as [E0|E0].
    - destruct (Req_dec (x 1%nat) 0) as [E1|E1].
      + destruct i as [|[|[|i]]]; try lia; try contradiction.
        pose proof (Rsqr_pos_lt _ Hx) as H. unfold Rsqr in H.
        pose proof (Hsq (x 0%nat - x 1%nat)%R). pose proof (Hsq (x 1%nat - x 2%nat)%R). pose proof (Hsq (x 0%nat)). lra.
      + pose proof (Rsqr_pos_lt _ E1) as H. unfold Rsqr in H.
        pose proof (Hsq (x 1%nat - x 2%nat)%R). pose proof (Hsq (x 2%nat)). pose proof (Hsq (x 0%nat)).
        rewrite E0 in *. nra.
    - pose proof (Rsqr_pos_lt _ E0) as H. unfold Rsqr in H.
      pose proof (Hsq (x 0%nat - x 1%nat)%R). pose proof (Hsq (x 1%nat - x 2%nat)%R). pose proof (Hsq (x 2%nat)). lra. }
  lra.
Qed.
