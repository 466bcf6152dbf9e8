From Verif Require Import Lib BatchModel BatchSpec.
From Coq Require Import ZifyBool ZifyNat Sorting.Sorted Sorting.Permutation.
Open Scope R_scope.

(** ** Specification: the matrix denoted by triplets and by a CSR structure *)
Lemma Rsum_filter (g : nat -> R) (p : nat -> bool) n :
  Rsum n (fun k => if p k then g k else 0) =
  Rsum (length (filter p (seq 0 n))) (fun t => g (nth t (filter p (seq 0 n)) 0%nat)).
Proof.
  induction n as [|n IH]; [reflexivity|].
  rewrite seq_S, filter_app. cbn [Rsum filter]. rewrite Nat.add_0_l, IH.
  destruct (p n).
  - rewrite app_length. cbn [length]. rewrite Nat.add_1_r. cbn [Rsum]. f_equal.
    + apply Rsum_ext. intros t Ht. rewrite app_nth1 by exact Ht. reflexivity.
    + rewrite app_nth2, Nat.sub_diag by lia. reflexivity.
  - rewrite app_nil_r. lra.
Qed.

Lemma filter_disjoint_length {A} (p q : A -> bool) l :
  (forall x, p x = true -> q x = false) ->
  (length (filter p l) + length (filter q l) <= length l)%nat.
Proof.
  intros H. induction l as [|x l IH]; cbn [filter length]; [lia|].
  specialize (H x). destruct (p x), (q x); cbn [length]; try lia.
Qed.

Lemma filter_split_length {A} (p q : A -> bool) l :
  (forall x, p x = true -> q x = false) ->
  (length (filter p l) + length (filter q l) = length (filter (fun x => p x || q x)%bool l))%nat.
Proof.
  intros H. induction l as [|x l IH]; cbn [filter length]; [lia|].
  specialize (H x). destruct (p x), (q x); cbn [length orb]; try lia.
Qed.

Lemma filter_length_le' {A} (p : A -> bool) l : (length (filter p l) <= length l)%nat.
Proof. induction l as [|x l IH]; cbn [filter length]; [lia|]. destruct (p x); cbn [length]; lia. Qed.

Section Convert.
Variables (nnz : nat) (row col : nat -> nat) (vals : nat -> R).

Definition rowl (i k : nat) : list nat := filter (fun k => Nat.eqb (row k) i) (seq 0 k).
Fixpoint pref (i : nat) : list nat :=
  match i with O => [] | S i => pref i ++ rowl i nnz end.

Lemma pref_length i : length (pref i) = length (filter (fun k => Nat.ltb (row k) i) (seq 0 nnz)).
Proof.
  induction i as [|i IH]; cbn [pref].
  - symmetry. cbn. assert (E : forall l, filter (fun k => Nat.ltb (row k) 0) l = []); [|rewrite E; reflexivity].
    induction l as [|x l IHl]; [reflexivity|]. cbn [filter]. exact IHl.
  - rewrite app_length, IH. unfold rowl.
    rewrite filter_split_length by (intros; lia). f_equal. apply filter_ext. intros; lia.
Qed.

Lemma rowl_S i k : rowl i (S k) = if Nat.eqb (row k) i then rowl i k ++ [k] else rowl i k.
Proof.
  unfold rowl. rewrite seq_S, filter_app. cbn [filter]. rewrite Nat.add_0_l.
  destruct (Nat.eqb (row k) i); [reflexivity|apply app_nil_r].
Qed.

Lemma rowl_length_le i k : (k <= nnz)%nat -> (length (rowl i k) <= length (rowl i nnz))%nat.
Proof.
  intros H. unfold rowl. replace nnz with (k + (nnz - k))%nat by lia.
  rewrite seq_app, filter_app, app_length. lia.
Qed.

Lemma pos_bound i k : (k < nnz)%nat -> row k = i ->
  (length (pref i) + length (rowl i k) < nnz)%nat.
Proof.
  intros Hk Hr.
  assert (H1 : (length (rowl i (S k)) <= length (rowl i nnz))%nat) by (apply rowl_length_le; lia).
  rewrite rowl_S, Hr, Nat.eqb_refl, app_length in H1. cbn [length] in H1.
  rewrite pref_length.
  pose proof (filter_disjoint_length (fun k => Nat.ltb (row k) i) (fun k => Nat.eqb (row k) i) (seq 0 nnz) ltac:(intros x; cbv beta; intros; lia)) as H2.
  rewrite seq_length in H2. unfold rowl in *. lia.
Qed.

Definition agrees (L : list nat) (idx : nat -> nat) (v : nat -> R) : Prop :=
  forall p, (p < length L)%nat -> idx p = col (nth p L 0%nat) /\ v p = vals (nth p L 0%nat).

Lemma agrees_snoc L idx v k : agrees L idx v ->
  agrees (L ++ [k]) (upd idx (length L) (col k)) (upd v (length L) (vals k)).
Proof.
  intros H p Hp. rewrite app_length in Hp. cbn [length] in Hp.
  destruct (Nat.eq_dec p (length L)) as [->|Hn].
  - rewrite !upd_eq, app_nth2, Nat.sub_diag by lia. split; reflexivity.
  - rewrite !upd_neq by exact Hn. rewrite app_nth1 by lia. apply H. lia.
Qed.

Lemma coo_row_spec i start idx v :
  start = length (pref i) -> agrees (pref i) idx v ->
  exists idx' v', coo_row nnz row col vals i start (idx, v) = Ok (length (rowl i nnz), idx', v') /\
    agrees (pref i ++ rowl i nnz) idx' v'.
Proof.
  intros Hs Ha. unfold coo_row. cbn [fst snd].
  assert (H : forall m, (m <= nnz)%nat -> exists idx' v',
    for_loop m (fun k r => let* (cnt, idx, v) := r in
      if Nat.eqb (row k) i then
        let* idx := wr_in nnz idx (start + cnt) (col k) in
        let* v := wr_in nnz v (start + cnt) (vals k) in
        Ok (S cnt, idx, v)
      else Ok (cnt, idx, v)) (Ok (0%nat, idx, v)) = Ok (length (rowl i m), idx', v') /\
    agrees (pref i ++ rowl i m) idx' v').
  { induction m as [|m IH]; intros Hm; cbn [for_loop].
    - exists idx, v. split; [reflexivity|]. change (rowl i 0) with (@nil nat). rewrite app_nil_r. exact Ha.
    - destruct IH as [idx' [v' [E A]]]; [lia|]. rewrite E. cbn [bind].
      rewrite rowl_S. destruct (Nat.eqb (row m) i) eqn:Er.
      + assert (Hb : (start + length (rowl i m) < nnz)%nat) by (rewrite Hs; apply pos_bound; lia).
        unfold wr_in. replace (Nat.ltb (start + length (rowl i m)) nnz) with true by lia. cbn [bind].
        eexists _, _. split; [rewrite app_length; cbn [length]; rewrite Nat.add_1_r; reflexivity|].
        rewrite app_assoc. replace (start + length (rowl i m))%nat with (length (pref i ++ rowl i m)) by (rewrite app_length; lia).
        apply agrees_snoc. exact A.
      + exists idx', v'. split; [reflexivity|exact A]. }
  apply H. lia.
Qed.

Lemma nth_pref_app n i t : (i < n)%nat -> (t < length (rowl i nnz))%nat ->
  nth (length (pref i) + t) (pref n) 0%nat = nth t (rowl i nnz) 0%nat /\
  (length (pref i) + t < length (pref n))%nat.
Proof.
  intros Hi Ht.
  assert (E : exists rest, pref n = pref (S i) ++ rest).
  { clear Ht. induction n as [|n IH]; [lia|]. destruct (Nat.eq_dec i n) as [->|].
    - exists []. rewrite app_nil_r. reflexivity.
    - destruct IH as [rest E]; [lia|]. exists (rest ++ rowl n nnz).
      cbn [pref] in *. rewrite E, app_assoc. reflexivity. }
  destruct E as [rest ->]. cbn [pref]. rewrite <- app_assoc.
  rewrite app_nth2 by lia. replace (length (pref i) + t - length (pref i))%nat with t by lia.
  rewrite app_nth1 by exact Ht. rewrite !app_length. split; [reflexivity|lia].
Qed.

End Convert.

Section ConvertMain.
Variables (batch n len : nat) (vals : nat -> R) (row col : nat -> nat).
Hypothesis Hbatch : (0 < batch)%nat.
Let nnz := (len / batch)%nat.

Lemma convert_rows :
  exists rp idx v,
    for_loop n (fun i r =>
      let* (rp, idx, v) := r in
      let* (cnt, idx, v) := coo_row nnz row col vals i (rp i) (idx, v) in
      let* rp := wr_in (n + 1) rp (i + 1) (rp i + cnt)%nat in
      Ok (rp, idx, v))
      (Ok (upd (upd (fun _ => 0%nat) 0 0%nat) n nnz, fun _ => 0%nat, fun _ => 0)) = Ok (rp, idx, v) /\
    ((0 < n)%nat -> forall i, (i <= n)%nat -> rp i = length (pref nnz row i)) /\
    agrees col vals (pref nnz row n) idx v.
Proof.
  assert (H : forall m, (m <= n)%nat -> exists rp idx v,
    for_loop m (fun i r =>
      let* (rp, idx, v) := r in
      let* (cnt, idx, v) := coo_row nnz row col vals i (rp i) (idx, v) in
      let* rp := wr_in (n + 1) rp (i + 1) (rp i + cnt)%nat in
      Ok (rp, idx, v))
      (Ok (upd (upd (fun _ => 0%nat) 0 0%nat) n nnz, fun _ => 0%nat, fun _ => 0)) = Ok (rp, idx, v) /\
    ((0 < n)%nat -> forall i, (i <= m)%nat -> rp i = length (pref nnz row i)) /\
    agrees col vals (pref nnz row m) idx v).
  { induction m as [|m IH]; intros Hm; cbn [for_loop].
    - eexists _, _, _. split; [reflexivity|]. split.
      + intros Hn i Hi. replace i with 0%nat by lia. rewrite upd_neq by lia. rewrite upd_eq. reflexivity.
      + intros p Hp. cbn in Hp. lia.
    - destruct IH as [rp [idx [v [E [Hrp Ha]]]]]; [lia|]. rewrite E. cbn [bind].
      assert (Hn : (0 < n)%nat) by lia. specialize (Hrp Hn).
      destruct (coo_row_spec nnz row col vals m (rp m) idx v) as [idx' [v' [Er Ha']]]; [apply Hrp; lia|exact Ha|].
      rewrite Er. cbn [bind]. unfold wr_in. replace (Nat.ltb (m + 1) (n + 1)) with true by lia. cbn [bind].
      eexists _, _, _. split; [reflexivity|]. split; [|exact Ha'].
      intros _ i Hi. destruct (Nat.eq_dec i (m + 1)) as [->|Hne].
      + rewrite upd_eq, (Hrp m) by lia. rewrite Nat.add_1_r. cbn [pref]. rewrite app_length. reflexivity.
      + rewrite upd_neq by exact Hne. apply Hrp. lia. }
  apply H. lia.
Qed.

Lemma nnz_bound b k : (b < batch)%nat -> (k < nnz)%nat -> (b * nnz + k < len)%nat.
Proof.
  intros Hb Hk.
  assert (H : (batch * nnz <= len)%nat) by (unfold nnz; apply Nat.mul_div_le; lia).
  assert (b * nnz + nnz <= batch * nnz)%nat by nia. lia.
Qed.

Lemma convert_batches v0 : exists vs,
    for_loop (batch - 1) (fun t r =>
      let* vs := r in
      let b := S t in
      for_loop nnz (fun k r =>
        let* vs := r in
        let* x := rd_in len vals (b * nnz + k) in
        let* row := wr_in nnz (vs b) k x in
        Ok (upd vs b row)) (Ok vs)) (Ok (upd (fun _ _ => 0) 0 v0)) = Ok vs /\
    vs 0%nat = v0 /\
    forall b k, (0 < b < batch)%nat -> (k < nnz)%nat -> vs b k = vals (b * nnz + k)%nat.
Proof.
  assert (H : forall m, (m <= batch - 1)%nat -> exists vs,
    for_loop m (fun t r =>
      let* vs := r in
      let b := S t in
      for_loop nnz (fun k r =>
        let* vs := r in
        let* x := rd_in len vals (b * nnz + k) in
        let* row := wr_in nnz (vs b) k x in
        Ok (upd vs b row)) (Ok vs)) (Ok (upd (fun _ _ => 0) 0 v0)) = Ok vs /\
    vs 0%nat = v0 /\
    forall b k, (0 < b <= m)%nat -> (k < nnz)%nat -> vs b k = vals (b * nnz + k)%nat).
  { cbv zeta. induction m as [|m IH]; intros Hm; cbn [for_loop].
    - eexists; split; [reflexivity|]. split; [apply upd_eq|intros; lia].
    - destruct IH as [vs [E [H0 H1]]]; [lia|]. rewrite E. cbn [bind].
      assert (Hin : forall q, (q <= nnz)%nat -> exists vs',
        for_loop q (fun k r =>
          let* vs := r in
          let* x := rd_in len vals (S m * nnz + k) in
          let* row := wr_in nnz (vs (S m)) k x in
          Ok (upd vs (S m) row)) (Ok vs) = Ok vs' /\
        (forall b, b <> S m -> vs' b = vs b) /\
        forall k, (k < q)%nat -> vs' (S m) k = vals (S m * nnz + k)%nat).
      { induction q as [|q IHq]; intros Hq; cbn [for_loop].
        - exists vs. split; [reflexivity|]. split; [reflexivity|intros; lia].
        - destruct IHq as [vs' [E' [K0 K1]]]; [lia|]. rewrite E'. cbn [bind].
          unfold rd_in, wr_in. pose proof (nnz_bound (S m) q ltac:(lia) ltac:(lia)).
          replace (Nat.ltb (S m * nnz + q) len) with true by lia. cbn [bind].
          replace (Nat.ltb q nnz) with true by lia. cbn [bind].
          eexists; split; [reflexivity|]. split.
          + intros b Hb. rewrite upd_neq by exact Hb. apply K0; exact Hb.
          + intros k Hk. rewrite upd_eq. destruct (Nat.eq_dec k q) as [->|Hne].
            * rewrite upd_eq. reflexivity.
            * rewrite upd_neq by exact Hne. apply K1. lia. }
      destruct (Hin nnz (le_n nnz)) as [vs' [E' [K0 K1]]]. cbv zeta. rewrite E'.
      eexists; split; [reflexivity|]. split; [rewrite K0 by lia; exact H0|].
      intros b k Hb Hk. destruct (Nat.eq_dec b (S m)) as [->|Hne]; [apply K1; exact Hk|].
      rewrite K0 by exact Hne. apply H1; [lia|exact Hk]. }
  destruct (H (batch - 1)%nat (le_n _)) as [vs [E [H0 H1]]].
  exists vs. split; [exact E|]. split; [exact H0|]. intros; apply H1; lia.
Qed.

Definition sorted_rows : Prop :=
  (forall k, (k < nnz)%nat -> (row k < n)%nat) /\
  (forall k, (S k < nnz)%nat -> (row k <= row (S k))%nat).

Lemma sorted_prefix (Hs : forall k, (S k < nnz)%nat -> (row k <= row (S k))%nat) k k' :
  (k <= k')%nat -> (k' < nnz)%nat -> (row k <= row k')%nat.
Proof.
  intros H H'. induction k' as [|k' IH]; [replace k with 0%nat by lia; lia|].
  destruct (Nat.eq_dec k (S k')) as [->|]; [lia|].
  specialize (IH ltac:(lia) ltac:(lia)). specialize (Hs k' H'). lia.
Qed.

Lemma sorted_pref (Hs : sorted_rows) : pref nnz row n = seq 0 nnz.
Proof.
  destruct Hs as [Hr Hs].
  assert (Hf : forall i, pref nnz row i = filter (fun k => Nat.ltb (row k) i) (seq 0 nnz)).
  { induction i as [|i IH]; cbn [pref].
    - symmetry. assert (E : forall l, filter (fun k => Nat.ltb (row k) 0) l = []); [|apply E].
      induction l as [|x l IHl]; [reflexivity|exact IHl].
    - rewrite IH. unfold rowl.
      assert (G : forall m, (m <= nnz)%nat ->
         filter (fun k => Nat.ltb (row k) i) (seq 0 m) ++ filter (fun k => Nat.eqb (row k) i) (seq 0 m) =
         filter (fun k => Nat.ltb (row k) (S i)) (seq 0 m)).
      { induction m as [|m IHm]; intros Hm; [reflexivity|].
        rewrite seq_S, !filter_app. cbn [filter]. rewrite Nat.add_0_l, <- IHm by lia.
        destruct (Nat.ltb (row m) i) eqn:E1; destruct (Nat.eqb (row m) i) eqn:E2; try lia.
        - replace (Nat.ltb (row m) (S i)) with true by lia. rewrite app_nil_r.
          assert (E : filter (fun k => Nat.eqb (row k) i) (seq 0 m) = []).
          { assert (E : forall l, (forall x, In x l -> (x < m)%nat) -> filter (fun k => Nat.eqb (row k) i) l = []).
            { induction l as [|x l IHl]; intros Hl; [reflexivity|]. cbn [filter].
              pose proof (sorted_prefix Hs x m ltac:(specialize (Hl x (or_introl eq_refl)); lia) ltac:(lia)).
              replace (Nat.eqb (row x) i) with false by lia. apply IHl. intros y Hy. apply Hl; right; exact Hy. }
            apply E. intros x Hx. apply in_seq in Hx. lia. }
          rewrite E, !app_nil_r. reflexivity.
        - replace (Nat.ltb (row m) (S i)) with true by lia. rewrite app_nil_r, app_assoc. reflexivity.
        - replace (Nat.ltb (row m) (S i)) with false by lia. rewrite !app_nil_r. reflexivity. }
      apply G. lia. }
  rewrite Hf.
  assert (E : forall l, (forall x, In x l -> (x < nnz)%nat) -> filter (fun k => Nat.ltb (row k) n) l = l).
  { induction l as [|x l IHl]; intros Hl; [reflexivity|]. cbn [filter].
    pose proof (Hr x (Hl x (or_introl eq_refl))). replace (Nat.ltb (row x) n) with true by lia.
    f_equal. apply IHl. intros y Hy. apply Hl; right; exact Hy. }
  apply E. intros x Hx. apply in_seq in Hx. lia.
Qed.

Theorem convert_correct :
  exists m, convert_coo_to_csr batch n len vals row col = Ok m /\
    (forall i j, (i < n)%nat -> csr_matrix m 0 i j = coo_matrix nnz row col vals i j) /\
    (sorted_rows -> forall b i j, (b < batch)%nat -> (i < n)%nat ->
       csr_matrix m b i j = coo_matrix nnz row col (fun k => vals (b * nnz + k)%nat) i j) /\
    ((0 < n)%nat -> row_ptr m 0 = 0%nat /\ (row_ptr m n <= nnz)%nat /\
       forall i, (i < n)%nat -> (row_ptr m i <= row_ptr m (i + 1))%nat).
Proof.
  unfold convert_coo_to_csr. fold nnz. cbv zeta.
  destruct convert_rows as [rp [idx [v [E [Hrp Ha]]]]]. rewrite E. cbn [bind].
  destruct (convert_batches v) as [vs [Ev [Hv0 Hvb]]]. cbv zeta in Ev. rewrite Ev. cbn [bind].
  eexists; split; [reflexivity|].
  assert (Hlen : forall i, (i < n)%nat -> (rp (i + 1) - rp i)%nat = length (rowl row i nnz) /\ rp i = length (pref nnz row i)).
  { intros i Hi. rewrite !Hrp by lia. rewrite Nat.add_1_r. cbn [pref]. rewrite app_length. split; [lia|reflexivity]. }
  assert (Hcsr : forall b i j w, (i < n)%nat ->
     (forall p, (p < length (pref nnz row n))%nat -> vs b p = w (nth p (pref nnz row n) 0%nat)) ->
     csr_matrix {| row_ptr := rp; col_idx := idx; values := vs |} b i j = coo_matrix nnz row col w i j).
  { intros b i j w Hi Hw. unfold csr_matrix, coo_matrix. cbn [row_ptr col_idx values].
    destruct (Hlen i Hi) as [H1 H2]. rewrite H1, H2.
    rewrite (Rsum_ext nnz _ (fun k => if Nat.eqb (row k) i then (if Nat.eqb (col k) j then w k else 0) else 0)).
    2:{ intros k _. destruct (Nat.eqb (row k) i); reflexivity. }
    rewrite (Rsum_filter (fun k => if Nat.eqb (col k) j then w k else 0) (fun k => Nat.eqb (row k) i) nnz).
    fold (rowl row i nnz). apply Rsum_ext. intros t Ht.
    destruct (nth_pref_app nnz row col vals n i t Hi Ht) as [N1 N2].
    rewrite Hw by exact N2. destruct (Ha _ N2) as [A1 _]. rewrite A1, N1. reflexivity. }
  split; [|split].
  - intros i j Hi. apply Hcsr; [exact Hi|]. intros p Hp. rewrite Hv0. apply Ha. exact Hp.
  - intros Hs b i j Hb Hi. apply Hcsr; [exact Hi|]. intros p Hp.
    destruct (Nat.eq_dec b 0) as [->|Hb0].
    + rewrite Hv0. cbn [Nat.mul Nat.add]. apply Ha. exact Hp.
    + rewrite sorted_pref in * by exact Hs. rewrite seq_length in Hp.
      rewrite seq_nth by exact Hp. cbn [Nat.add]. apply Hvb; lia.
  - intros Hn. cbn [row_ptr]. rewrite !Hrp by lia. split; [reflexivity|]. split.
    + rewrite (pref_length nnz row col vals). rewrite <- (seq_length nnz 0) at 2. apply filter_length_le'.
    + intros i Hi. rewrite !Hrp by lia. rewrite Nat.add_1_r. cbn [pref]. rewrite app_length. lia.
Qed.
End ConvertMain.

(** the batches after the first are wrong for unsorted triplets *)
Lemma convert_unsorted_wrong :
  let row := (fun k => match k with O => 1%nat | _ => 0%nat end) in
  let col := (fun _ : nat => 0%nat) in
  let vals := (fun k => match k with O => 10 | 1 => 20 | 2 => 30 | _ => 40 end%nat) in
  let vals := fun k => INR (vals k) in
  exists m, convert_coo_to_csr 2 2 4 vals row col = Ok m /\
    csr_matrix m 1%nat 0%nat 0%nat <> coo_matrix 2%nat row col (fun k => vals (1 * 2 + k)%nat) 0%nat 0%nat.
Proof.
  cbv zeta. eexists; split; [reflexivity|]. unfold csr_matrix, coo_matrix.
  cbn [row_ptr col_idx values]. unfold upd. cbn. lra.
Qed.

(** ** column sorting of a batch that shares its column indices *)
Definition elem_sum (l : list (nat * R)) (j : nat) : R :=
  fold_right (fun p acc => (if Nat.eqb (fst p) j then snd p else 0) + acc) 0 l.
Lemma insert_sum p l j : elem_sum (insert p l) j = (if Nat.eqb (fst p) j then snd p else 0) + elem_sum l j.
Proof.
  induction l as [|q l IH]; cbn [insert elem_sum fold_right]; [reflexivity|].
  destruct (Nat.leb (fst p) (fst q)); cbn [elem_sum fold_right]; [reflexivity|].
  fold (elem_sum (insert p l) j) (elem_sum l j). rewrite IH. lra.
Qed.
Lemma isort_sum l j : elem_sum (isort l) j = elem_sum l j.
Proof.
  induction l as [|p l IH]; [reflexivity|]. cbn [isort fold_right]. fold (isort l).
  rewrite insert_sum, IH. reflexivity.
Qed.
Lemma combine_split' (l : list (nat * R)) : combine (map fst l) (map snd l) = l.
Proof. induction l as [|[a b] l IH]; cbn; [reflexivity|rewrite IH; reflexivity]. Qed.

Lemma insert_sorted p l : sortedb (map fst l) = true -> sortedb (map fst (insert p l)) = true.
Proof.
  induction l as [|q l IH]; intros H; [reflexivity|]. cbn [insert].
  destruct (Nat.leb (fst p) (fst q)) eqn:E.
  - cbn [map]. cbn [map] in H. change (Nat.leb (fst p) (fst q) && sortedb (fst q :: map fst l) = true)%bool. rewrite E, H. reflexivity.
  - destruct l as [|r l].
    + cbn [insert map sortedb]. rewrite andb_true_r. lia.
    + assert (H' : (Nat.leb (fst q) (fst r) && sortedb (map fst (r :: l)))%bool = true) by exact H.
      apply andb_true_iff in H'. destruct H' as [H1 H2]. specialize (IH H2).
      cbn [insert] in *. destruct (Nat.leb (fst p) (fst r)) eqn:E2; cbn [map] in *.
      * change (Nat.leb (fst q) (fst p) && sortedb (fst p :: fst r :: map fst l) = true)%bool.
        rewrite IH, andb_true_r. lia.
      * change (Nat.leb (fst q) (fst r) && sortedb (fst r :: map fst (insert p l)) = true)%bool.
        rewrite IH, H1. reflexivity.
Qed.
Lemma isort_sorted l : sortedb (map fst (isort l)) = true.
Proof. induction l as [|p l IH]; [reflexivity|]. cbn [isort fold_right]. apply insert_sorted. exact IH. Qed.

(** already sorted: nothing happens *)
Lemma setup_sort_sorted batch m : forallb (fun r => sortedb (scols r)) m = true -> setup_sort batch m = m.
Proof.
  intros H. unfold setup_sort. induction batch as [|b IH]; [reflexivity|].
  cbn [for_loop]. rewrite IH. unfold sort_item. rewrite H. reflexivity.
Qed.

(** one matrix: columns sorted, matrix unchanged *)
Lemma setup_sort_single m : batch_ok 1 m ->
  forallb (fun r => sortedb (scols r)) (setup_sort 1 m) = true /\
  forall i j, row_elem (nth i (setup_sort 1 m) (Build_srow [] [])) 0 j = row_elem (nth i m (Build_srow [] [])) 0 j.
Proof.
  intros Hok. unfold setup_sort. cbn [for_loop]. unfold sort_item.
  destruct (forallb _ m) eqn:E; [split; [exact E|reflexivity]|]. split.
  - apply forallb_forall. intros r Hr. apply in_map_iff in Hr. destruct Hr as [r0 [<- _]].
    unfold sort_row; cbn [scols]. apply isort_sorted.
  - intros i j.
    destruct (Nat.ltb i (length m)) eqn:El.
    + rewrite (nth_indep _ _ (sort_row 0 (Build_srow [] []))) by (rewrite map_length; lia).
      rewrite map_nth. set (r := nth i m (Build_srow [] [])).
      assert (Hr : In r m) by (apply nth_In; lia).
      unfold batch_ok in Hok. rewrite Forall_forall in Hok. destruct (Hok r Hr) as [H1 H2].
      destruct (svals r) as [|v0 [|v1 vs]] eqn:Ev; cbn [length] in H1; try lia.
      unfold row_elem, sort_row. cbn [scols svals]. rewrite Ev. cbn [nth replace_nth].
      rewrite combine_split'. apply isort_sum.
    + rewrite !nth_overflow by (rewrite ?map_length; lia). reflexivity.
Qed.

(** two matrices: the second one is corrupted *)
Lemma setup_sort_batch_wrong :
  let m := [ {| scols := [1; 0]%nat; svals := [[1; 2]; [3; 4]] |} ] in
  batch_ok 2 m /\
  row_elem (nth 0 (setup_sort 2 m) (Build_srow [] [])) 1 0 <> row_elem (nth 0 m (Build_srow [] [])) 1 0.
Proof.
  cbv zeta. split.
  - repeat constructor.
  - unfold setup_sort, row_elem. cbn. lra.
Qed.

(** ** ELL addressing *)
Open Scope Z_scope.
Lemma ell_offset_view n nnz b line col : ell_offset n nnz b line col = ell_view_offset n nnz b line col.
Proof. unfold ell_offset, ell_view_offset. lia. Qed.

Lemma ell_in_bounds batch n nnz b line col :
  0 <= b < batch -> 0 <= line < n -> 0 <= col < nnz ->
  0 <= ell_offset n nnz b line col < batch * n * nnz.
Proof.
  unfold ell_offset. intros H1 H2 H3.
  assert (K : 0 <= b * nnz + col < batch * nnz) by nia.
  set (t := b * nnz + col) in *. replace (b * n * nnz + col * n + line) with (t * n + line) by (subst t; ring).
  replace (batch * n * nnz) with (batch * nnz * n) by ring. nia.
Qed.

Lemma ell_injective n nnz b line col b' line' col' :
  0 <= line < n -> 0 <= col < nnz -> 0 <= line' < n -> 0 <= col' < nnz ->
  ell_offset n nnz b line col = ell_offset n nnz b' line' col' -> b = b' /\ line = line' /\ col = col'.
Proof.
  unfold ell_offset. intros H1 H2 H3 H4 E.
  assert (E1 : line = line').
  { assert (F : line + n * (b * nnz + col) = line' + n * (b' * nnz + col')) by nia.
    pose proof (Z.mod_unique_pos (line + n * (b * nnz + col)) n (b * nnz + col) line H1 ltac:(lia)) as M1.
    pose proof (Z.mod_unique_pos (line + n * (b * nnz + col)) n (b' * nnz + col') line' H3 ltac:(lia)) as M2.
    congruence. }
  subst line'.
  assert (F : col + nnz * b = col' + nnz * b') by nia.
  pose proof (Z.mod_unique_pos (col + nnz * b) nnz b col H2 ltac:(lia)) as M1.
  pose proof (Z.mod_unique_pos (col + nnz * b) nnz b' col' H4 ltac:(lia)) as M2.
  assert (Ec : col = col') by congruence. rewrite <- Ec in *. clear M1 M2. split; [nia|split; reflexivity].
Qed.

Lemma ell_faithful batch n nnz buf b line col x :
  Z.of_nat (length buf) = batch * n * nnz ->
  0 <= b < batch -> 0 <= line < n -> 0 <= col < nnz ->
  exists buf', ell_set n nnz buf b line col x = Ok buf' /\
    length buf' = length buf /\
    ell_get n nnz buf' b line col = Ok x /\
    forall b' line' col', 0 <= b' < batch -> 0 <= line' < n -> 0 <= col' < nnz ->
      (b', line', col') <> (b, line, col) ->
      ell_get n nnz buf' b' line' col' = ell_get n nnz buf b' line' col'.
Proof.
  intros Hl Hb Hli Hc. unfold ell_set, ell_get, check.
  replace ((0 <=? col) && (col <=? nnz))%bool with true by lia. cbn [bind].
  pose proof (ell_in_bounds batch n nnz b line col Hb Hli Hc) as Hin.
  destruct (wr buf (ell_offset n nnz b line col) x) as [buf'| | |] eqn:E;
    try (rewrite wr_ok in E by lia; discriminate).
  exists buf'. split; [reflexivity|]. split; [eapply wr_length; exact E|]. split; [eapply rd_wr_eq; exact E|].
  intros b' line' col' Hb' Hl' Hc' Hne. replace ((0 <=? col') && (col' <=? nnz))%bool with true by lia.
  cbn [bind]. eapply rd_wr_neq; [exact E|]. intros Eo. apply Hne.
  apply ell_injective in Eo; try assumption. destruct Eo as [-> [-> ->]]. reflexivity.
Qed.

Lemma ell_off_by_one batch n nnz buf line : Z.of_nat (length buf) = batch * n * nnz ->
  0 < batch -> 0 <= line < n -> 0 < nnz ->
  (* column nnz passes the assertion: last batch leaves the buffer, *)
  ell_get n nnz buf (batch - 1) line nnz = Ub /\
  (* the other batches read column 0 of the next one *)
  forall b, 0 <= b < batch - 1 -> ell_get n nnz buf b line nnz = ell_get n nnz buf (b + 1) line 0.
Proof.
  intros Hl Hb Hli Hn. unfold ell_get, check.
  replace ((0 <=? nnz) && (nnz <=? nnz))%bool with true by lia.
  replace ((0 <=? 0) && (0 <=? nnz))%bool with true by lia. cbn [bind]. split.
  - unfold rd. assert (H : Z.of_nat (length buf) <= ell_offset n nnz (batch - 1) line nnz) by (unfold ell_offset; nia).
    replace (ell_offset n nnz (batch - 1) line nnz <? 0) with false by lia.
    destruct (nth_error buf _) eqn:E; [|reflexivity].
    assert (nth_error buf (Z.to_nat (ell_offset n nnz (batch - 1) line nnz)) <> None) as HN by congruence.
    apply nth_error_Some in HN. lia.
  - intros b Hbb. f_equal. unfold ell_offset. nia.
Qed.

(** ** norms *)
Open Scope R_scope.
Lemma running_max n (f : nat -> R) : (forall i, (i < n)%nat -> 0 <= f i) ->
  let m := for_loop n (fun i res => if Rlt_dec res (f i) then f i else res) 0 in
  0 <= m /\ (forall i, (i < n)%nat -> f i <= m) /\ ((0 < n)%nat -> exists i, (i < n)%nat /\ m = f i).
Proof.
  cbv zeta. induction n as [|n IH]; intros H; cbn [for_loop].
  - split; [lra|]. split; intros; lia.
  - destruct IH as [I0 [I1 I2]]; [intros; apply H; lia|].
    set (m := for_loop n _ 0) in *. destruct (Rlt_dec m (f n)) as [L|L].
    + split; [lra|]. split.
      * intros i Hi. destruct (Nat.eq_dec i n) as [->|]; [lra|]. specialize (I1 i ltac:(lia)). lra.
      * intros _. exists n. split; [lia|reflexivity].
    + split; [lra|]. split.
      * intros i Hi. destruct (Nat.eq_dec i n) as [->|]; [lra|]. apply I1; lia.
      * intros _. destruct n as [|n].
        -- exists 0%nat. split; [lia|]. cbn in m. subst m. specialize (H 0%nat ltac:(lia)). lra.
        -- destruct (I2 ltac:(lia)) as [i [Hi E]]. exists i. split; [lia|exact E].
Qed.

Lemma for_loop_Rsum n (f : nat -> R) : for_loop n (fun t acc => acc + f t) 0 = Rsum n f.
Proof. induction n as [|n IH]; cbn [for_loop Rsum]; [reflexivity|rewrite IH; reflexivity]. Qed.

(** a row without duplicate columns: the sum of the stored absolute values is the sum of
    the absolute values of the elements *)
Lemma row_abs_sum n len (c : nat -> nat) (v : nat -> R) :
  (forall t, (t < len)%nat -> (c t < n)%nat) ->
  (forall s t, (s < len)%nat -> (t < len)%nat -> c s = c t -> s = t) ->
  Rsum n (fun j => Rabs (Rsum len (fun t => if Nat.eqb (c t) j then v t else 0))) =
  Rsum len (fun t => Rabs (v t)).
Proof.
  intros Hc Hi.
  transitivity (Rsum n (fun j => Rsum len (fun t => if Nat.eqb (c t) j then Rabs (v t) else 0))).
  - apply Rsum_ext. intros j _.
    (* at most one t has c t = j *)
    clear Hc. induction len as [|len IH]; [cbn; apply Rabs_R0|].
    cbn [Rsum]. destruct (Nat.eqb (c len) j) eqn:E.
    + rewrite !Rsum_zero; [rewrite !Rplus_0_l; reflexivity| |];
        intros t Ht; replace (Nat.eqb (c t) j) with false; try reflexivity;
        (destruct (Nat.eqb (c t) j) eqn:E'; [|reflexivity]; specialize (Hi t len ltac:(lia) ltac:(lia)); lia).
    + rewrite !Rplus_0_r. apply IH. intros; apply Hi; lia.
  - rewrite Rsum_swap. apply Rsum_ext. intros t Ht.
    rewrite (Rsum_single n _ (c t)); [rewrite Nat.eqb_refl; reflexivity|apply Hc; exact Ht|].
    intros j _ Hj. replace (Nat.eqb (c t) j) with false by lia. reflexivity.
Qed.

Lemma csr_norm_correct n m b : (0 < n)%nat ->
  (forall i t, (i < n)%nat -> (row_ptr m i <= t < row_ptr m (i + 1))%nat -> (col_idx m t < n)%nat) ->
  (forall i s t, (i < n)%nat -> (row_ptr m i <= s < row_ptr m (i + 1))%nat ->
     (row_ptr m i <= t < row_ptr m (i + 1))%nat -> col_idx m s = col_idx m t -> s = t) ->
  (forall i, (i < n)%nat -> Rsum n (fun j => Rabs (csr_matrix m b i j)) <= csr_norm n m b) /\
  (exists i, (i < n)%nat /\ csr_norm n m b = Rsum n (fun j => Rabs (csr_matrix m b i j))).
Proof.
  intros Hn Hc Hi.
  set (f := fun i => Rsum n (fun j => Rabs (csr_matrix m b i j))).
  assert (E : csr_norm n m b = for_loop n (fun i res => if Rlt_dec res (f i) then f i else res) 0).
  { unfold csr_norm. apply for_loop_ext. intros i r Hir. cbv zeta. rewrite for_loop_Rsum.
    replace (f i) with (Rsum (row_ptr m (i + 1) - row_ptr m i) (fun t => Rabs (values m b (row_ptr m i + t)%nat))); [reflexivity|].
    symmetry. unfold f, csr_matrix. apply row_abs_sum.
    - intros t Ht. apply (Hc i); [exact Hir|lia].
    - intros s t Hs Ht Est. enough (row_ptr m i + s = row_ptr m i + t)%nat by lia.
      apply (Hi i); try assumption; lia. }
  rewrite E.
  destruct (running_max n f) as [_ [H1 H2]].
  { intros. unfold f. apply Rsum_nonneg. intros; apply Rabs_pos. }
  split; [exact H1|apply H2; exact Hn].
Qed.

Lemma ell_norm_correct batch n nnz buf b : (0 < n)%nat ->
  Z.of_nat (length buf) = (batch * Z.of_nat n * Z.of_nat nnz)%Z -> (0 <= b < batch)%Z ->
  let stored i k := match ell_get (Z.of_nat n) (Z.of_nat nnz) buf b (Z.of_nat i) (Z.of_nat k) with Ok x => x | _ => 0 end in
  (forall i, (i < n)%nat -> Rsum nnz (fun k => Rabs (stored i k)) <= ell_norm n nnz buf b) /\
  (exists i, (i < n)%nat /\ ell_norm n nnz buf b = Rsum nnz (fun k => Rabs (stored i k))).
Proof.
  intros Hn Hl Hb stored.
  assert (E : ell_norm n nnz buf b = for_loop n (fun i res => if Rlt_dec res (Rsum nnz (fun k => Rabs (stored i k))) then Rsum nnz (fun k => Rabs (stored i k)) else res) 0).
  { unfold ell_norm. apply for_loop_ext. intros i r Hi. cbv zeta. rewrite for_loop_Rsum.
    erewrite Rsum_ext; [reflexivity|]. intros k Hk. cbv beta. f_equal.
    unfold stored, ell_get, check. replace ((0 <=? Z.of_nat k) && (Z.of_nat k <=? Z.of_nat nnz))%Z%bool with true by lia.
    cbn [bind]. pose proof (ell_in_bounds batch (Z.of_nat n) (Z.of_nat nnz) b (Z.of_nat i) (Z.of_nat k) Hb ltac:(lia) ltac:(lia)) as B.
    rewrite <- ell_offset_view. unfold rd. replace (ell_offset (Z.of_nat n) (Z.of_nat nnz) b (Z.of_nat i) (Z.of_nat k) <? 0)%Z with false by lia.
    destruct (nth_error buf _) eqn:En.
    - apply nth_error_nth. exact En.
    - apply nth_error_None in En. lia. }
  rewrite E.
  destruct (running_max n (fun i => Rsum nnz (fun k => Rabs (stored i k)))) as [_ [H1 H2]].
  { intros. apply Rsum_nonneg. intros; apply Rabs_pos. }
  split; [exact H1|apply H2; exact Hn].
Qed.
