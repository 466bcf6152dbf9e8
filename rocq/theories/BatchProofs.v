From Verif Require Import Lib BatchModel MatrixSpec BatchSpec.
From Coq Require Import ZifyBool ZifyNat Sorting.Sorted.
Open Scope R_scope.

(** ** Thomas algorithm *)
Fixpoint dcoef (a d c b : vec) (i : nat) : R :=
  match i with
  | O => b 0%nat / d 0%nat
  | S j => (b i - a i * dcoef a d c b j) / pivot a d c i
  end.

Lemma forward_spec n a d c b i : (i < n)%nat ->
  fst (thomas_forward n a d c b) i = c i / pivot a d c i /\
  snd (thomas_forward n a d c b) i = dcoef a d c b i.
Proof.
  unfold thomas_forward. intros Hi.
  match goal with |- context [for_loop (n - 1) ?f ?s] =>
    assert (H : forall j, (j <= n - 1)%nat ->
       fst (for_loop (n - 1) f s) j = c j / pivot a d c j /\ snd (for_loop (n - 1) f s) j = dcoef a d c b j);
    [|apply H; lia];
    apply (for_loop_inv (fun m st => forall j, (j <= m)%nat -> fst st j = c j / pivot a d c j /\ snd st j = dcoef a d c b j))
  end.
  - intros j Hj. replace j with 0%nat by lia. cbn [fst snd]. rewrite !upd_eq. split; reflexivity.
  - intros t [cp dp] Ht IH j Hj. cbn [fst snd] in IH. cbn [fst snd].
    assert (E : (S t - 1)%nat = t) by lia. rewrite !E.
    destruct (IH t (le_n t)) as [IH1 IH2].
    rewrite (upd_neq cp (S t) t) by lia.
    destruct (Nat.eq_dec j (S t)) as [->|Hn].
    + rewrite !upd_eq. rewrite IH1, IH2. split; [reflexivity|]. cbn [dcoef pivot]. reflexivity.
    + rewrite !upd_neq by exact Hn. apply IH. lia.
Qed.

Lemma backward_spec n cp dp b : (0 < n)%nat ->
  let x := thomas_backward n cp dp b in
  x (n - 1)%nat = dp (n - 1)%nat /\
  (forall i, (S i < n)%nat -> x i = dp i - cp i * x (S i)) /\
  (forall i, (n <= i)%nat -> x i = b i).
Proof.
  intros Hn. cbv zeta. unfold thomas_backward.
  match goal with |- context [for_loop (n - 1) ?f ?s] =>
    assert (H : (for_loop (n - 1) f s) (n - 1)%nat = dp (n - 1)%nat /\
       (forall i, (n - 1 - (n - 1) <= i)%nat -> (S i < n)%nat ->
          for_loop (n - 1) f s i = dp i - cp i * for_loop (n - 1) f s (S i)) /\
       (forall i, (n <= i)%nat -> for_loop (n - 1) f s i = b i));
    [apply (for_loop_inv (fun m x => x (n - 1)%nat = dp (n - 1)%nat /\
       (forall i, (n - 1 - m <= i)%nat -> (S i < n)%nat -> x i = dp i - cp i * x (S i)) /\
       (forall i, (n <= i)%nat -> x i = b i)))|]
  end.
  - rewrite upd_eq. split; [reflexivity|]. split; [intros; lia|].
    intros i Hi. rewrite upd_neq by lia. reflexivity.
  - intros t x Ht [H1 [H2 H3]].
    set (k := (n - 2 - t)%nat). split; [|split].
    + rewrite upd_neq by (unfold k; lia). exact H1.
    + intros i Hi Hi'. destruct (Nat.eq_dec i k) as [->|Hik].
      * rewrite upd_eq, (upd_neq x k (S k)) by lia.
        replace (k + 1)%nat with (S k) by lia. reflexivity.
      * rewrite !upd_neq by (unfold k in *; lia). apply H2; [unfold k in *; lia|exact Hi'].
    + intros i Hi. rewrite upd_neq by (unfold k; lia). apply H3; exact Hi.
  - destruct H as [H1 [H2 H3]]. split; [exact H1|]. split; [|exact H3].
    intros i Hi. apply H2; lia.
Qed.

Lemma Rsum_tridiag n a d c x i : (i < n)%nat ->
  Rsum n (fun j => tridiag a d c i j * x j) =
  (if Nat.ltb 0 i then a i * x (i - 1)%nat else 0) + d i * x i +
  (if Nat.ltb (S i) n then c i * x (S i) else 0).
Proof.
  intros Hi.
  rewrite (Rsum_ext n _ (fun j => (if Nat.eqb (S j) i then a i * x j else 0) +
     ((if Nat.eqb j i then d i * x j else 0) + (if Nat.eqb j (S i) then c i * x j else 0)))).
  2:{ intros j _. unfold tridiag.
      destruct (Nat.eqb j i) eqn:E1; destruct (Nat.eqb (S j) i) eqn:E2; destruct (Nat.eqb j (S i)) eqn:E3;
        try lia; lra. }
  rewrite !Rsum_plus.
  rewrite (Rsum_single n (fun j => if Nat.eqb j i then d i * x j else 0) i Hi).
  2:{ intros j _ Hj. replace (Nat.eqb j i) with false by lia. reflexivity. }
  rewrite Nat.eqb_refl.
  assert (E1 : Rsum n (fun j => if Nat.eqb (S j) i then a i * x j else 0) =
               if Nat.ltb 0 i then a i * x (i - 1)%nat else 0).
  { destruct i as [|i].
    - apply Rsum_zero. intros; reflexivity.
    - rewrite (Rsum_single n _ i); [|lia|].
      + rewrite Nat.eqb_refl. cbn [Nat.ltb Nat.leb]. replace (S i - 1)%nat with i by lia. reflexivity.
      + intros j _ Hj. replace (Nat.eqb (S j) (S i)) with false by lia. reflexivity. }
  assert (E2 : Rsum n (fun j => if Nat.eqb j (S i) then c i * x j else 0) =
               if Nat.ltb (S i) n then c i * x (S i) else 0).
  { destruct (Nat.ltb (S i) n) eqn:E.
    - rewrite (Rsum_single n _ (S i)); [|lia|].
      + rewrite Nat.eqb_refl. reflexivity.
      + intros j _ Hj. replace (Nat.eqb j (S i)) with false by lia. reflexivity.
    - apply Rsum_zero. intros j Hj. replace (Nat.eqb j (S i)) with false by lia. reflexivity. }
  rewrite E1, E2. lra.
Qed.

Theorem thomas_solves n a d c b : (0 < n)%nat ->
  (forall i, (i < n)%nat -> pivot a d c i <> 0) ->
  exists x, thomas n a d c b = Ok x /\
    is_solution n (tridiag a d c) x b /\ (forall i, (n <= i)%nat -> x i = b i).
Proof.
  intros Hn Hp. unfold thomas. destruct n as [|n']; [lia|]. set (n := S n') in *.
  destruct (thomas_forward n a d c b) as [cp dp] eqn:E.
  assert (HF : forall i, (i < n)%nat -> cp i = c i / pivot a d c i /\ dp i = dcoef a d c b i).
  { intros i Hi. pose proof (forward_spec n a d c b i Hi) as H. rewrite E in H. exact H. }
  destruct (backward_spec n cp dp b Hn) as [B1 [B2 B3]].
  eexists; split; [reflexivity|]. set (x := thomas_backward n cp dp b) in *.
  split; [|exact B3].
  (* pivot i * x i + c i * x (i+1) = residual *)
  assert (HR : forall i, (i < n)%nat ->
     pivot a d c i * x i + (if Nat.ltb (S i) n then c i * x (S i) else 0) =
     pivot a d c i * dcoef a d c b i).
  { intros i Hi. destruct (HF i Hi) as [Hc Hd]. specialize (Hp i Hi).
    destruct (Nat.ltb (S i) n) eqn:El.
    - rewrite (B2 i) by lia. rewrite Hc, Hd. field. exact Hp.
    - replace i with (n - 1)%nat by lia. rewrite B1. replace (n - 1)%nat with i by lia. rewrite Hd. lra. }
  intros i Hi. rewrite Rsum_tridiag by exact Hi.
  pose proof (HR i Hi) as H. destruct i as [|i].
  - cbn [Nat.ltb Nat.leb] in *. cbn [pivot dcoef] in H. specialize (Hp 0%nat Hi). cbn [pivot] in Hp.
    replace (d 0%nat * (b 0%nat / d 0%nat)) with (b 0%nat) in H by (field; exact Hp).
    rewrite Rplus_0_l. exact H.
  - replace (Nat.ltb 0 (S i)) with true by lia. replace (S i - 1)%nat with i by lia.
    pose proof (Hp i ltac:(lia)) as Hpi. pose proof (Hp (S i) Hi) as HpS.
    assert (Hprev : x i = dcoef a d c b i - c i / pivot a d c i * x (S i)).
    { rewrite (B2 i) by lia. destruct (HF i ltac:(lia)) as [-> ->]. reflexivity. }
    cbn [dcoef] in H.
    replace (pivot a d c (S i) * ((b (S i) - a (S i) * dcoef a d c b i) / pivot a d c (S i)))
      with (b (S i) - a (S i) * dcoef a d c b i) in H by (field; exact HpS).
    cbn [pivot] in H. rewrite Hprev.
    replace (a (S i) * (dcoef a d c b i - c i / pivot a d c i * x (S i)) + d (S i) * x (S i) +
      (if Nat.ltb (S (S i)) n then c (S i) * x (S (S i)) else 0))
    with (a (S i) * dcoef a d c b i + ((d (S i) - a (S i) * (c i / pivot a d c i)) * x (S i) +
      (if Nat.ltb (S (S i)) n then c (S i) * x (S (S i)) else 0))) by lra.
    rewrite H. lra.
Qed.

Theorem tridiag_solve_correct batch n a d c b : (0 < n)%nat ->
  (forall k i, (k < batch)%nat -> (i < n)%nat -> pivot (a k) (d k) (c k) i <> 0) ->
  exists x, tridiag_solve batch n a d c b = Ok x /\
    (forall k, (k < batch)%nat -> is_solution n (tridiag (a k) (d k) (c k)) (x k) (b k)) /\
    (forall k i, (batch <= k)%nat \/ (n <= i)%nat -> x k i = b k i).
Proof.
  intros Hn. unfold tridiag_solve.
  assert (H : forall m,
    (forall k i, (k < m)%nat -> (i < n)%nat -> pivot (a k) (d k) (c k) i <> 0) ->
    exists x, for_loop m (fun k r => let* b := r in
      let* bk := thomas n (a k) (d k) (c k) (b k) in Ok (upd b k bk)) (Ok b) = Ok x /\
    (forall k, (k < m)%nat -> is_solution n (tridiag (a k) (d k) (c k)) (x k) (b k)) /\
    (forall k i, (m <= k)%nat \/ (n <= i)%nat -> x k i = b k i)).
  { induction m as [|m IH]; intros Hp; cbn [for_loop].
    - exists b. split; [reflexivity|]. split; [intros; lia|]. intros; reflexivity.
    - destruct IH as [x [E [H1 H2]]]; [intros; apply Hp; lia|]. rewrite E. cbn [bind].
      destruct (thomas_solves n (a m) (d m) (c m) (x m) Hn) as [y [Ey [Hy1 Hy2]]]; [intros; apply Hp; lia|].
      rewrite Ey. cbn [bind]. eexists; split; [reflexivity|]. split.
      + intros k Hk. destruct (Nat.eq_dec k m) as [->|Hkm].
        * rewrite upd_eq. intros i Hi. rewrite (Hy1 i Hi). apply H2. left; lia.
        * rewrite upd_neq by exact Hkm. apply H1. lia.
      + intros k i Hki. destruct (Nat.eq_dec k m) as [->|Hkm].
        * rewrite upd_eq. destruct Hki as [Hki|Hki]; [lia|]. rewrite Hy2 by exact Hki. apply H2. right; exact Hki.
        * rewrite upd_neq by exact Hkm. apply H2. lia. }
  intros Hp. apply H. exact Hp.
Qed.

(** sufficient conditions for non-zero pivots *)
Lemma div_abs_le c p : Rabs c <= Rabs p -> p <> 0 -> Rabs (c / p) <= 1.
Proof.
  intros H Hp. unfold Rdiv. rewrite Rabs_mult, Rabs_inv.
  assert (0 < Rabs p) by (apply Rabs_pos_lt; exact Hp).
  apply Rmult_le_reg_r with (Rabs p); [assumption|].
  rewrite Rmult_assoc, Rinv_l by lra. lra.
Qed.
Lemma div_abs_lt c p : Rabs c < Rabs p -> Rabs (c / p) < 1.
Proof.
  intros H. assert (Hp : 0 < Rabs p) by (pose proof (Rabs_pos c); lra).
  unfold Rdiv. rewrite Rabs_mult, Rabs_inv.
  apply Rmult_lt_reg_r with (Rabs p); [assumption|].
  rewrite Rmult_assoc, Rinv_l by lra. lra.
Qed.

Lemma strictly_dominant_pivots n a d c :
  (forall i, (i < n)%nat -> Rabs (a i) + Rabs (c i) < Rabs (d i)) ->
  forall i, (i < n)%nat -> pivot a d c i <> 0.
Proof.
  intros H i Hi.
  assert (HH : Rabs (c i) < Rabs (pivot a d c i)).
  { induction i as [|i IH]; cbn [pivot].
    - specialize (H 0%nat Hi). pose proof (Rabs_pos (a 0%nat)). lra.
    - specialize (IH ltac:(lia)). specialize (H (S i) Hi). apply div_abs_lt in IH.
      set (q := c i / pivot a d c i) in *.
      pose proof (Rabs_triang_inv (d (S i)) (a (S i) * q)) as T. rewrite Rabs_mult in T.
      assert (Rabs (a (S i)) * Rabs q <= Rabs (a (S i)) * 1)
        by (apply Rmult_le_compat_l; [apply Rabs_pos|lra]). lra. }
  intros E. rewrite E, Rabs_R0 in HH. pose proof (Rabs_pos (c i)). lra.
Qed.

(** weak dominance as tested by check_stability, strict on the first row, and no zero
    sub-diagonal element *)
Lemma weakly_dominant_pivots n a d c :
  Rabs (c 0%nat) < Rabs (d 0%nat) ->
  (forall i, (i < n)%nat -> Rabs (a i) + Rabs (c i) <= Rabs (d i)) ->
  (forall i, (0 < i < n)%nat -> a i <> 0) ->
  forall i, (i < n)%nat -> pivot a d c i <> 0.
Proof.
  intros H0 H Ha i Hi.
  assert (HH : Rabs (c i) < Rabs (pivot a d c i)).
  { induction i as [|i IH]; cbn [pivot]; [exact H0|].
    specialize (IH ltac:(lia)). specialize (H (S i) Hi). apply div_abs_lt in IH.
    specialize (Ha (S i) ltac:(lia)). apply Rabs_pos_lt in Ha.
    set (q := c i / pivot a d c i) in *.
    pose proof (Rabs_triang_inv (d (S i)) (a (S i) * q)) as T. rewrite Rabs_mult in T.
    assert (Rabs (a (S i)) * Rabs q < Rabs (a (S i)) * 1) by (apply Rmult_lt_compat_l; lra). lra. }
  intros E. rewrite E, Rabs_R0 in HH. pose proof (Rabs_pos (c i)). lra.
Qed.

(** symmetric positive definite matrices *)
Lemma posdef_pivots n a d c :
  (forall i, (S i < n)%nat -> a (S i) = c i) ->
  posdef n (tridiag a d c) ->
  forall i, (i < n)%nat -> 0 < pivot a d c i.
Proof.
  intros Hsym Hpd i. induction i as [i IH] using lt_wf_ind. intros Hi.
  (* x_i = 1, x_j = - c_j / pivot_j x_{j+1} below, 0 above *)
  set (x := fix x (k : nat) := match k with O => fun j => if Nat.eqb j i then 1 else 0
            | S k' => fun j => if Nat.eqb j (i - S k') then
                       - (c j / pivot a d c j) * x k' (S j) else x k' j end).
  assert (Hx : forall k, (k <= i)%nat ->
      x k i = 1 /\ (forall j, (i < j)%nat -> x k j = 0) /\
      (forall j, (i - k <= j < i)%nat -> x k j = - (c j / pivot a d c j) * x k (S j)) /\
      (forall j, (j < i - k)%nat -> x k j = 0)).
  { induction k as [|k IHk]; intros Hk.
    - cbn [x]. split; [rewrite Nat.eqb_refl; reflexivity|]. split; [|split].
      + intros j Hj. replace (Nat.eqb j i) with false by lia. reflexivity.
      + intros j Hj. lia.
      + intros j Hj. replace (Nat.eqb j i) with false by lia. reflexivity.
    - destruct (IHk ltac:(lia)) as [E1 [E2 [E3 E4]]]. cbn [x].
      split; [replace (Nat.eqb i (i - S k)) with false by lia; exact E1|]. split; [|split].
      + intros j Hj. replace (Nat.eqb j (i - S k)) with false by lia. apply E2; exact Hj.
      + intros j Hj. destruct (Nat.eqb j (i - S k)) eqn:Ej.
        * replace (Nat.eqb (S j) (i - S k)) with false by lia. reflexivity.
        * replace (Nat.eqb (S j) (i - S k)) with false by lia. apply E3. lia.
      + intros j Hj. replace (Nat.eqb j (i - S k)) with false by lia. apply E4. lia. }
  destruct (Hx i (le_n i)) as [E1 [E2 [E3 _]]]. set (y := x i) in *.
  assert (P : 0 < Rsum n (fun r => Rsum n (fun j => y r * tridiag a d c r j * y j))).
  { apply Hpd. exists i. split; [exact Hi|]. rewrite E1. lra. }
  rewrite (Rsum_ext n _ (fun r => y r * Rsum n (fun j => tridiag a d c r j * y j))) in P.
  2:{ intros r _. rewrite <- Rsum_scal. apply Rsum_ext. intros; lra. }
  (* (M y)_r = 0 for r < i, pivot i for r = i *)
  assert (HM : forall r, (r <= i)%nat -> Rsum n (fun j => tridiag a d c r j * y j) =
     pivot a d c r * y r + (if Nat.ltb (S r) n then c r * y (S r) else 0)).
  { intros r Hr. rewrite Rsum_tridiag by lia. destruct r as [|r]; [cbn [Nat.ltb Nat.leb pivot]; lra|].
    replace (Nat.ltb 0 (S r)) with true by lia. replace (S r - 1)%nat with r by lia.
    rewrite (E3 r) by lia. cbn [pivot]. lra. }
  rewrite (Rsum_single n _ i Hi) in P.
  - rewrite HM in P by lia. rewrite E1 in P.
    assert (Z : (if Nat.ltb (S i) n then c i * y (S i) else 0) = 0).
    { destruct (Nat.ltb (S i) n); [rewrite E2 by lia; lra|reflexivity]. }
    rewrite Z in P. lra.
  - intros r Hr Hri. destruct (Nat.ltb r i) eqn:El.
    + rewrite HM by lia. replace (Nat.ltb (S r) n) with true by lia.
      rewrite (E3 r) by lia. specialize (IH r ltac:(lia) Hr). field. lra.
    + rewrite E2 by lia. lra.
Qed.

(** ** check_stability *)
Lemma all_true batch n (p : nat -> nat -> bool) :
  for_loop batch (fun k acc => for_loop n (fun i acc => (acc && p k i)%bool) acc) true = true <->
  forall k i, (k < batch)%nat -> (i < n)%nat -> p k i = true.
Proof.
  assert (Hin : forall k m acc, for_loop m (fun i acc => (acc && p k i)%bool) acc = true <->
     acc = true /\ forall i, (i < m)%nat -> p k i = true).
  { intros k m. induction m as [|m IH]; intros acc; cbn [for_loop].
    - split; [intros H; split; [exact H|intros; lia]|intros [H _]; exact H].
    - rewrite andb_true_iff, IH. split.
      + intros [[H1 H2] H3]. split; [exact H1|]. intros i Hi.
        destruct (Nat.eq_dec i m) as [->|]; [exact H3|apply H2; lia].
      + intros [H1 H2]. split; [split; [exact H1|intros; apply H2; lia]|apply H2; lia]. }
  induction batch as [|b IH]; cbn [for_loop].
  - split; [intros _ k i Hk; lia|reflexivity].
  - rewrite Hin, IH. split.
    + intros [H1 H2] k i Hk Hi. destruct (Nat.eq_dec k b) as [->|]; [apply H2; exact Hi|apply H1; [lia|exact Hi]].
    + intros H. split; intros; apply H; lia.
Qed.

Lemma Rleb_spec x y : Rleb x y = true <-> x <= y.
Proof. unfold Rleb. destruct (Rle_dec x y); split; intros; try discriminate; try contradiction; auto. Qed.
Lemma Rltb_spec x y : Rltb x y = true <-> x < y.
Proof. unfold Rltb. destruct (Rlt_dec x y); split; intros; try discriminate; try contradiction; auto. Qed.

Lemma check_stability_spec batch n a d c :
  check_stability batch n a d c = true <->
  (forall k i, (k < batch)%nat -> (i < n)%nat -> Rabs (a k i) + Rabs (c k i) <= Rabs (d k i)) \/
  (forall k i, (k < batch)%nat -> (i < n)%nat -> Rabs (a k i - c k i) < 1 / 10 ^ 16).
Proof.
  unfold check_stability. cbv zeta. rewrite orb_true_iff, !all_true.
  split; (intros [H|H]; [left|right]; intros k i Hk Hi; specialize (H k i Hk Hi);
    first [apply Rleb_spec|apply Rltb_spec]; exact H).
Qed.

(** accepted although the first pivot step divides by zero *)
Lemma check_stability_accepts_zero_pivot :
  exists n a d c, (0 < n)%nat /\ check_stability 1 n (fun _ => a) (fun _ => d) (fun _ => c) = true /\
    exists i, (i < n)%nat /\ pivot a d c i = 0.
Proof.
  exists 2%nat, (upd (fun _ => 0) 1 1), (fun _ => 1), (upd (fun _ => 0) 0 1).
  split; [lia|]. split.
  - apply check_stability_spec. left. intros k i _ Hi. unfold upd.
    destruct i as [|[|i]]; [| |lia]; cbn; rewrite ?Rabs_R0, ?Rabs_R1; lra.
  - exists 1%nat. split; [lia|]. cbn. unfold upd; cbn. lra.
Qed.

(** rejects a symmetric positive definite matrix; accepts a non-symmetric one that is not
    diagonally dominant *)
Lemma check_stability_rejects_spd :
  exists n a d c, (forall i, (S i < n)%nat -> a (S i) = c i) /\ posdef n (tridiag a d c) /\
    check_stability 1 n (fun _ => a) (fun _ => d) (fun _ => c) = false.
Proof.
  exists 3%nat, (fun i => match i with 1%nat => 1 | 2%nat => 4 | _ => 0 end),
    (fun i => match i with 0%nat => 2 | 1%nat => 4 | _ => 10 end),
    (fun i => match i with 0%nat => 1 | 1%nat => 4 | _ => 0 end).
  split; [|split].
  - intros i Hi. destruct i as [|[|i]]; [reflexivity|reflexivity|lia].
  - intros x [i [Hi Hx]]. cbn [Rsum]. unfold tridiag; cbn.
    assert (E : 0 < (x 0%nat + x 1%nat) * (x 0%nat + x 1%nat) + x 0%nat * x 0%nat
      + (x 1%nat + 2 * x 2%nat) * (x 1%nat + 2 * x 2%nat) * 2 + x 1%nat * x 1%nat + 2 * (x 2%nat * x 2%nat)).
    { pose proof (Rle_0_sqr (x 0%nat + x 1%nat)) as S1. pose proof (Rle_0_sqr (x 1%nat + 2 * x 2%nat)) as S2.
      pose proof (Rle_0_sqr (x 0%nat)) as Q0. pose proof (Rle_0_sqr (x 1%nat)) as Q1. pose proof (Rle_0_sqr (x 2%nat)) as Q2.
      pose proof (Rsqr_pos_lt _ Hx) as Q. unfold Rsqr in *.
      destruct i as [|[|[|i]]]; [| | |lia]; lra. }
    lra.
  - destruct (check_stability 1 3 _ _ _) eqn:E; [|reflexivity]. exfalso.
    apply check_stability_spec in E. destruct E as [E|E].
    + specialize (E 0%nat 1%nat ltac:(lia) ltac:(lia)). cbn in E. rewrite !Rabs_pos_eq in E by lra. lra.
    + specialize (E 0%nat 1%nat ltac:(lia) ltac:(lia)). cbn in E.
      replace (1 - 4) with (-(3)) in E by lra. rewrite Rabs_Ropp, Rabs_pos_eq in E by lra.
      assert (1 / 10 ^ 16 < 3); [|lra].
      apply Rmult_lt_reg_r with (10 ^ 16); [apply pow_lt; lra|].
      unfold Rdiv. rewrite Rmult_assoc, Rinv_l by (apply pow_nonzero; lra).
      assert (1 <= 10 ^ 16) by (apply pow_R1_Rle; lra). lra.
Qed.

Lemma check_stability_accepts_nonsymmetric :
  exists n a d c, check_stability 1 n (fun _ => a) (fun _ => d) (fun _ => c) = true /\
    (exists i, (S i < n)%nat /\ a (S i) <> c i) /\
    (exists i, (i < n)%nat /\ Rabs (d i) < Rabs (a i) + Rabs (c i)).
Proof.
  exists 3%nat, (fun i => match i with 1%nat => 5 | _ => 0 end), (fun _ => 1),
    (fun i => match i with 1%nat => 5 | _ => 0 end).
  split; [|split].
  - apply check_stability_spec. right. intros k i _ Hi.
    assert (0 < 1 / 10 ^ 16) by (apply Rdiv_lt_0_compat; [lra|apply pow_lt; lra]).
    destruct i as [|[|i]]; rewrite ?Rminus_diag_eq, Rabs_R0 by reflexivity; assumption.
  - exists 0%nat. split; [lia|lra].
  - exists 1%nat. split; [lia|]. rewrite Rabs_R1, !Rabs_pos_eq by lra. lra.
Qed.

Lemma is_solution_zero n M : is_solution n M (fun _ => 0) (fun _ => 0).
Proof. intros i Hi. apply Rsum_zero. intros; lra. Qed.
