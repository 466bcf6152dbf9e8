(** Proofs about the meshes of mesh_builder.hpp *)
From Verif Require Import Lib QuadModel QuadProofs MshModel MshSpec.
Open Scope R_scope.

Lemma nth_replace_eq (l : list R) i x d : (i < length l)%nat -> nth i (replace_nth l i x) d = x.
Proof.
  intros H. pose proof (nth_error_replace_eq l i x H) as E.
  apply nth_error_nth; exact E.
Qed.
Lemma nth_replace_neq (l : list R) i j x d : i <> j -> nth j (replace_nth l i x) d = nth j l d.
Proof.
  intros H. pose proof (nth_error_replace_neq l i j x H) as E.
  revert E. generalize (replace_nth l i x). intros l' E.
  destruct (nth_error l j) as [y|] eqn:F.
  - rewrite (nth_error_nth _ _ d E), (nth_error_nth _ _ d F). reflexivity.
  - apply nth_error_None in E, F. rewrite !nth_overflow by lia. reflexivity.
Qed.

(** both builders: the points are mn, f 1, ..., f (n-1), mx *)
Lemma fill_break_points (mn mx : R) (n : nat) (f : nat -> R) :
  (1 <= n)%nat ->
  exists l,
    (let* v := wr (repeat 0 (n + 1)) 0 mn in
     let* v := for_res (n - 1) (fun j v => wr v (Z.of_nat (j + 1)) (f (j + 1)%nat)) v in
     wr v (Z.of_nat n) mx) = Ok l /\
    length l = (n + 1)%nat /\ nth 0 l 0 = mn /\ nth n l 0 = mx /\
    forall i, (0 < i < n)%nat -> nth i l 0 = f i.
Proof.
  intros Hn.
  rewrite wr_ok by (rewrite repeat_length; lia). cbn [bind].
  set (l0 := replace_nth (repeat 0 (n + 1)) (Z.to_nat 0) mn).
  assert (L0 : length l0 = (n + 1)%nat) by (unfold l0; rewrite replace_nth_length, repeat_length; reflexivity).
  destruct (for_res_inv (fun k (v : list R) => length v = (n + 1)%nat /\ nth 0 v 0 = mn /\
              forall i, (0 < i <= k)%nat -> nth i v 0 = f i) (n - 1)
              (fun j v => wr v (Z.of_nat (j + 1)) (f (j + 1)%nat)) l0) as (v & Ev & Lv & Hv0 & Hv).
  - split; [exact L0|]. split; [|intros; lia].
    unfold l0. apply nth_replace_eq. rewrite repeat_length; lia.
  - intros k v Hk (Lv & H0 & Hf).
    rewrite wr_ok by lia. rewrite Nat2Z.id. eexists; split; [reflexivity|].
    split; [rewrite replace_nth_length; exact Lv|]. split.
    + rewrite nth_replace_neq by lia. exact H0.
    + intros i Hi. destruct (Nat.eq_dec i (k + 1)) as [->|Hne].
      * apply nth_replace_eq; lia.
      * rewrite nth_replace_neq by lia. apply Hf; lia.
  - rewrite Ev. cbn [bind]. rewrite wr_ok by lia. rewrite Nat2Z.id.
    eexists; split; [reflexivity|].
    split; [rewrite replace_nth_length; exact Lv|].
    split; [rewrite nth_replace_neq by lia; exact Hv0|].
    split; [apply nth_replace_eq; lia|].
    intros i Hi. rewrite nth_replace_neq by lia. apply Hv; lia.
Qed.

Lemma uniform_points mn mx n :
  (1 <= n)%nat -> mn < mx ->
  exists l, build_uniform_break_points mn mx n = Ok l /\ subdivision mn mx n l /\
    forall i, (i <= n)%nat -> nth i l 0 = mn + INR i * ((mx - mn) / INR n).
Proof.
  intros Hn Hm.
  destruct (fill_break_points mn mx n (fun i => mn + INR i * ((mx - mn) / INR n)) Hn)
    as (l & E & L & H0 & HN & H).
  assert (P : 0 < INR n) by (apply lt_0_INR; lia).
  assert (A : forall i, (i <= n)%nat -> nth i l 0 = mn + INR i * ((mx - mn) / INR n)).
  { intros i Hi. destruct (Nat.eq_dec i 0) as [->|N0]; [rewrite H0; cbn [INR]; lra|].
    destruct (Nat.eq_dec i n) as [->|Nn]; [rewrite HN; field; lra|].
    apply H; lia. }
  exists l. split; [exact E|]. split; [|exact A].
  split; [exact L|]. split; [exact H0|]. split; [exact HN|].
  intros i Hi. rewrite !A by lia. rewrite plus_INR. cbn [INR].
  assert (0 < (mx - mn) / INR n) by (apply Rdiv_lt_0_compat; lra). nra.
Qed.

(** with no cell the lower end is lost *)
Lemma uniform_no_cell mn mx : build_uniform_break_points mn mx 0 = Ok [mx].
Proof. reflexivity. Qed.

Lemma random_points rm rand mn mx n nu :
  (1 <= n)%nat ->
  exists l, build_random_break_points rm rand mn mx n nu = Ok l /\
    length l = (n + 1)%nat /\ nth 0 l 0 = mn /\ nth n l 0 = mx /\
    forall i, (0 < i < n)%nat ->
      nth i l 0 = mn + (INR i + (IZR (rand i) / IZR rm - 0.5) * nu) * ((mx - mn) / INR n).
Proof.
  intros Hn.
  exact (fill_break_points mn mx n
           (fun i => mn + (INR i + (IZR (rand i) / IZR rm - 0.5) * nu) * ((mx - mn) / INR n)) Hn).
Qed.

Lemma perturbation_bounds rm z : (0 < rm)%Z -> (0 <= z <= rm)%Z -> -(1/2) <= IZR z / IZR rm - 0.5 <= 1/2.
Proof.
  intros Hr Hz.
  assert (P : 0 < IZR rm) by (apply IZR_lt; lia).
  assert (0 <= IZR z <= IZR rm) by (split; apply IZR_le; lia).
  assert (0 <= IZR z / IZR rm) by (apply Rmult_le_pos; [lra|left; apply Rinv_0_lt_compat; lra]).
  assert (IZR z / IZR rm <= 1).
  { apply (Rmult_le_reg_r (IZR rm)); [lra|]. unfold Rdiv. rewrite Rmult_assoc, Rinv_l by lra. lra. }
  lra.
Qed.

(** perturbations bounded by nu / 2 keep the order *)
Lemma random_gap rm rand mn mx n nu l :
  (1 <= n)%nat -> mn < mx -> (0 < rm)%Z -> (forall i, (0 <= rand i <= rm)%Z) -> 0 <= nu <= 1 ->
  build_random_break_points rm rand mn mx n nu = Ok l ->
  length l = (n + 1)%nat /\ nth 0 l 0 = mn /\ nth n l 0 = mx /\
  (forall i, (i <= n)%nat -> Rabs (nth i l 0 - (mn + INR i * ((mx - mn) / INR n))) <= nu / 2 * ((mx - mn) / INR n)) /\
  (forall i, (i < n)%nat -> (1 - nu) * ((mx - mn) / INR n) <= nth (i + 1) l 0 - nth i l 0).
Proof.
  intros Hn Hm Hr Hrand Hnu E.
  destruct (random_points rm rand mn mx n nu Hn) as (l' & E' & L & H0 & HN & H).
  rewrite E in E'. injection E' as <-.
  assert (P : 0 < INR n) by (apply lt_0_INR; lia).
  set (delta := (mx - mn) / INR n) in *.
  assert (D : 0 < delta) by (apply Rdiv_lt_0_compat; lra).
  assert (HD : INR n * delta = mx - mn) by (unfold delta; field; lra).
  assert (Q : forall i, (i <= n)%nat -> exists p, -(1/2) <= p <= 1/2 /\ nth i l 0 = mn + (INR i + p * nu) * delta).
  { intros i Hi. destruct (Nat.eq_dec i 0) as [->|N0].
    - exists 0. split; [lra|]. rewrite H0. cbn [INR]. ring.
    - destruct (Nat.eq_dec i n) as [->|Nn].
      + exists 0. split; [lra|]. rewrite HN.
        replace ((INR n + 0 * nu) * delta) with (INR n * delta) by ring. rewrite HD. ring.
      + exists (IZR (rand i) / IZR rm - 0.5). split; [apply perturbation_bounds; auto|]. apply H; lia. }
  split; [exact L|]. split; [exact H0|]. split; [exact HN|]. split.
  - intros i Hi. destruct (Q i Hi) as (p & Hp & ->).
    replace (mn + (INR i + p * nu) * delta - (mn + INR i * delta)) with (p * nu * delta) by ring.
    apply Rabs_le. 
    assert (- (nu / 2) <= p * nu <= nu / 2) by nra. nra.
  - intros i Hi. destruct (Q i) as (p & Hp & Ep); [lia|]. destruct (Q (i + 1)%nat) as (q & Hq & Eq); [lia|].
    rewrite Ep, Eq, plus_INR. cbn [INR].
    replace (mn + (INR i + 1 + q * nu) * delta - (mn + (INR i + p * nu) * delta))
      with ((1 + (q - p) * nu) * delta) by ring.
    assert (1 - nu <= 1 + (q - p) * nu) by nra. nra.
Qed.

Lemma random_strict rm rand mn mx n nu :
  (1 <= n)%nat -> mn < mx -> (0 < rm)%Z -> (forall i, (0 <= rand i <= rm)%Z) -> 0 <= nu < 1 ->
  exists l, build_random_break_points rm rand mn mx n nu = Ok l /\ subdivision mn mx n l /\
    forall i, (i <= n)%nat ->
      Rabs (nth i l 0 - (mn + INR i * ((mx - mn) / INR n))) <= nu / 2 * ((mx - mn) / INR n).
Proof.
  intros Hn Hm Hr Hrand Hnu.
  destruct (random_points rm rand mn mx n nu Hn) as (l & E & _).
  exists l. split; [exact E|].
  destruct (random_gap rm rand mn mx n nu l Hn Hm Hr Hrand ltac:(lra) E) as (L & H0 & HN & HC & HG).
  split; [|exact HC]. split; [exact L|]. split; [exact H0|]. split; [exact HN|].
  intros i Hi. specialize (HG i Hi).
  assert (0 < (mx - mn) / INR n) by (apply Rdiv_lt_0_compat; [lra|apply lt_0_INR; lia]).
  assert (0 < (1 - nu) * ((mx - mn) / INR n)) by (apply Rmult_lt_0_compat; lra). lra.
Qed.

Lemma random_weak rm rand mn mx n :
  (1 <= n)%nat -> mn < mx -> (0 < rm)%Z -> (forall i, (0 <= rand i <= rm)%Z) ->
  exists l, build_random_break_points rm rand mn mx n 1 = Ok l /\ weak_subdivision mn mx n l.
Proof.
  intros Hn Hm Hr Hrand.
  destruct (random_points rm rand mn mx n 1 Hn) as (l & E & _).
  exists l. split; [exact E|].
  destruct (random_gap rm rand mn mx n 1 l Hn Hm Hr Hrand ltac:(lra) E) as (L & H0 & HN & HC & HG).
  split; [exact L|]. split; [exact H0|]. split; [exact HN|].
  intros i Hi. specialize (HG i Hi). lra.
Qed.

(** with the default non-uniformity two break points may coincide *)
Lemma random_default_coincide :
  exists (rand : nat -> Z) (l : list R),
    (forall i, (0 <= rand i <= 2147483647)%Z) /\
    build_random_break_points 2147483647 rand 0 3 3 1 = Ok l /\ nth 1 l 0 = nth 2 l 0 /\ ~ subdivision 0 3 3 l.
Proof.
  set (rand := fun i : nat => if (i =? 1)%nat then 2147483647%Z else 0%Z).
  assert (HR : forall i, (0 <= rand i <= 2147483647)%Z).
  { intros i. unfold rand. destruct (i =? 1)%nat; split; discriminate. }
  destruct (random_points 2147483647 rand 0 3 3 1) as (l & E & L & H0 & HN & H); [lia|].
  exists rand, l. split; [exact HR|]. split; [exact E|].
  assert (EQ : nth 1 l 0 = nth 2 l 0).
  { rewrite !H by lia. unfold rand. cbn [Nat.eqb INR]. lra. }
  split; [exact EQ|]. intros (_ & _ & _ & S1). specialize (S1 1%nat ltac:(lia)). cbn [Nat.add] in S1. lra.
Qed.
(** beyond 1 the order may be lost *)
Lemma random_beyond :
  forall nu, 1 < nu -> exists (rand : nat -> Z) (l : list R),
    (forall i, (0 <= rand i <= 2147483647)%Z) /\
    build_random_break_points 2147483647 rand 0 3 3 nu = Ok l /\ nth 2 l 0 < nth 1 l 0.
Proof.
  intros nu Hnu.
  set (rand := fun i : nat => if (i =? 1)%nat then 2147483647%Z else 0%Z).
  assert (HR : forall i, (0 <= rand i <= 2147483647)%Z).
  { intros i. unfold rand. destruct (i =? 1)%nat; split; discriminate. }
  destruct (random_points 2147483647 rand 0 3 3 nu) as (l & E & L & H0 & HN & H); [lia|].
  exists rand, l. split; [exact HR|]. split; [exact E|].
  rewrite !H by lia. unfold rand. cbn [Nat.eqb INR]. lra.
Qed.
