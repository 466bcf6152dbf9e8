From Verif Require Import Lib MatrixSolveModel.
From Coq Require Import ZifyBool.
Open Scope R_scope.

(** ** contracts *)
Definition solves (n : nat) (M : mat) (s : vec -> vec) : Prop :=
  forall b i, (i < n)%nat -> mulv n M (s b) i = b i.

(** the block matrix [[Q, gamma],[lambda, delta]] *)
Definition block (nb : nat) (Q G L D : mat) : mat := fun i j =>
  if Nat.ltb i nb then if Nat.ltb j nb then Q i j else G i (j - nb)%nat
  else if Nat.ltb j nb then L (i - nb)%nat j else D (i - nb)%nat (j - nb)%nat.

Lemma mulv_block_top n k Q G L D x i : (i < n)%nat ->
  mulv (n + k) (block n Q G L D) x i =
  Rsum n (fun j => Q i j * x j) + Rsum k (fun j => G i j * x (n + j)%nat).
Proof.
  intros Hi. unfold mulv. rewrite Rsum_app. f_equal.
  - apply Rsum_ext. intros j Hj. unfold block.
    replace (Nat.ltb i n) with true by lia. replace (Nat.ltb j n) with true by lia. reflexivity.
  - apply Rsum_ext. intros j Hj. unfold block.
    replace (Nat.ltb i n) with true by lia. replace (Nat.ltb (n + j) n) with false by lia.
    replace (n + j - n)%nat with j by lia. reflexivity.
Qed.

Lemma mulv_block_bot n k Q G L D x i :
  mulv (n + k) (block n Q G L D) x (n + i)%nat =
  Rsum n (fun j => L i j * x j) + Rsum k (fun j => D i j * x (n + j)%nat).
Proof.
  unfold mulv. rewrite Rsum_app. f_equal.
  - apply Rsum_ext. intros j Hj. unfold block.
    replace (Nat.ltb (n + i) n) with false by lia. replace (Nat.ltb j n) with true by lia.
    replace (n + i - n)%nat with i by lia. reflexivity.
  - apply Rsum_ext. intros j Hj. unfold block.
    replace (Nat.ltb (n + i) n) with false by lia. replace (Nat.ltb (n + j) n) with false by lia.
    replace (n + j - n)%nat with j by lia. replace (n + i - n)%nat with i by lia. reflexivity.
Qed.

(** ** the loops *)
Lemma sub_loop (f : vec -> nat -> R) n (bx : vec) p :
  (forall bx' j, (forall q, q <> p -> bx' q = bx q) -> (j < n)%nat -> f bx' j = f bx j) ->
  let r := for_loop n (fun j (bx : vec) => upd bx p (bx p - f bx j)) bx in
  (forall q, q <> p -> r q = bx q) /\ r p = bx p - Rsum n (fun j => f bx j).
Proof.
  intros Hf. cbv zeta.
  apply (for_loop_inv (fun m r => (forall q, q <> p -> r q = bx q) /\
                                  r p = bx p - Rsum m (fun j => f bx j))).
  - simpl; split; auto; lra.
  - intros i t Hi [H1 H2]. split.
    + intros q Hq. rewrite upd_neq by auto. auto.
    + rewrite upd_eq, H2. rewrite (Hf t i H1 Hi). simpl. lra.
Qed.

Ltac loop_inv I := match goal with
  |- context [for_loop ?n ?b ?s] =>
    let H := fresh "HI" in
    assert (H : I n (for_loop n b s)); [apply (for_loop_inv I)|] end.

Lemma lambda_section_spec B bx :
  let r := lambda_section B bx in
  (forall p, (p < nb B)%nat -> r p = bx p) /\
  (forall i, (i < kk B)%nat -> r (nb B + i)%nat =
     bx (nb B + i)%nat - Rsum (nb B) (fun j => lam B j i * bx j)).
Proof.
  unfold lambda_section. cbv zeta.
  set (n := nb B). set (k := kk B).
  loop_inv (fun (m : nat) (r : vec) =>
    (forall p, (p < n)%nat -> r p = bx p) /\
    (forall i, (m <= i)%nat -> r (n + i)%nat = bx (n + i)%nat) /\
    (forall i, (i < m)%nat -> r (n + i)%nat =
       bx (n + i)%nat - Rsum n (fun j => lam B j i * bx j))).
  - repeat split; auto; intros; lia.
  - intros i t Hi [H1 [H2 H3]].
    destruct (sub_loop (fun bx j => lam B j i * bx j) n t (n + i)) as [S1 S2].
    { intros bx' j Hb Hj. rewrite Hb by lia. reflexivity. }
    split; [|split].
    + intros p Hp. rewrite S1 by lia. auto.
    + intros i' Hi'. rewrite S1 by lia. apply H2; lia.
    + intros i' Hi'. destruct (Nat.eq_dec i' i) as [->|Hne].
      * rewrite S2. rewrite H2 by lia. f_equal. apply Rsum_ext. intros j Hj. rewrite H1 by lia. reflexivity.
      * rewrite S1 by lia. apply H3; lia.
  - destruct HI as [H1 [_ H3]]. split; assumption.
Qed.

(** value of the full lambda block encoded by the compressed (k+1) x k one *)
Definition uncompress (B : blocks) : mat := fun i j =>   (* row i of lambda (i<k), column j<nb *)
  (if Nat.leb j i then lam B j i else 0) +
  (if Nat.leb (nb B + i) (j + kk B) then lam B (j + kk B + 1 - nb B)%nat i else 0).

Lemma Rsum_filter_le n i f : (i < n)%nat ->
  Rsum n (fun j => if Nat.leb j i then f j else 0) = Rsum (i + 1) f.
Proof.
  intros H. replace n with ((i + 1) + (n - (i + 1)))%nat by lia. rewrite Rsum_app.
  rewrite (Rsum_zero (n - (i + 1))).
  - rewrite Rplus_0_r. apply Rsum_ext. intros j Hj. replace (Nat.leb j i) with true by lia. reflexivity.
  - intros j Hj. replace (Nat.leb (i + 1 + j) i) with false by lia. reflexivity.
Qed.

Lemma Rsum_filter_ge n a f : (a <= n)%nat ->
  Rsum n (fun j => if Nat.leb a j then f j else 0) = Rsum (n - a) (fun t => f (a + t)%nat).
Proof.
  intros H. replace n with (a + (n - a))%nat at 1 by lia. rewrite Rsum_app.
  rewrite (Rsum_zero a).
  - rewrite Rplus_0_l. apply Rsum_ext. intros j Hj. replace (Nat.leb a (a + j)) with true by lia. reflexivity.
  - intros j Hj. replace (Nat.leb a j) with false by lia. reflexivity.
Qed.

Lemma uncompress_sum B i (u : vec) : (kk B <= nb B)%nat -> (i < kk B)%nat ->
  Rsum (nb B) (fun j => uncompress B i j * u j) =
  Rsum (i + 1) (fun j => lam B j i * u j) +
  Rsum (kk B + 1 - (i + 1)) (fun t => lam B (i + 1 + t)%nat i * u (nb B + (i + 1 + t) - 1 - kk B)%nat).
Proof.
  intros Hk Hi. unfold uncompress. set (n := nb B) in *. set (k := kk B) in *.
  rewrite (Rsum_ext _ _ (fun j => (if Nat.leb j i then lam B j i * u j else 0) +
     (if Nat.leb (n - k + i) j then lam B (j + k + 1 - n)%nat i * u j else 0))).
  2:{ intros j Hj. replace (Nat.leb (n - k + i) j) with (Nat.leb (n + i) (j + k)) by lia.
      destruct (Nat.leb j i); destruct (Nat.leb (n + i) (j + k)); lra. }
  rewrite Rsum_plus, Rsum_filter_le, Rsum_filter_ge by lia. f_equal.
  replace (n - (n - k + i))%nat with (k + 1 - (i + 1))%nat by lia.
  apply Rsum_ext. intros t Ht.
  replace (n - k + i + t + k + 1 - n)%nat with (i + 1 + t)%nat by lia.
  replace (n - k + i + t)%nat with (n + (i + 1 + t) - 1 - k)%nat by lia. reflexivity.
Qed.

Lemma p_lambda_section_spec B bx : (kk B <= nb B)%nat ->
  let r := p_lambda_section B bx in
  (forall p, (p < nb B)%nat -> r p = bx p) /\
  (forall i, (i < kk B)%nat -> r (nb B + i)%nat =
     bx (nb B + i)%nat - Rsum (nb B) (fun j => uncompress B i j * bx j)).
Proof.
  intros Hkn. unfold p_lambda_section. cbv zeta.
  loop_inv (fun (m : nat) (r : vec) =>
    (forall p, (p < nb B)%nat -> r p = bx p) /\
    (forall i, (m <= i)%nat -> r (nb B + i)%nat = bx (nb B + i)%nat) /\
    (forall i, (i < m)%nat -> r (nb B + i)%nat =
       bx (nb B + i)%nat - Rsum (nb B) (fun j => uncompress B i j * bx j))).
  - repeat split; auto; intros; lia.
  - intros i t Hi [H1 [H2 H3]].
    destruct (sub_loop (fun bx j => lam B j i * bx j) (i + 1) t (nb B + i)) as [S1 S2].
    { intros bx' j Hb Hj. rewrite Hb by lia. reflexivity. }
    match type of S1 with context [for_loop ?a ?b t] => set (t1 := for_loop a b t) in * end.
    destruct (sub_loop (fun bx s => lam B (i + 1 + s)%nat i * bx (nb B + (i + 1 + s) - 1 - kk B)%nat)
                (kk B + 1 - (i + 1)) t1 (nb B + i)) as [S3 S4].
    { intros bx' j Hb Hj. rewrite Hb by lia. reflexivity. }
    split; [|split].
    + intros p Hp. rewrite S3, S1 by lia. auto.
    + intros i' Hi'. rewrite S3, S1 by lia. apply H2; lia.
    + intros i' Hi'. destruct (Nat.eq_dec i' i) as [->|Hne].
      * rewrite S4, S2, H2 by lia. rewrite uncompress_sum by lia.
        rewrite (Rsum_ext (i + 1) (fun j => lam B j i * t j) (fun j => lam B j i * bx j)).
        2:{ intros j Hj. rewrite H1 by lia. reflexivity. }
        rewrite (Rsum_ext (kk B + 1 - (i + 1)) _ (fun s => lam B (i + 1 + s)%nat i * bx (nb B + (i + 1 + s) - 1 - kk B)%nat)).
        2:{ intros s Hs. rewrite S1, H1 by lia. reflexivity. }
        lra.
      * rewrite S3, S1 by lia. apply H3; lia.
  - destruct HI as [H1 [_ H3]]. split; assumption.
Qed.

Lemma gamma_section_spec B bet bx :
  let r := gamma_section B bet bx in
  (forall i, (i < nb B)%nat -> r i = bx i - Rsum (kk B) (fun j => bet j i * bx (nb B + j)%nat)) /\
  (forall p, (nb B <= p)%nat -> r p = bx p).
Proof.
  unfold gamma_section. cbv zeta.
  loop_inv (fun (m : nat) (r : vec) =>
    (forall p, (m <= p)%nat -> r p = bx p) /\
    (forall i, (i < m)%nat -> r i = bx i - Rsum (kk B) (fun j => bet j i * bx (nb B + j)%nat))).
  - split; auto; intros; lia.
  - intros i t Hi [H1 H2]. rewrite for_loop_acc, Rplus_0_l. split.
    + intros p Hp. rewrite upd_neq by lia. apply H1; lia.
    + intros i' Hi'. destruct (Nat.eq_dec i' i) as [->|Hne].
      * rewrite upd_eq, H1 by lia. f_equal. apply Rsum_ext. intros j Hj. rewrite H1 by lia. reflexivity.
      * rewrite upd_neq by lia. apply H2; lia.
  - destruct HI as [H1 H2]. split; assumption.
Qed.

Lemma gamma_section_transpose_spec B bet bx :
  let r := gamma_section_transpose B bet bx in
  (forall p, (p < nb B)%nat -> r p = bx p) /\
  (forall j, (j < kk B)%nat -> r (nb B + j)%nat =
     bx (nb B + j)%nat - Rsum (nb B) (fun i => bet j i * bx i)).
Proof.
  unfold gamma_section_transpose. cbv zeta.
  loop_inv (fun (m : nat) (r : vec) =>
    (forall p, (p < nb B)%nat -> r p = bx p) /\
    (forall i, (m <= i)%nat -> r (nb B + i)%nat = bx (nb B + i)%nat) /\
    (forall j, (j < m)%nat -> r (nb B + j)%nat =
       bx (nb B + j)%nat - Rsum (nb B) (fun i => bet j i * bx i))).
  - repeat split; auto; intros; lia.
  - intros j t Hj [H1 [H2 H3]]. rewrite for_loop_acc, Rplus_0_l. split; [|split].
    + intros p Hp. rewrite upd_neq by lia. apply H1; lia.
    + intros i Hi. rewrite upd_neq by lia. apply H2; lia.
    + intros i Hi. destruct (Nat.eq_dec i j) as [->|Hne].
      * rewrite upd_eq, H2 by lia. f_equal. apply Rsum_ext. intros l Hl. rewrite H1 by lia. reflexivity.
      * rewrite upd_neq by lia. apply H3; lia.
  - destruct HI as [H1 [H2 H3]]. split; assumption.
Qed.

Lemma lambda_section_transpose_spec B bx :
  let r := lambda_section_transpose B bx in
  (forall i, (i < nb B)%nat -> r i = bx i - Rsum (kk B) (fun j => lam B i j * bx (nb B + j)%nat)) /\
  (forall p, (nb B <= p)%nat -> r p = bx p).
Proof.
  unfold lambda_section_transpose. cbv zeta.
  loop_inv (fun (m : nat) (r : vec) =>
    (forall p, (m <= p)%nat -> r p = bx p) /\
    (forall i, (i < m)%nat -> r i = bx i - Rsum (kk B) (fun j => lam B i j * bx (nb B + j)%nat))).
  - split; auto; intros; lia.
  - intros i t Hi [H1 H2].
    destruct (sub_loop (fun bx j => lam B i j * bx (nb B + j)%nat) (kk B) t i) as [S1 S2].
    { intros bx' j Hb Hj. rewrite Hb by lia. reflexivity. }
    split.
    + intros p Hp. rewrite S1 by lia. apply H1; lia.
    + intros i' Hi'. destruct (Nat.eq_dec i' i) as [->|Hne].
      * rewrite S2, H1 by lia. f_equal. apply Rsum_ext. intros j Hj. rewrite H1 by lia. reflexivity.
      * rewrite S1 by lia. apply H2; lia.
  - destruct HI as [H1 H2]. split; assumption.
Qed.

(** scattered subtraction loop: each step t subtracts [w t] at position [pos t] *)
Lemma scatter_loop n (pos : nat -> nat) (w : nat -> R) (g : vec -> nat -> R) (t0 : vec) :
  (forall t1 s, (s < n)%nat -> (forall q, (forall s', (s' < n)%nat -> q <> pos s') -> t1 q = t0 q) ->
      g t1 s = w s) ->
  forall q, for_loop n (fun s (bx : vec) => upd bx (pos s) (bx (pos s) - g bx s)) t0 q =
            t0 q - Rsum n (fun s => if Nat.eqb (pos s) q then w s else 0).
Proof.
  intros Hg.
  loop_inv (fun (m : nat) (r : vec) => forall q, r q =
        t0 q - Rsum m (fun s => if Nat.eqb (pos s) q then w s else 0)).
  - intros q; simpl; lra.
  - intros i t Hi H q. simpl Rsum. unfold upd.
    destruct (Nat.eqb q (pos i)) eqn:E.
    + apply Nat.eqb_eq in E; subst q. rewrite Nat.eqb_refl, H.
      rewrite (Hg t i Hi); [lra|].
      intros q Hq. rewrite H. rewrite Rsum_zero; [lra|].
      intros s Hs. assert (pos s <> q) by (intros <-; eapply Hq; [|reflexivity]; lia).
      replace (Nat.eqb (pos s) q) with false by lia. reflexivity.
    + replace (Nat.eqb (pos i) q) with false by lia. rewrite H. lra.
  - exact HI.
Qed.

Lemma p_lambda_section_transpose_spec B bx : (kk B <= nb B)%nat ->
  let r := p_lambda_section_transpose B bx in
  (forall j, (j < nb B)%nat -> r j =
     bx j - Rsum (kk B) (fun i => uncompress B i j * bx (nb B + i)%nat)) /\
  (forall p, (nb B <= p)%nat -> r p = bx p).
Proof.
  intros Hkn. unfold p_lambda_section_transpose. cbv zeta.
  loop_inv (fun (m : nat) (r : vec) =>
    (forall p, (nb B <= p)%nat -> r p = bx p) /\
    (forall j, (j < nb B)%nat -> r j =
       bx j - Rsum m (fun i => uncompress B i j * bx (nb B + i)%nat))).
  - split; auto. intros; simpl; lra.
  - intros i t Hi [H1 H2].
    pose proof (scatter_loop (i + 1) (fun j => j) (fun j => lam B j i * bx (nb B + i)%nat)
                  (fun bx j => lam B j i * bx (nb B + i)%nat) t) as S1.
    cbv beta in S1. specialize (S1 ltac:(intros t1 s Hs Ht; rewrite Ht by lia; rewrite H1 by lia; reflexivity)).
    match type of S1 with context [for_loop ?a ?b t] => set (t1 := for_loop a b t) in * end.
    pose proof (scatter_loop (kk B + 1 - (i + 1)) (fun s => (nb B + (i + 1 + s) - 1 - kk B)%nat)
                  (fun s => lam B (i + 1 + s)%nat i * bx (nb B + i)%nat)
                  (fun bx s => lam B (i + 1 + s)%nat i * bx (nb B + i)%nat) t1) as S2.
    cbv beta in S2.
    assert (Hhi : forall p, (nb B <= p)%nat -> t1 p = bx p).
    { intros p Hp. rewrite S1, H1 by lia. rewrite Rsum_zero; [lra|].
      intros s Hs. replace (Nat.eqb s p) with false by lia. reflexivity. }
    specialize (S2 ltac:(intros t2 s Hs Ht; rewrite Ht by lia; rewrite Hhi by lia; reflexivity)).
    split.
    + intros p Hp. rewrite S2, Hhi by lia. rewrite Rsum_zero; [lra|].
      intros s Hs. replace (Nat.eqb (nb B + (i + 1 + s) - 1 - kk B) p) with false by lia. reflexivity.
    + intros j Hj. rewrite S2, S1, H2 by lia. simpl Rsum.
      assert (E1 : Rsum (i + 1) (fun s => if Nat.eqb s j then lam B s i * bx (nb B + i)%nat else 0) =
                   (if Nat.leb j i then lam B j i else 0) * bx (nb B + i)%nat).
      { destruct (Nat.leb j i) eqn:El.
        - rewrite (Rsum_single _ _ j) by (try lia; intros s Hs Hne; replace (Nat.eqb s j) with false by lia; reflexivity).
          rewrite Nat.eqb_refl. reflexivity.
        - rewrite Rsum_zero; [lra|]. intros s Hs. replace (Nat.eqb s j) with false by lia. reflexivity. }
      assert (E2 : Rsum (kk B + 1 - (i + 1)) (fun s => if Nat.eqb (nb B + (i + 1 + s) - 1 - kk B) j
                       then lam B (i + 1 + s)%nat i * bx (nb B + i)%nat else 0) =
                   (if Nat.leb (nb B + i) (j + kk B) then lam B (j + kk B + 1 - nb B)%nat i else 0) * bx (nb B + i)%nat).
      { destruct (Nat.leb (nb B + i) (j + kk B)) eqn:El.
        - rewrite (Rsum_single _ _ (j + kk B - nb B - i)) by
            (try lia; intros s Hs Hne; replace (Nat.eqb (nb B + (i + 1 + s) - 1 - kk B) j) with false by lia; reflexivity).
          replace (Nat.eqb (nb B + (i + 1 + (j + kk B - nb B - i)) - 1 - kk B) j) with true by lia.
          replace (i + 1 + (j + kk B - nb B - i))%nat with (j + kk B + 1 - nb B)%nat by lia. reflexivity.
        - rewrite Rsum_zero; [lra|]. intros s Hs.
          replace (Nat.eqb (nb B + (i + 1 + s) - 1 - kk B) j) with false by lia. reflexivity. }
      rewrite E1, E2. unfold uncompress. lra.
  - destruct HI as [H1 H2]. split; assumption.
Qed.

Lemma delta_loop_spec k val d i j : (i < k)%nat -> (j < k)%nat ->
  delta_loop k val d i j = d i j - val i j.
Proof.
  intros Hi Hj. unfold delta_loop.
  loop_inv (fun (m : nat) (r : mat) =>
     forall i j, (j < k)%nat -> r i j = if Nat.ltb i m then d i j - val i j else d i j).
  - intros; reflexivity.
  - intros a t Ha H.
    loop_inv (fun (m : nat) (r : mat) =>
     forall i j, (j < k)%nat -> r i j =
        if (Nat.ltb i a || (Nat.eqb i a && Nat.ltb j m))%bool then d i j - val i j else d i j).
    + intros i0 j0 Hj0. rewrite H by lia.
      replace (Nat.ltb i0 a || Nat.eqb i0 a && Nat.ltb j0 0)%bool with (Nat.ltb i0 a) by lia. reflexivity.
    + intros b u Hb Hu i0 j0 Hj0. unfold upd2.
      destruct (Nat.eqb i0 a && Nat.eqb j0 b)%bool eqn:E.
      * assert (i0 = a /\ j0 = b) as [-> ->] by lia. rewrite Hu by lia.
        replace (Nat.ltb a a || Nat.eqb a a && Nat.ltb b b)%bool with false by lia.
        replace (Nat.ltb a a || Nat.eqb a a && Nat.ltb b (S b))%bool with true by lia. reflexivity.
      * rewrite Hu by lia.
        replace (Nat.ltb i0 a || Nat.eqb i0 a && Nat.ltb j0 (S b))%bool
          with (Nat.ltb i0 a || Nat.eqb i0 a && Nat.ltb j0 b)%bool by lia. reflexivity.
    + intros i0 j0 Hj0. rewrite HI by lia.
      replace (Nat.ltb i0 (S a)) with (Nat.ltb i0 a || Nat.eqb i0 a && Nat.ltb j0 k)%bool by lia. reflexivity.
  - rewrite HI by lia. replace (Nat.ltb i k) with true by lia. reflexivity.
Qed.

(** lambda seen as a k x nb matrix, for both storages *)
Definition lambda_full (kd : lambda_kind) (B : blocks) : mat :=
  match kd with FullLambda => transp (lam B) | PeriodicLambda => uncompress B end.

Definition kind_ok (kd : lambda_kind) (B : blocks) : Prop :=
  match kd with FullLambda => True | PeriodicLambda => (kk B <= nb B)%nat end.

Lemma delta_spec kd B qs i j : kind_ok kd B -> (i < kk B)%nat -> (j < kk B)%nat ->
  delta_to_factorise kd B qs i j =
  del B i j - Rsum (nb B) (fun l => lambda_full kd B i l * beta B qs j l).
Proof.
  intros Hk Hi Hj. unfold delta_to_factorise. rewrite delta_loop_spec by assumption.
  f_equal. destruct kd.
  - unfold corner_val. rewrite for_loop_acc, Rplus_0_l. reflexivity.
  - unfold periodic_val. cbv zeta. simpl lambda_full.
    rewrite (uncompress_sum B i (beta B qs j)) by assumption.
    rewrite for_loop_acc, (for_loop_acc (i + 1) (fun l => lam B l i * beta B qs j l)).
    lra.
Qed.

(** the matrix represented *)
Definition represented (kd : lambda_kind) (B : blocks) (Q : mat) : mat :=
  block (nb B) Q (fun i j => gam B j i) (lambda_full kd B) (del B).

Lemma lam_sec_spec kd B bx : kind_ok kd B ->
  let r := match kd with FullLambda => lambda_section | PeriodicLambda => p_lambda_section end B bx in
  (forall p, (p < nb B)%nat -> r p = bx p) /\
  (forall i, (i < kk B)%nat -> r (nb B + i)%nat =
     bx (nb B + i)%nat - Rsum (nb B) (fun j => lambda_full kd B i j * bx j)).
Proof.
  destruct kd; intros H; [apply lambda_section_spec|apply p_lambda_section_spec; exact H].
Qed.

Lemma lam_secT_spec kd B bx : kind_ok kd B ->
  let r := match kd with FullLambda => lambda_section_transpose
                       | PeriodicLambda => p_lambda_section_transpose end B bx in
  (forall j, (j < nb B)%nat -> r j =
     bx j - Rsum (kk B) (fun i => lambda_full kd B i j * bx (nb B + i)%nat)) /\
  (forall p, (nb B <= p)%nat -> r p = bx p).
Proof.
  destruct kd; intros H; [apply lambda_section_transpose_spec|apply p_lambda_section_transpose_spec; exact H].
Qed.

Lemma on_view_in off len s bx i : (i < len)%nat ->
  on_view off len s bx (off + i)%nat = s (fun j => bx (off + j)%nat) i.
Proof.
  intros H. unfold on_view.
  replace (Nat.leb off (off + i) && Nat.ltb (off + i) (off + len))%bool with true by lia.
  replace (off + i - off)%nat with i by lia. reflexivity.
Qed.

Lemma on_view_out off len s bx p : (p < off \/ off + len <= p)%nat ->
  on_view off len s bx p = bx p.
Proof.
  intros H. unfold on_view.
  replace (Nat.leb off p && Nat.ltb p (off + len))%bool with false by lia. reflexivity.
Qed.

Theorem corner_solve_correct kd B Q qs ds :
  kind_ok kd B ->
  solves (nb B) Q qs ->
  solves (kk B) (delta_to_factorise kd B qs) ds ->
  solves (nb B + kk B) (represented kd B Q) (corner_solve kd B qs ds).
Proof.
  intros Hkd Hq Hd b p Hp.
  unfold corner_solve.
  set (b1 := on_view 0 (nb B) qs b).
  pose proof (lam_sec_spec kd B b1 Hkd) as [L1 L2]. cbv zeta in L1, L2.
  set (b2 := match kd with FullLambda => lambda_section | PeriodicLambda => p_lambda_section end B b1) in *.
  set (b3 := on_view (nb B) (kk B) ds b2).
  pose proof (gamma_section_spec B (beta B qs) b3) as [G1 G2]. cbv zeta in G1, G2.
  set (b4 := gamma_section B (beta B qs) b3) in *.
  set (h := qs b).
  assert (E1 : forall i, (i < nb B)%nat -> b1 i = h i).
  { intros i Hi. apply (on_view_in 0 (nb B) qs b i Hi). }
  assert (E1b : forall i, b1 (nb B + i)%nat = b (nb B + i)%nat).
  { intros i. apply on_view_out; lia. }
  assert (E3 : forall i, (i < nb B)%nat -> b3 i = h i).
  { intros i Hi. unfold b3. rewrite on_view_out by lia. rewrite L1 by lia. auto. }
  set (y := ds (fun j => b2 (nb B + j)%nat)).
  assert (E3b : forall i, (i < kk B)%nat -> b3 (nb B + i)%nat = y i).
  { intros i Hi. unfold b3. rewrite on_view_in by lia. reflexivity. }
  assert (Etop : forall i, (i < nb B)%nat -> b4 i = h i - Rsum (kk B) (fun j => beta B qs j i * y j)).
  { intros i Hi. rewrite G1 by lia. rewrite E3 by lia. f_equal. apply Rsum_ext. intros j Hj.
    rewrite E3b by lia. reflexivity. }
  assert (Ebot : forall i, (i < kk B)%nat -> b4 (nb B + i)%nat = y i).
  { intros i Hi. rewrite G2 by lia. apply E3b; lia. }
  assert (Hy : forall i, (i < kk B)%nat ->
     Rsum (kk B) (fun j => delta_to_factorise kd B qs i j * y j) =
     b (nb B + i)%nat - Rsum (nb B) (fun j => lambda_full kd B i j * h j)).
  { intros i Hi. pose proof (Hd (fun j => b2 (nb B + j)%nat) i Hi) as Hdi. unfold mulv in Hdi.
    fold y in Hdi. rewrite Hdi. rewrite L2 by lia. rewrite E1b. f_equal.
    apply Rsum_ext. intros j Hj. rewrite E1 by lia. reflexivity. }
  unfold represented.
  destruct (Nat.lt_ge_cases p (nb B)) as [Hlt|Hge].
  - rewrite mulv_block_top by assumption.
    rewrite (Rsum_ext (nb B) _ (fun j => Q p j * h j - Rsum (kk B) (fun l => Q p j * beta B qs l j * y l))).
    2:{ intros j Hj. rewrite Etop by lia. rewrite Rmult_minus_distr_l, <- Rsum_scal.
        f_equal. apply Rsum_ext. intros; lra. }
    rewrite Rsum_minus.
    rewrite Rsum_swap.
    rewrite (Rsum_ext (kk B) (fun j => Rsum (nb B) _) (fun l => gam B l p * y l)).
    2:{ intros l Hl. rewrite Rsum_scal_r. f_equal.
        pose proof (Hq (gam B l) p Hlt) as Hql. unfold mulv in Hql. exact Hql. }
    rewrite (Rsum_ext (kk B) (fun j => gam B j p * b4 (nb B + j)%nat) (fun l => gam B l p * y l)).
    2:{ intros l Hl. rewrite Ebot by lia. reflexivity. }
    pose proof (Hq b p Hlt) as Hqb. unfold mulv in Hqb. fold h in Hqb. rewrite Hqb. lra.
  - replace p with (nb B + (p - nb B))%nat by lia. set (i := (p - nb B)%nat) in *.
    assert (Hi : (i < kk B)%nat) by lia.
    rewrite mulv_block_bot.
    rewrite (Rsum_ext (nb B) _ (fun j => lambda_full kd B i j * h j -
                 Rsum (kk B) (fun l => lambda_full kd B i j * beta B qs l j * y l))).
    2:{ intros j Hj. rewrite Etop by lia. rewrite Rmult_minus_distr_l, <- Rsum_scal.
        f_equal. apply Rsum_ext. intros; lra. }
    rewrite Rsum_minus, Rsum_swap.
    specialize (Hy i Hi).
    rewrite (Rsum_ext (kk B) (fun j => delta_to_factorise kd B qs i j * y j)
               (fun j => del B i j * y j - Rsum (nb B) (fun l => lambda_full kd B i l * beta B qs j l * y j))) in Hy.
    2:{ intros j Hj. rewrite delta_spec by assumption. rewrite Rsum_scal_r. lra. }
    rewrite Rsum_minus in Hy.
    rewrite (Rsum_ext (kk B) (fun j => del B i j * b4 (nb B + j)%nat) (fun j => del B i j * y j)).
    2:{ intros j Hj. rewrite Ebot by lia. reflexivity. }
    lra.
Qed.

Theorem corner_solve_transpose_correct kd B Q qs qsT dsT :
  kind_ok kd B ->
  solves (nb B) Q qs -> solves (nb B) (transp Q) qsT ->
  solves (kk B) (transp (delta_to_factorise kd B qs)) dsT ->
  solves (nb B + kk B) (transp (represented kd B Q)) (corner_solve_transpose kd B qs qsT dsT).
Proof.
  intros Hkd Hq HqT HdT b p Hp.
  unfold corner_solve_transpose.
  pose proof (gamma_section_transpose_spec B (beta B qs) b) as [G1 G2]. cbv zeta in G1, G2.
  set (b1 := gamma_section_transpose B (beta B qs) b) in *.
  set (b2 := on_view (nb B) (kk B) dsT b1).
  pose proof (lam_secT_spec kd B b2 Hkd) as [L1 L2]. cbv zeta in L1, L2.
  set (b3 := match kd with FullLambda => lambda_section_transpose
                         | PeriodicLambda => p_lambda_section_transpose end B b2) in *.
  set (b4 := on_view 0 (nb B) qsT b3).
  set (e := dsT (fun j => b1 (nb B + j)%nat)).
  set (d := qsT b3).
  assert (Ed : forall i, (i < nb B)%nat -> b4 i = d i).
  { intros i Hi. apply (on_view_in 0 (nb B) qsT b3 i Hi). }
  assert (E2 : forall i, (i < nb B)%nat -> b2 i = b i).
  { intros i Hi. unfold b2. rewrite on_view_out by lia. apply G1; lia. }
  assert (E2b : forall i, (i < kk B)%nat -> b2 (nb B + i)%nat = e i).
  { intros i Hi. unfold b2. rewrite on_view_in by lia. reflexivity. }
  assert (Ee : forall i, (i < kk B)%nat -> b4 (nb B + i)%nat = e i).
  { intros i Hi. unfold b4. rewrite on_view_out by lia. rewrite L2 by lia. apply E2b; lia. }
  assert (Hdd : forall i, (i < nb B)%nat -> Rsum (nb B) (fun j => Q j i * d j) =
             b i - Rsum (kk B) (fun l => lambda_full kd B l i * e l)).
  { intros i Hi. pose proof (HqT b3 i Hi) as H. unfold mulv, transp in H. fold d in H.
    rewrite H, L1, E2 by lia. f_equal. apply Rsum_ext. intros l Hl. rewrite E2b by lia. reflexivity. }
  assert (He : forall j, (j < kk B)%nat -> Rsum (kk B) (fun i => delta_to_factorise kd B qs i j * e i) =
             b (nb B + j)%nat - Rsum (nb B) (fun i => beta B qs j i * b i)).
  { intros j Hj. pose proof (HdT (fun j => b1 (nb B + j)%nat) j Hj) as H. unfold mulv, transp in H.
    fold e in H. rewrite H. apply G2; lia. }
  assert (Htr : forall i j, transp (represented kd B Q) i j =
     block (nb B) (transp Q) (fun i j => lambda_full kd B j i) (fun i j => gam B i j) (transp (del B)) i j).
  { intros i j. unfold represented, block, transp.
    destruct (Nat.ltb i (nb B)); destruct (Nat.ltb j (nb B)); reflexivity. }
  assert (Hm : mulv (nb B + kk B) (transp (represented kd B Q)) b4 p =
     mulv (nb B + kk B) (block (nb B) (transp Q) (fun i j => lambda_full kd B j i) (fun i j => gam B i j) (transp (del B))) b4 p).
  { unfold mulv. apply Rsum_ext. intros j Hj. rewrite Htr. reflexivity. }
  rewrite Hm. clear Hm Htr.
  destruct (Nat.lt_ge_cases p (nb B)) as [Hlt|Hge].
  - rewrite mulv_block_top by assumption. unfold transp.
    rewrite (Rsum_ext (nb B) _ (fun j => Q j p * d j)).
    2:{ intros j Hj. rewrite Ed by lia. reflexivity. }
    rewrite Hdd by assumption.
    rewrite (Rsum_ext (kk B) (fun j => lambda_full kd B j p * b4 (nb B + j)%nat) (fun l => lambda_full kd B l p * e l)).
    2:{ intros l Hl. rewrite Ee by lia. reflexivity. }
    lra.
  - replace p with (nb B + (p - nb B))%nat by lia. set (i := (p - nb B)%nat) in *.
    assert (Hi : (i < kk B)%nat) by lia.
    rewrite mulv_block_bot. unfold transp.
    (* gamma_i . d = beta_i . (Q^T d) *)
    assert (Hg : Rsum (nb B) (fun j => gam B i j * b4 j) =
                 Rsum (nb B) (fun l => beta B qs i l * (b l - Rsum (kk B) (fun m => lambda_full kd B m l * e m)))).
    { rewrite (Rsum_ext (nb B) _ (fun j => Rsum (nb B) (fun l => Q j l * beta B qs i l * d j))).
      2:{ intros j Hj. rewrite Ed by lia. rewrite Rsum_scal_r. f_equal.
          pose proof (Hq (gam B i) j Hj) as H. unfold mulv in H. symmetry; exact H. }
      rewrite Rsum_swap. apply Rsum_ext. intros l Hl.
      rewrite <- Hdd by lia. rewrite <- Rsum_scal. apply Rsum_ext. intros; lra. }
    rewrite Hg.
    rewrite (Rsum_ext (nb B) _ (fun l => beta B qs i l * b l - Rsum (kk B) (fun m => lambda_full kd B m l * beta B qs i l * e m))).
    2:{ intros l Hl. rewrite Rmult_minus_distr_l, <- Rsum_scal.
        f_equal. apply Rsum_ext. intros; lra. }
    rewrite Rsum_minus, Rsum_swap.
    specialize (He i Hi).
    rewrite (Rsum_ext (kk B) (fun j => delta_to_factorise kd B qs j i * e j)
               (fun j => del B j i * e j - Rsum (nb B) (fun l => lambda_full kd B j l * beta B qs i l * e j))) in He.
    2:{ intros j Hj. rewrite delta_spec by assumption. rewrite Rsum_scal_r. lra. }
    rewrite Rsum_minus in He.
    rewrite (Rsum_ext (kk B) (fun j => del B j i * b4 (nb B + j)%nat) (fun j => del B j i * e j)).
    2:{ intros j Hj. rewrite Ee by lia. reflexivity. }
    lra.
Qed.

(** ** the Schur complement is regular when the matrix is *)
Definition injective_mat (n : nat) (M : mat) : Prop :=
  forall x, (forall i, (i < n)%nat -> mulv n M x i = 0) -> forall i, (i < n)%nat -> x i = 0.

Theorem schur_regular kd B Q qs :
  kind_ok kd B -> solves (nb B) Q qs ->
  injective_mat (nb B + kk B) (represented kd B Q) ->
  injective_mat (kk B) (delta_to_factorise kd B qs).
Proof.
  intros Hkd Hq Hinj y Hy i Hi.
  set (x := fun p => if Nat.ltb p (nb B) then - Rsum (kk B) (fun j => beta B qs j p * y j)
                     else y (p - nb B)%nat).
  assert (Hx : forall j, x (nb B + j)%nat = y j).
  { intros j. unfold x. replace (Nat.ltb (nb B + j) (nb B)) with false by lia. f_equal; lia. }
  assert (Hx0 : forall p, (p < nb B)%nat -> x p = - Rsum (kk B) (fun j => beta B qs j p * y j)).
  { intros p Hp. unfold x. replace (Nat.ltb p (nb B)) with true by lia. reflexivity. }
  rewrite <- Hx. apply Hinj; [|lia].
  intros p Hp. unfold represented.
  destruct (Nat.lt_ge_cases p (nb B)) as [Hlt|Hge].
  - rewrite mulv_block_top by assumption.
    rewrite (Rsum_ext (nb B) _ (fun j => - Rsum (kk B) (fun l => Q p j * beta B qs l j * y l))).
    2:{ intros j Hj. rewrite Hx0 by lia. rewrite Ropp_mult_distr_r_reverse, <- Rsum_scal.
        f_equal. apply Rsum_ext. intros; lra. }
    rewrite Rsum_opp, Rsum_swap.
    rewrite (Rsum_ext (kk B) (fun j => Rsum (nb B) _) (fun l => gam B l p * y l)).
    2:{ intros l Hl. rewrite Rsum_scal_r. f_equal.
        pose proof (Hq (gam B l) p Hlt) as Hql. unfold mulv in Hql. exact Hql. }
    rewrite (Rsum_ext (kk B) (fun j => gam B j p * x (nb B + j)%nat) (fun l => gam B l p * y l)).
    2:{ intros l Hl. rewrite Hx. reflexivity. }
    lra.
  - replace p with (nb B + (p - nb B))%nat by lia. set (a := (p - nb B)%nat) in *.
    assert (Ha : (a < kk B)%nat) by lia.
    rewrite mulv_block_bot.
    rewrite (Rsum_ext (nb B) _ (fun j => - Rsum (kk B) (fun l => lambda_full kd B a j * beta B qs l j * y l))).
    2:{ intros j Hj. rewrite Hx0 by lia. rewrite Ropp_mult_distr_r_reverse, <- Rsum_scal.
        f_equal. apply Rsum_ext. intros; lra. }
    rewrite Rsum_opp, Rsum_swap.
    specialize (Hy a Ha). unfold mulv in Hy.
    rewrite (Rsum_ext (kk B) (fun j => delta_to_factorise kd B qs a j * y j)
               (fun j => del B a j * y j - Rsum (nb B) (fun l => lambda_full kd B a l * beta B qs j l * y j))) in Hy.
    2:{ intros j Hj. rewrite delta_spec by assumption. rewrite Rsum_scal_r. lra. }
    rewrite Rsum_minus in Hy.
    rewrite (Rsum_ext (kk B) (fun j => del B a j * x (nb B + j)%nat) (fun j => del B a j * y j)).
    2:{ intros j Hj. rewrite Hx. reflexivity. }
    lra.
Qed.

(** ** centre block *)
(** position in the corner ordering of row i of the centre ordering *)
Definition to_corner (q top i : nat) : nat :=
  if Nat.ltb i top then (i + q)%nat else if Nat.ltb i (top + q) then (i - top)%nat else i.

Lemma Rsum_rotate q top bot f :
  Rsum (top + q + bot) (fun j => f (to_corner q top j)) = Rsum (top + q + bot) f.
Proof.
  rewrite !Rsum_app.
  rewrite (Rsum_ext top _ (fun j => f (q + j)%nat)).
  2:{ intros j Hj. unfold to_corner. replace (Nat.ltb j top) with true by lia. f_equal; lia. }
  rewrite (Rsum_ext q _ f).
  2:{ intros j Hj. unfold to_corner. replace (Nat.ltb (top + j) top) with false by lia.
      replace (Nat.ltb (top + j) (top + q)) with true by lia. f_equal; lia. }
  rewrite (Rsum_ext bot _ (fun i => f (top + q + i)%nat)).
  2:{ intros j Hj. unfold to_corner. replace (Nat.ltb (top + q + j) top) with false by lia.
      replace (Nat.ltb (top + q + j) (top + q)) with false by lia. reflexivity. }
  assert (E : Rsum top f + Rsum q (fun i => f (top + i)%nat) = Rsum q f + Rsum top (fun j => f (q + j)%nat)).
  { rewrite <- !Rsum_app. f_equal; lia. }
  lra.
Qed.

Lemma swap_to_corner_ok n q top bot swap bx :
  n = (top + q + bot)%nat -> (top <= q)%nat ->
  exists sw b, swap_to_corner n 1 q top swap bx = Ok (sw, b) /\
    forall i, (i < n)%nat -> b (to_corner q top i) = bx i.
Proof.
  intros -> Ht. unfold swap_to_corner, memcpy, memcpy_self. rewrite !Nat.mul_1_r, !Nat.add_0_l, ?Nat.mul_1_r.
  replace (Nat.leb q q && Nat.leb (top + q) (top + q + bot))%bool with true by lia. cbn [bind].
  replace (Nat.leb (q + top) (top + q + bot) && Nat.leb top (top + q + bot) &&
      (Nat.leb (q + top) 0 || Nat.leb top q || Nat.eqb top 0))%bool with true by lia. cbn [bind].
  replace (Nat.leb q (top + q + bot) && Nat.leb q q)%bool with true by lia. cbn [bind].
  eexists _, _; split; [reflexivity|].
  intros i Hi. unfold to_corner.
  destruct (Nat.ltb i top) eqn:E1.
  - replace (Nat.leb 0 (i + q) && Nat.ltb (i + q) q)%bool with false by lia.
    replace (Nat.leb q (i + q) && Nat.ltb (i + q) (q + top))%bool with true by lia. f_equal; lia.
  - destruct (Nat.ltb i (top + q)) eqn:E2.
    + replace (Nat.leb 0 (i - top) && Nat.ltb (i - top) q)%bool with true by lia.
      rewrite !Nat.sub_0_r, ?Nat.add_0_l.
      replace (Nat.leb 0 (i - top) && Nat.ltb (i - top) q)%bool with true by lia.
      f_equal; lia.
    + replace (Nat.leb 0 i && Nat.ltb i q)%bool with false by lia.
      replace (Nat.leb q i && Nat.ltb i (q + top))%bool with false by lia. reflexivity.
Qed.

Lemma swap_to_centre_ok n q top bot swap bx :
  n = (top + q + bot)%nat -> (top <= q)%nat ->
  exists sw b, swap_to_centre n 1 q top swap bx = Ok (sw, b) /\
    forall i, (i < n)%nat -> b i = bx (to_corner q top i).
Proof.
  intros -> Ht. unfold swap_to_centre, memcpy, memcpy_self. rewrite !Nat.mul_1_r, !Nat.add_0_l, ?Nat.mul_1_r.
  replace (Nat.leb q q && Nat.leb q (top + q + bot))%bool with true by lia. cbn [bind].
  replace (Nat.leb top (top + q + bot) && Nat.leb (q + top) (top + q + bot) &&
      (Nat.leb top q || Nat.leb (q + top) 0 || Nat.eqb top 0))%bool with true by lia. cbn [bind].
  replace (Nat.leb (top + q) (top + q + bot) && Nat.leb q q)%bool with true by lia. cbn [bind].
  eexists _, _; split; [reflexivity|].
  intros i Hi. unfold to_corner.
  destruct (Nat.ltb i top) eqn:E1.
  - replace (Nat.leb top i && Nat.ltb i (top + q))%bool with false by lia.
    replace (Nat.leb 0 i && true)%bool with true by lia. f_equal; lia.
  - destruct (Nat.ltb i (top + q)) eqn:E2.
    + replace (Nat.leb top i && true)%bool with true by lia.
      rewrite !Nat.sub_0_r, ?Nat.add_0_l.
      replace (Nat.leb 0 (i - top) && Nat.ltb (i - top) q)%bool with true by lia.
      f_equal; lia.
    + replace (Nat.leb top i && false)%bool with false by lia.
      replace (Nat.leb 0 i && false)%bool with false by lia. reflexivity.
Qed.

Lemma to_corner_bound q top bot i : (i < top + q + bot)%nat -> (to_corner q top i < top + q + bot)%nat.
Proof. unfold to_corner. intros. destruct (Nat.ltb i top) eqn:?; [lia|]. destruct (Nat.ltb i (top + q)) eqn:?; lia. Qed.

Theorem centre_solve_correct q top bot Mc s swap b :
  (top <= q)%nat -> solves (top + q + bot) Mc s ->
  exists x, centre_solve (top + q + bot) q top s swap b = Ok x /\
    forall i, (i < top + q + bot)%nat ->
      mulv (top + q + bot) (fun i j => Mc (to_corner q top i) (to_corner q top j)) x i = b i.
Proof.
  intros Ht Hs. unfold centre_solve.
  destruct (swap_to_corner_ok _ q top bot swap b eq_refl Ht) as [sw1 [b1 [E1 H1]]].
  rewrite E1; cbn [bind].
  destruct (swap_to_centre_ok _ q top bot sw1 (s b1) eq_refl Ht) as [sw2 [b2 [E2 H2]]].
  rewrite E2; cbn [bind].
  exists b2; split; [reflexivity|]. intros i Hi.
  unfold mulv.
  rewrite (Rsum_ext _ _ (fun j => (fun c => Mc (to_corner q top i) c * s b1 c) (to_corner q top j))).
  2:{ intros j Hj. rewrite H2 by assumption. reflexivity. }
  rewrite (Rsum_rotate q top bot (fun c => Mc (to_corner q top i) c * s b1 c)).
  pose proof (Hs b1 (to_corner q top i) (to_corner_bound q top bot i Hi)) as H.
  unfold mulv in H. rewrite H. apply H1; assumption.
Qed.

(** overlapping memcpy when the top block is larger than the banded region *)
Lemma centre_solve_overlap q top bot s swap b :
  (0 < q < top)%nat -> centre_solve (top + q + bot) q top s swap b = Ub.
Proof.
  intros H. unfold centre_solve, swap_to_corner, memcpy, memcpy_self.
  rewrite !Nat.mul_1_r, !Nat.add_0_l.
  replace (Nat.leb q q && Nat.leb (top + q) (top + q + bot))%bool with true by lia. cbn [bind].
  replace (Nat.leb (q + top) (top + q + bot) && Nat.leb top (top + q + bot) &&
      (Nat.leb (q + top) 0 || Nat.leb top q || Nat.eqb top 0))%bool with false by lia. reflexivity.
Qed.

(** several right-hand sides *)
Lemma corner_multiple_assert n e0 s bx :
  e0 <> n -> corner_solve_multiple n e0 n s bx = AssertFail.
Proof.
  intros H. unfold corner_solve_multiple, check. replace (Nat.eqb e0 n) with false by lia. reflexivity.
Qed.

Lemma centre_multiple_overflow n e0 e1 q top s swap bx :
  (0 < q)%nat -> (2 <= e1)%nat -> centre_solve_multiple n e0 e1 q top s swap bx = Ub.
Proof.
  intros Hq He. unfold centre_solve_multiple, swap_to_corner, memcpy.
  replace (Nat.leb (0 + q * e1) q && Nat.leb (top * e1 + q * e1) (e0 * e1))%bool with false by nia.
  reflexivity.
Qed.

Lemma base_multiple_ok n m M s bx :
  solves n M s ->
  exists x, base_solve_multiple n m n s bx = Ok x /\
    forall r i, (r < m)%nat -> (i < n)%nat ->
      mulv n M (fun j => x (n * r + j)%nat) i = bx (n * r + i)%nat.
Proof.
  intros Hs. unfold base_solve_multiple, check. rewrite Nat.eqb_refl. cbn [bind].
  eexists; split; [reflexivity|].
  loop_inv (fun (c : nat) (x : vec) =>
    (forall p, (n * c <= p)%nat -> x p = bx p) /\
    (forall r i, (r < c)%nat -> (i < n)%nat ->
      mulv n M (fun j => x (n * r + j)%nat) i = bx (n * r + i)%nat)).
  - split; [auto|intros; lia].
  - intros c t Hc [H1 H2]. split.
    + intros p Hp. rewrite on_view_out by nia. apply H1; nia.
    + intros r i Hr Hi. destruct (Nat.eq_dec r c) as [->|Hne].
      * rewrite <- (H1 (n * c + i)%nat) by nia.
        rewrite <- (Hs (fun j => t (n * c + j)%nat) i Hi).
        unfold mulv. apply Rsum_ext. intros j Hj. rewrite on_view_in by lia. reflexivity.
      * rewrite <- (H2 r i) by lia. unfold mulv. apply Rsum_ext. intros j Hj.
        rewrite on_view_out by nia. reflexivity.
  - destruct HI as [_ H2]. exact H2.
Qed.
