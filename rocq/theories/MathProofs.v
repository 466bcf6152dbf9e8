(** Proofs about the math tools. *)
From Verif Require Import MathModel MathSpec QuadProofs.
From Coq Require Import Lra Lia ZifyBool.
Open Scope R_scope.

Lemma rd_point pts fr k i : (0 <= fr)%Z -> k = (fr + Z.of_nat i)%Z ->
  (Z.to_nat fr + i < length pts)%nat -> rd pts k = Ok (point pts fr i).
Proof.
  intros H -> L. rewrite (rd_shows _ _ _ _ (shows_refl pts)) by lia. unfold point. do 2 f_equal. lia.
Qed.
Lemma rd_value (f : list R) k i : k = Z.of_nat i -> (i < length f)%nat -> rd f k = Ok (value f i).
Proof.
  intros -> L. rewrite (rd_shows _ _ _ _ (shows_refl f)) by lia. unfold value. do 2 f_equal. lia.
Qed.
Lemma wr_value N (d : list R) g k i v : shows N d g -> k = Z.of_nat i -> (i < N)%nat ->
  exists d', wr d k v = Ok d' /\ shows N d' (upd g i v).
Proof.
  intros S -> L. destruct (wr_shows N d g (Z.of_nat i) v S) as [d' [E H]]; [lia|].
  rewrite Nat2Z.id in H. eauto.
Qed.

Definition centred_at (pts f : list R) (fr : Z) (i : nat) : R :=
  fdm_centred (value f i) (value f (S i)) (value f (S (S i)))
    (point pts fr (S i) - point pts fr i) (point pts fr (S (S i)) - point pts fr (S i)).

Lemma fdm_central_spec pts f fr n d g :
  (0 <= fr)%Z -> (2 <= n)%nat -> (Z.to_nat fr + n <= length pts)%nat -> length f = n -> shows n d g ->
  exists d', fdm_central pts f fr n d = Ok d' /\ length d' = n /\
    nth 0 d' 0 = g O /\ nth (n - 1) d' 0 = g (n - 1)%nat /\
    forall i, (i < n - 2)%nat -> nth (S i) d' 0 = centred_at pts f fr i.
Proof.
  intros Hfr Hn Hl Hf Hd. unfold fdm_central.
  destruct (range_policy_inv
    (fun j d => exists g', shows n d g' /\ g' O = g O /\ g' (n - 1)%nat = g (n - 1)%nat /\
       forall i, (i < j)%nat -> g' (S i) = centred_at pts f fr i)
    (Z.of_nat n - 2) (n - 2)
    (fun k d =>
    let ix := (fr + 1 + Z.of_nat k)%Z in
    let* x0 := rd pts (ix - 1) in let* x1 := rd pts ix in let* x2 := rd pts (ix + 1) in
    let* f0 := rd f (ix - 1 - fr) in let* f1 := rd f (ix - fr) in let* f2 := rd f (ix + 1 - fr) in
    wr d (ix - fr) (fdm_centred f0 f1 f2 (x1 - x0) (x2 - x1))) d) as [d1 [E1 [g1 [S1 [A1 [B1 I1]]]]]].
  - lia.
  - exists g. split; auto. split; auto. split; auto. intros; lia.
  - intros i s Hi [g' [Hs [HA [HB HI]]]]. cbv zeta.
    rewrite (rd_point pts fr _ i), (rd_point pts fr (fr + 1 + Z.of_nat i) (S i)),
      (rd_point pts fr (fr + 1 + Z.of_nat i + 1) (S (S i))) by lia.
    rewrite (rd_value f (fr + 1 + Z.of_nat i - 1 - fr) i), (rd_value f (fr + 1 + Z.of_nat i - fr) (S i)),
      (rd_value f (fr + 1 + Z.of_nat i + 1 - fr) (S (S i))) by lia. cbn [bind].
    destruct (wr_value n s g' (fr + 1 + Z.of_nat i - fr) (S i) (centred_at pts f fr i) Hs) as [s' [E' S']];
      [lia|lia|].
    exists s'. split; [exact E'|]. exists (upd g' (S i) (centred_at pts f fr i)). split; [exact S'|].
    split; [rewrite upd_neq; auto|]. split; [rewrite upd_neq; auto; lia|].
    intros k Hk. destruct (Nat.eq_dec k i) as [->|N]; [apply upd_eq|]. rewrite upd_neq by lia. apply HI. lia.
  - exists d1. split; [exact E1|]. destruct S1 as [L1 S1]. split; auto.
    rewrite !S1 by lia. split; auto. split; auto. intros i Hi. rewrite S1 by lia. apply I1; auto.
Qed.

Lemma centred_exact a b c x h1 h2 : h1 <> 0 -> h2 <> 0 -> h1 + h2 <> 0 ->
  fdm_centred (quad a b c (x - h1)) (quad a b c x) (quad a b c (x + h2)) h1 h2 = quad' b c x.
Proof. intros. unfold fdm_centred, quad, quad'. field. auto. Qed.

Lemma centred_exact' a b c f1 f2 f3 x0 x1 x2 : x0 < x1 -> x1 < x2 ->
  f1 = quad a b c x0 -> f2 = quad a b c x1 -> f3 = quad a b c x2 ->
  fdm_centred f1 f2 f3 (x1 - x0) (x2 - x1) = quad' b c x1.
Proof.
  intros H1 H2 -> -> ->.
  rewrite <- (centred_exact a b c x1 (x1 - x0) (x2 - x1)) by lra.
  replace (x1 - (x1 - x0)) with x0 by ring. replace (x1 + (x2 - x1)) with x2 by ring. reflexivity.
Qed.

(** non periodic *)
Lemma central_fdm_exact pts f fr n d0 a b c :
  increasing pts -> (0 <= fr)%Z -> (3 <= n)%nat -> (Z.to_nat fr + n <= length pts)%nat ->
  length f = n -> length d0 = n ->
  (forall i, (i < n)%nat -> value f i = quad a b c (point pts fr i)) ->
  exists d, central_fdm false pts f fr n d0 = Ok d /\ length d = n /\
    forall i, (i < n)%nat -> value d i = quad' b c (point pts fr i).
Proof.
  intros Hi Hfr Hn Hl Hf Hd HV. unfold central_fdm, fdm_front, fdm_back. cbv zeta.
  assert (P1 : point pts fr 0 < point pts fr 1) by (apply point_lt; auto; lia).
  assert (P2 : point pts fr 1 < point pts fr 2) by (apply point_lt; auto; lia).
  assert (Q1 : point pts fr (n - 2) < point pts fr (n - 1)) by (apply point_lt; auto; lia).
  assert (Q2 : point pts fr (n - 3) < point pts fr (n - 2)) by (apply point_lt; auto; lia).
  rewrite (rd_point pts fr fr 0), (rd_point pts fr (fr + 1) 1), (rd_point pts fr (fr + 2) 2) by lia.
  rewrite (rd_value f (fr - fr) 0), (rd_value f (fr + 1 - fr) 1), (rd_value f (fr + 2 - fr) 2) by lia.
  cbn [bind].
  assert (S0 : shows n d0 (fun k => nth k d0 0)) by (rewrite <- Hd; apply shows_refl).
  match goal with |- context [wr d0 (fr - fr) ?v] =>
    destruct (wr_value n d0 _ (fr - fr) 0 v S0) as [d1 [E1 S1]]; [lia|lia|];
    assert (V1 : v = quad' b c (point pts fr 0))
  end.
  { rewrite !HV by lia. unfold quad, quad'. field. repeat split; lra. }
  rewrite E1, V1 in *. cbn [bind].
  rewrite (rd_point pts fr (fr + Z.of_nat n - 1) (n - 1)), (rd_point pts fr (fr + Z.of_nat n - 1 - 1) (n - 2)),
    (rd_point pts fr (fr + Z.of_nat n - 1 - 2) (n - 3)) by lia.
  rewrite (rd_value f (fr + Z.of_nat n - 1 - fr) (n - 1)), (rd_value f (fr + Z.of_nat n - 1 - 1 - fr) (n - 2)),
    (rd_value f (fr + Z.of_nat n - 1 - 2 - fr) (n - 3)) by lia.
  cbn [bind].
  match goal with |- context [wr d1 (fr + Z.of_nat n - 1 - fr) ?v] =>
    destruct (wr_value n d1 _ (fr + Z.of_nat n - 1 - fr) (n - 1) v S1) as [d2 [E2 S2]]; [lia|lia|];
    assert (V2 : v = quad' b c (point pts fr (n - 1)))
  end.
  { rewrite !HV by lia. unfold quad, quad'. field. repeat split; lra. }
  rewrite E2, V2 in *. cbn [bind].
  destruct (fdm_central_spec pts f fr n d2 _ Hfr ltac:(lia) Hl Hf S2) as [d3 [E3 [L3 [F3 [B3 I3]]]]].
  exists d3. split; [exact E3|]. split; [exact L3|]. intros i Hin. unfold value.
  destruct i as [|i].
  - rewrite F3. rewrite upd_neq by lia. apply upd_eq.
  - destruct (Nat.eq_dec (S i) (n - 1)) as [E|N].
    + rewrite E, B3. apply upd_eq.
    + rewrite I3 by lia. unfold centred_at. apply centred_exact' with (a := a);
        try (apply point_lt; auto; lia); apply HV; lia.
Qed.

(** periodic *)
Lemma periodic_point_0 pts fr n L k : (0 <= k < Z.of_nat n)%Z ->
  periodic_point pts fr n L k = point pts fr (Z.to_nat k).
Proof.
  intros H. unfold periodic_point. rewrite Z.mod_small, Z.div_small by lia. simpl. ring.
Qed.
Lemma periodic_value_0 f n k : (0 <= k < Z.of_nat n)%Z -> periodic_value f n k = value f (Z.to_nat k).
Proof. intros H. unfold periodic_value. rewrite Z.mod_small by lia. reflexivity. Qed.
Lemma periodic_point_m1 pts fr n L : (1 <= n)%nat ->
  periodic_point pts fr n L (-1) = point pts fr (n - 1) - L.
Proof.
  intros H. unfold periodic_point.
  replace ((-1) mod Z.of_nat n)%Z with (Z.of_nat (n - 1)).
  2:{ apply Z.mod_unique with (q := (-1)%Z); lia. }
  replace ((-1) / Z.of_nat n)%Z with (-1)%Z.
  2:{ apply Z.div_unique with (r := Z.of_nat (n - 1)); lia. }
  rewrite Nat2Z.id. simpl. ring.
Qed.
Lemma periodic_value_m1 f n : (1 <= n)%nat -> periodic_value f n (-1) = value f (n - 1).
Proof.
  intros H. unfold periodic_value. replace ((-1) mod Z.of_nat n)%Z with (Z.of_nat (n - 1)).
  2:{ apply Z.mod_unique with (q := (-1)%Z); lia. }
  rewrite Nat2Z.id. reflexivity.
Qed.
Lemma periodic_point_n pts fr n L : (1 <= n)%nat ->
  periodic_point pts fr n L (Z.of_nat n) = point pts fr 0 + L.
Proof.
  intros H. unfold periodic_point. rewrite Z_mod_same_full, Z_div_same_full by lia. simpl. ring.
Qed.
Lemma periodic_value_n f n : (1 <= n)%nat -> periodic_value f n (Z.of_nat n) = value f 0.
Proof. intros H. unfold periodic_value. rewrite Z_mod_same_full by lia. reflexivity. Qed.

Lemma central_fdm_periodic pts f fr n d0 :
  increasing pts -> (0 <= fr)%Z -> (2 <= n)%nat -> (Z.to_nat fr + n < length pts)%nat ->
  length f = n -> length d0 = n ->
  exists d, central_fdm true pts f fr n d0 = Ok d /\ length d = n /\
    forall i a b c, (i < n)%nat ->
      (forall k, (Z.of_nat i - 1 <= k <= Z.of_nat i + 1)%Z ->
         periodic_value f n k
         = quad a b c (periodic_point pts fr n (point pts fr n - point pts fr 0) k)) ->
      value d i = quad' b c (point pts fr i).
Proof.
  intros Hi Hfr Hn Hl Hf Hd. unfold central_fdm, fdm_periodic_ends, total_interval_length. cbv zeta.
  assert (P1 : point pts fr 0 < point pts fr 1) by (apply point_lt; auto; lia).
  assert (Q1 : point pts fr (n - 2) < point pts fr (n - 1)) by (apply point_lt; auto; lia).
  assert (Q2 : point pts fr (n - 1) < point pts fr n) by (apply point_lt; auto; lia).
  assert (Q3 : point pts fr 0 < point pts fr n) by (apply point_lt; auto; lia).
  set (L := point pts fr n - point pts fr 0).
  rewrite (rd_point pts fr fr 0), (rd_point pts fr (fr + Z.of_nat n) n) by lia. cbn [bind].
  rewrite (rd_point pts fr (fr + Z.of_nat n - 1) (n - 1)), (rd_point pts fr (fr + Z.of_nat n - 1 - 1) (n - 2)),
    (rd_point pts fr (fr + 1) 1) by lia.
  rewrite (rd_value f (fr + Z.of_nat n - 1 - 1 - fr) (n - 2)), (rd_value f (fr + Z.of_nat n - 1 - fr) (n - 1)),
    (rd_value f (fr - fr) 0), (rd_value f (fr + 1 - fr) 1) by lia.
  cbn [bind]. rewrite Rabs_right by lra. fold L.
  assert (S0 : shows n d0 (fun k => nth k d0 0)) by (rewrite <- Hd; apply shows_refl).
  match goal with |- context [wr d0 (fr + Z.of_nat n - 1 - fr) ?v] =>
    destruct (wr_value n d0 _ (fr + Z.of_nat n - 1 - fr) (n - 1) v S0) as [d1 [E1 S1]]; [lia|lia|]
  end.
  rewrite E1. cbn [bind].
  match goal with |- context [wr d1 (fr - fr) ?v] =>
    destruct (wr_value n d1 _ (fr - fr) 0 v S1) as [d2 [E2 S2]]; [lia|lia|]
  end.
  rewrite E2. cbn [bind].
  destruct (fdm_central_spec pts f fr n d2 _ Hfr Hn ltac:(lia) Hf S2) as [d3 [E3 [L3 [F3 [B3 I3]]]]].
  exists d3. split; [exact E3|]. split; [exact L3|]. intros i a b c Hin HQ. unfold value at 1.
  destruct (Nat.eq_dec i 0) as [->|N0].
  - rewrite F3, upd_eq.
    pose proof (HQ (-1)%Z ltac:(lia)) as H1. pose proof (HQ 0%Z ltac:(lia)) as H2.
    pose proof (HQ 1%Z ltac:(lia)) as H3.
    rewrite periodic_value_m1, periodic_point_m1 in H1 by lia.
    rewrite periodic_value_0, periodic_point_0 in H2, H3 by lia.
    change (Z.to_nat 0) with 0%nat in H2. change (Z.to_nat 1) with 1%nat in H3.
    replace (point pts fr 0 - point pts fr (n - 1) + L) with (point pts fr 0 - (point pts fr (n - 1) - L)) by ring.
    apply centred_exact' with (a := a); auto. unfold L; lra.
  - destruct (Nat.eq_dec i (n - 1)) as [->|N1].
    + rewrite B3, upd_neq, upd_eq by lia.
      pose proof (HQ (Z.of_nat (n - 2)) ltac:(lia)) as H1. pose proof (HQ (Z.of_nat (n - 1)) ltac:(lia)) as H2.
      pose proof (HQ (Z.of_nat n) ltac:(lia)) as H3.
      rewrite periodic_value_n, periodic_point_n in H3 by lia.
      rewrite periodic_value_0, periodic_point_0 in H1, H2 by lia. rewrite Nat2Z.id in H1, H2.
      replace (point pts fr 0 - point pts fr (n - 1) + L) with (point pts fr 0 + L - point pts fr (n - 1)) by ring.
      apply centred_exact' with (a := a); auto. unfold L; lra.
    + destruct i as [|i]; [lia|]. rewrite I3 by lia. unfold centred_at.
      pose proof (HQ (Z.of_nat i) ltac:(lia)) as H1. pose proof (HQ (Z.of_nat (S i)) ltac:(lia)) as H2.
      pose proof (HQ (Z.of_nat (S (S i))) ltac:(lia)) as H3.
      rewrite periodic_value_0, periodic_point_0 in H1, H2, H3 by lia. rewrite Nat2Z.id in H1, H2, H3.
      apply centred_exact' with (a := a); auto; apply point_lt; auto; lia.
Qed.

(** with boundary values *)
Lemma central_fdm_bvalue_spec pts f fr n d0 bl br a b c :
  increasing pts -> (0 <= fr)%Z -> (3 <= n)%nat -> (Z.to_nat fr + n <= length pts)%nat ->
  length f = n -> length d0 = n ->
  (forall i, (i < n)%nat -> value f i = quad a b c (point pts fr i)) ->
  exists d, central_fdm_bvalue pts f fr n bl br d0 = Ok d /\ length d = n /\
    (forall i, (0 < i < n - 1)%nat -> value d i = quad' b c (point pts fr i)) /\
    value d 0 = (quad' b c (point pts fr 0)
       + (value f 0 - bl) * (1 / (point pts fr 1 - point pts fr 0) + 1 / (point pts fr 2 - point pts fr 0))) / 2 /\
    value d (n - 1) = (quad' b c (point pts fr (n - 1))
       - (value f (n - 1) - br)
         * (1 / (point pts fr (n - 1) - point pts fr (n - 2)) + 1 / (point pts fr (n - 1) - point pts fr (n - 3)))) / 2.
Proof.
  intros Hi Hfr Hn Hl Hf Hd HV. unfold central_fdm_bvalue, fdm_front_bvalue, fdm_back_bvalue. cbv zeta.
  assert (P1 : point pts fr 0 < point pts fr 1) by (apply point_lt; auto; lia).
  assert (P2 : point pts fr 1 < point pts fr 2) by (apply point_lt; auto; lia).
  assert (Q1 : point pts fr (n - 2) < point pts fr (n - 1)) by (apply point_lt; auto; lia).
  assert (Q2 : point pts fr (n - 3) < point pts fr (n - 2)) by (apply point_lt; auto; lia).
  rewrite (rd_point pts fr fr 0), (rd_point pts fr (fr + 1) 1), (rd_point pts fr (fr + 2) 2) by lia.
  rewrite (rd_value f (fr + 1 - fr) 1), (rd_value f (fr + 2 - fr) 2) by lia.
  cbn [bind].
  assert (S0 : shows n d0 (fun k => nth k d0 0)) by (rewrite <- Hd; apply shows_refl).
  match goal with |- context [wr d0 (fr - fr) ?v] =>
    destruct (wr_value n d0 _ (fr - fr) 0 v S0) as [d1 [E1 S1]]; [lia|lia|]
  end.
  rewrite E1. cbn [bind].
  rewrite (rd_point pts fr (fr + Z.of_nat n - 1) (n - 1)), (rd_point pts fr (fr + Z.of_nat n - 1 - 1) (n - 2)),
    (rd_point pts fr (fr + Z.of_nat n - 1 - 2) (n - 3)) by lia.
  rewrite (rd_value f (fr + Z.of_nat n - 1 - 1 - fr) (n - 2)),
    (rd_value f (fr + Z.of_nat n - 1 - 2 - fr) (n - 3)) by lia.
  cbn [bind].
  match goal with |- context [wr d1 (fr + Z.of_nat n - 1 - fr) ?v] =>
    destruct (wr_value n d1 _ (fr + Z.of_nat n - 1 - fr) (n - 1) v S1) as [d2 [E2 S2]]; [lia|lia|]
  end.
  rewrite E2. cbn [bind].
  destruct (fdm_central_spec pts f fr n d2 _ Hfr ltac:(lia) Hl Hf S2) as [d3 [E3 [L3 [F3 [B3 I3]]]]].
  exists d3. split; [exact E3|]. split; [exact L3|]. unfold value at 1. split; [|split].
  - intros i Hin. destruct i as [|i]; [lia|]. rewrite I3 by lia. unfold centred_at.
    apply centred_exact' with (a := a); try (apply point_lt; auto; lia); apply HV; lia.
  - unfold value at 1. rewrite F3, upd_neq, upd_eq by lia. rewrite !HV by lia. unfold quad, quad'. field.
    repeat split; lra.
  - unfold value at 1. rewrite B3, upd_eq by lia. rewrite !HV by lia. unfold quad, quad'. field.
    repeat split; lra.
Qed.
